(** Model of gsMPBESBSplineBasis::repairPatches (src/gsMPBESBSplineBasis.hpp:338-433): knots are inserted until the knots
    along all interfaces agree.

    Simplifications: knots are integers and comparisons with a tolerance are equalities; the coefficients, which are
    refined along with the bases, are left out. *)
From Verif Require Import Common TopoModel VertexModel.

(** src/gsMPBESBSplineBasis.hpp:400-419 the loop comparing the knots of a side with those of its neighbour: whether the side
    has knots the neighbour lacks, and the knots of the neighbour that are missing. Reading beyond the end of a knot
    vector is [Err]. *)
Fixpoint compareKnots (k : list Z) : list Z -> res (bool * list Z) :=
  fix go (kN : list Z) : res (bool * list Z) :=
    match k, kN with
    | [], [] => Ok (false, [])
    | x :: k', y :: kN' =>
        if (x =? y)%Z then compareKnots k' kN'
        else if (x <? y)%Z then do r <- compareKnots k' kN; Ok (true, snd r)
        else do r <- go kN'; Ok (fst r, y :: snd r)
    | _, _ => Err
    end.

(** src/gsMPBESBSplineBasis.hpp:385-420 the loop body for one side: nothing without neighbour, otherwise the patch number of
    the neighbour and the result of the comparison *)
Definition compareSide (t : topo) (B : list vbase) (b : vbase) (p : nat) (s : side) : res (option (nat * (bool * list Z))) :=
  match getInterface t (p, s) with
  | None => Ok None
  | Some f =>
      do qs <- iother f (p, s);
      do b' <- vget B (fst qs);
      let kN := knots b' (1 - side_dir (snd qs)) in
      do r <- compareKnots (knots b (1 - side_dir s)) (if ifflip f then kreverse kN else kN);
      Ok (Some (fst qs, r))
  end.

Definition extra (r : option (nat * (bool * list Z))) : bool := match r with Some (_, (e, _)) => e | None => false end.
Definition missing (r : option (nat * (bool * list Z))) : list Z := match r with Some (_, (_, l)) => l | None => [] end.
(** src/gsMPBESBSplineBasis.hpp:427-431: the neighbour at a side is checked again when the side has extra knots or knots
    are missing at the opposite side *)
Definition check (r o : option (nat * (bool * list Z))) : list nat :=
  match r with
  | Some (q, _) => if extra r || (match missing o with [] => false | _ => true end) then [q] else []
  | None => []
  end.

(** src/gsMPBESBSplineBasis.hpp:421-425: std::sort, std::unique *)
Definition sortUnique (l : list Z) : list Z := uniques (zsort l).

(** src/gsMPBESBSplineBasis.hpp:370-433 _knotsMatchNeighbours: knots to insert in the two directions, patches to check
    again; the knots matched when there is nothing to insert *)
Definition knotsMatchNeighbours (t : topo) (B : list vbase) (p : nat) : res (list Z * list Z * list nat) :=
  do b <- vget B p;
  do w <- compareSide t B b p West;
  do e <- compareSide t B b p East;
  do s <- compareSide t B b p South;
  do n <- compareSide t B b p North;
  Ok (sortUnique (missing s ++ missing n), sortUnique (missing w ++ missing e),
      check w e ++ check e w ++ check s n ++ check n s).

(** gsTensorBSplineBasis::insertKnots (G+Smo core) *)
Definition insertKnots (b : vbase) (i0 i1 : list Z) : vbase :=
  mkVB (fold_right zinsert (vk0 b) i0) (fold_right zinsert (vk1 b) i1) (vd0 b) (vd1 b).

(** insertion into an ascending list without repetition (std::set) *)
Fixpoint setInsert (x : nat) (l : list nat) : list nat :=
  match l with
  | [] => [x]
  | y :: r => if x <? y then x :: l else if x =? y then l else y :: setInsert x r
  end.

(** src/gsMPBESBSplineBasis.hpp:347-366 the loop; the first element of an empty set is [Err], [fuel] bounds the rounds and
    running out of it is [Err] *)
Fixpoint repairLoop (fuel : nat) (t : topo) (B : list vbase) (toCheck : list nat) : res (list vbase) :=
  match fuel with
  | 0 => Err
  | S fuel' =>
      match toCheck with
      | [] => Err
      | p :: r =>
          do m <- knotsMatchNeighbours t B p;
          let '(i0, i1, chk) := m in
          do b <- vget B p;
          do B' <- vset B p (insertKnots b i0 i1);
          let toCheck' := fold_left (fun l x => setInsert x l) chk r in
          match toCheck' with [] => Ok B' | _ => repairLoop fuel' t B' toCheck' end
      end
  end.

(** src/gsMPBESBSplineBasis.hpp:338-346 repairPatches, from all patches or from one *)
Definition repairPatches (fuel : nat) (t : topo) (B : list vbase) (startFrom : option nat) : res (list vbase) :=
  repairLoop fuel t B (match startFrom with None => seq 0 (length B) | Some p => [p] end).
