(** Model of the combination of local functions in the multi-patch B-spline basis with enhanced smoothness
    (gsMPBESMapTensor, gsMPBESMapB2D): numbering, division of a patch into regions, travelling over interfaces, and the
    columns of the resulting map. *)
From Verif Require Import Common TopoModel.
Open Scope Z_scope.

(** One tensor basis: size(0), size(1), degree(0), degree(1) (G+Smo core). *)
Record mbase := mkMB { mb_u : Z; mb_v : Z; mb_du : Z; mb_dv : Z }.

(** gsBasis::size() of a tensor basis = m_basis->localSize(i) *)
Definition mb_size (b : mbase) : Z := mb_u b * mb_v b.

(** *** Numbering of the local functions *)

(** src/gsMPBESMapTensor.h:784-792 _getFirstLocalIndex; reading a patch that does not exist is [Err] *)
Definition firstLocalIndex (bs : list mbase) (patch : nat) : res Z :=
  foldM (fun index i => do b <- vget bs i; Ok (index + mb_size b)) (seq 0 patch) 0.

(** src/gsMPBESMapTensor.h:794-797 _getLastLocalIndex *)
Definition lastLocalIndex (bs : list mbase) (patch : nat) : res Z :=
  do f <- firstLocalIndex bs patch; do b <- vget bs patch; Ok (f + mb_size b - 1).

(** src/gsMPBESMapTensor.h:812-823 _getPatch: the loop variable keeps the value nPatches when no patch breaks the loop *)
Fixpoint getPatch (bs : list mbase) (localIndex : Z) : nat :=
  match bs with
  | [] => 0%nat
  | b :: r => if mb_size b <=? localIndex then S (getPatch r (localIndex - mb_size b)) else 0%nat
  end.

(** src/gsMPBESMapTensor.h:802-810 _getPatchIndex(localIndex) *)
Definition getPatchIndex (bs : list mbase) (localIndex : Z) : res Z :=
  foldM (fun index i => do b <- vget bs i; Ok (index - mb_size b)) (seq 0 (getPatch bs localIndex)) localIndex.

(** src/gsMPBESMapTensor.h:87-93 _getNrOfLocalBasisFunktions *)
Definition nrOfLocals (bs : list mbase) : Z := fold_left (fun s b => s + mb_size b) bs 0.

(** src/gsMPBESMapB2D.h:147-150 _getParMax *)
Definition parMax (b : mbase) (par : bool) : Z := (if par then mb_v b else mb_u b) - 1.

(** src/gsMPBESMapB2D.h:186-191 _getPatchIndex(patch,u,v) = gsTensorBasis::index (G+Smo core) *)
Definition patchIndex (b : mbase) (u v : Z) : Z := u + mb_u b * v.

(** src/gsMPBESMapB2D.h:193-202 _getPar = gsTensorBasis::tensorIndex (G+Smo core) *)
Definition patchPar (b : mbase) (k : Z) (par : bool) : Z := if par then k / mb_u b else k mod mb_u b.

Definition getPar (bs : list mbase) (localIndex : Z) (par : bool) : res Z :=
  do b <- vget bs (getPatch bs localIndex); do k <- getPatchIndex bs localIndex; Ok (patchPar b k par).

(** src/gsMPBESMapB2D.h:165-168 _getLocalIndex(patch,u,v) with src/gsMPBESMapTensor.h:759-762 *)
Definition localIndexOf (bs : list mbase) (patch : nat) (u v : Z) : res Z :=
  do f <- firstLocalIndex bs patch; do b <- vget bs patch; Ok (f + patchIndex b u v).

(** src/gsMPBESMapB2D.h:170-184 _getPatchIndex(patch,side,flag) with src/gsMPBESMapTensor.h:764-779
    _getLocalIndex(patchCorner): first the south or north side, then the end of that side *)
Definition localIndexOfCorner (bs : list mbase) (pc : pcorner) : res Z :=
  do b <- vget bs (fst pc);
  let u := if cpar0 (snd pc) then parMax b false else 0 in
  if cpar1 (snd pc) then localIndexOf bs (fst pc) u (parMax b true) else localIndexOf bs (fst pc) u 0.

(** *** Division of one patch into regions *)

(** for (k = a; k < b; k++) *)
Definition zrange (a b : Z) : list Z := map (fun k => a + Z.of_nat k) (seq 0 (Z.to_nat (b - a))).

(** The calls made for one local function: _addFreeToMap, _addSingularCornerToMap, _addCombinedLineToMap(side, length,
    distance), _addCombinedBlockToMap(side, side, length, length, distance, distance). *)
Inductive act :=
| Free
| Singular
| Line (s : side) (len dist : Z)
| Block (s1 s2 : side) (len1 len2 dist1 dist2 : Z).

(** What _setTensorMappingOfPatch reads: numbers of functions per direction, degrees cut at the requested smoothness,
    which sides are interfaces, which corners are special, distances of the corners along the horizontal (south/north) and
    vertical (west/east) sides, and whether the whole basis has one patch only. *)
Record pconf := mkPC {
  pU : Z; pV : Z; pdu : Z; pdv : Z;
  pInt : side -> bool; pSpec : corner -> bool;
  pH : corner -> Z; pW : corner -> Z; pOne : bool }.

(** src/gsMPBESMapTensor.h:135-154: two distances on one side that do not fit are replaced by halves *)
Definition clampHalf (amount a b : Z) : Z * Z := if amount <? a + b then (amount / 2, amount - amount / 2) else (a, b).

Record pdist := mkPD { ne_u : Z; nw_u : Z; se_u : Z; sw_u : Z; se_v : Z; ne_v : Z; sw_v : Z; nw_v : Z }.
Definition clamped (c : pconf) : pdist :=
  let n := clampHalf (pU c) (pH c NE) (pH c NW) in
  let s := clampHalf (pU c) (pH c SE) (pH c SW) in
  let e := clampHalf (pV c) (pW c SE) (pW c NE) in
  let w := clampHalf (pV c) (pW c SW) (pW c NW) in
  mkPD (fst n) (snd n) (fst s) (snd s) (fst e) (snd e) (fst w) (snd w).

(** a double loop over j in [j0,j1) and i in [i0,i1) *)
Definition loop2 (j0 j1 i0 i1 : Z) (f : Z -> Z -> option act) : list (Z * Z * act) :=
  flat_map (fun j => flat_map (fun i => match f i j with Some a => [((i, j), a)] | None => [] end) (zrange i0 i1)) (zrange j0 j1).

(** src/gsMPBESMapTensor.h:103-331 _setTensorMappingOfPatch: the calls made for the functions of one patch, in order.
    [_getLocalIndex_into] always succeeds for tensor B-splines (gsMPBESMapB2D.h:159-163). *)
Definition patchActions (c : pconf) : list (Z * Z * act) :=
  let u_amount := pU c in let v_amount := pV c in
  let degree_u := pdu c in let degree_v := pdv c in
  let north := pInt c North in let south := pInt c South in
  let east := pInt c East in let west := pInt c West in
  let D := clamped c in
  let n_l_v := if north then degree_v else 0 in
  let s_l_v := if south then degree_v else 0 in
  let e_l_u := if east then degree_u else 0 in
  let w_l_u := if west then degree_u else 0 in
  let north_same := pOne c && south in
  let east_same := pOne c && east in
  let southwest := pSpec c SW in let southeast := pSpec c SE in
  let northwest := pSpec c NW in let northeast := pSpec c NE in
  (* 171-192 south-west *)
  loop2 0 (sw_v D) 0 (sw_u D) (fun i j =>
    if (degree_u <=? i) && (degree_v <=? j) then None
    else if (southwest || (degree_u =? 1) || (degree_v =? 1)) && (i =? 0) && (j =? 0) then Some Singular
    else if southwest && west && (i =? 0) then Some (Line West 1 0)
    else if southwest && south && (j =? 0) then Some (Line South 1 0)
    else if negb southwest && south && west then Some (Block South West degree_u degree_v j i)
    else if negb southwest && south && negb west then Some (Line South degree_v j)
    else if negb southwest && negb south && west then Some (Line West degree_u i)
    else Some Free)
  (* 194-203 south-middle *)
  ++ loop2 0 s_l_v (sw_u D) (u_amount - se_u D) (fun i j =>
    if south then Some (Line South degree_v j) else Some Free)
  (* 205-228 south-east *)
  ++ loop2 0 (se_v D) (u_amount - se_u D) u_amount (fun i j =>
    if (i <? u_amount - degree_u) && (degree_v <=? j) then None
    else if negb southeast && east_same then None
    else if (southeast || (degree_u =? 1) || (degree_v =? 1)) && (i =? u_amount - 1) && (j =? 0) then Some Singular
    else if southeast && east && (i =? u_amount - 1) then Some (Line East 1 0)
    else if southeast && south && (j =? 0) then Some (Line South 1 0)
    else if negb southeast && south && east then Some (Block South East degree_u degree_v j (u_amount - 1 - i))
    else if negb southeast && south && negb east then Some (Line South degree_v j)
    else if negb southeast && negb south && east then Some (Line East degree_u (u_amount - 1 - i))
    else Some Free)
  (* 230-239 west-middle *)
  ++ loop2 (sw_v D) (v_amount - nw_v D) 0 w_l_u (fun i j =>
    if west then Some (Line West degree_u i) else Some Free)
  (* 241-255 middle-middle *)
  ++ loop2 s_l_v (v_amount - n_l_v) w_l_u (u_amount - e_l_u) (fun i j =>
    if (j <? sw_v D) && (j <? degree_v) && (i <? sw_u D) && (i <? degree_u) then None
    else if (j <? se_v D) && (j <? degree_v) && (u_amount - se_u D <=? i) && (u_amount - degree_u <=? i) then None
    else if (v_amount - ne_v D <=? j) && (v_amount - degree_v <=? j) && (u_amount - ne_u D <=? i) && (u_amount - degree_u <=? i) then None
    else if (v_amount - nw_v D <=? j) && (v_amount - degree_v <=? j) && (i <? nw_u D) && (i <? degree_u) then None
    else Some Free)
  (* 257-268 east-middle *)
  ++ loop2 (se_v D) (v_amount - ne_v D) (u_amount - e_l_u) u_amount (fun i j =>
    if east && east_same then None
    else if east then Some (Line East degree_u (u_amount - 1 - i)) else Some Free)
  (* 270-293 north-west *)
  ++ loop2 (v_amount - nw_v D) v_amount 0 (nw_u D) (fun i j =>
    if (degree_u <=? i) && (j <? v_amount - degree_v) then None
    else if negb northwest && north_same then None
    else if (northwest || (degree_u =? 1) || (degree_v =? 1)) && (i =? 0) && (j =? v_amount - 1) then Some Singular
    else if northwest && west && (i =? 0) then Some (Line West 1 0)
    else if northwest && north && (j =? v_amount - 1) then Some (Line North 1 0)
    else if negb northwest && north && west then Some (Block North West degree_u degree_v (v_amount - 1 - j) i)
    else if negb northwest && north && negb west then Some (Line North degree_v (v_amount - 1 - j))
    else if negb northwest && negb north && west then Some (Line West degree_u i)
    else Some Free)
  (* 295-306 north-middle *)
  ++ loop2 (v_amount - n_l_v) v_amount (nw_u D) (u_amount - ne_u D) (fun i j =>
    if north && north_same then None
    else if north then Some (Line North degree_v (v_amount - 1 - j)) else Some Free)
  (* 308-331 north-east *)
  ++ loop2 (v_amount - ne_v D) v_amount (u_amount - ne_u D) u_amount (fun i j =>
    if (i <? u_amount - degree_u) && (j <? v_amount - degree_v) then None
    else if negb northeast && (north_same || east_same) then None
    else if (northeast || (degree_u =? 1) || (degree_v =? 1)) && (i =? u_amount - 1) && (j =? v_amount - 1) then Some Singular
    else if northeast && east && (i =? u_amount - 1) then Some (Line East 1 0)
    else if northeast && north && (j =? v_amount - 1) then Some (Line North 1 0)
    else if negb northeast && north && east then Some (Block North East degree_u degree_v (v_amount - 1 - j) (u_amount - 1 - i))
    else if negb northeast && north && negb east then Some (Line North degree_v (v_amount - 1 - j))
    else if negb northeast && negb north && east then Some (Line East degree_u (u_amount - 1 - i))
    else Some Free).

(** *** Points of a block *)

(** src/gsMPBESMapTensor.h:624-636 _nextPoint: advance the first coordinate that can be advanced, reset those before it *)
Fixpoint nextPoint (lengths : list Z) (point : list Z) : bool * list Z :=
  match lengths, point with
  | l :: ls, p :: ps =>
      if p + 1 <=? l then (true, (p + 1) :: ps)
      else let (b, ps') := nextPoint ls ps in (b, 0 :: ps')
  | _, _ => (false, point)
  end.

(** src/gsMPBESMapTensor.h:601-618: the do-while loop of _addBlockToMap; [Err] when the fuel does not suffice *)
Fixpoint blockPoints (fuel : nat) (lengths point : list Z) : res (list (list Z)) :=
  match fuel with
  | O => Err
  | S f =>
      let (more, p') := nextPoint lengths point in
      if more then do r <- blockPoints f lengths p'; Ok (point :: r) else Ok [point]
  end.

(** *** Travelling over interfaces *)

Definition step := (Z * bool)%type. (* signed length, direction (true = v) *)

(** src/gsMPBESMapTensor.h:711-734 _travelInsidePatch: new index and rest of the step *)
Definition travelInsidePatch (bs : list mbase) (localIndex : Z) (dir : bool) (n : Z) : res (Z * Z) :=
  let patch := getPatch bs localIndex in
  do b <- vget bs patch;
  do par <- getPar bs localIndex dir;
  do fixed <- getPar bs localIndex (negb dir);
  let pm := parMax b dir in
  let '(par', n') :=
    if (0 <=? par + n) && (par + n <=? pm) then (par + n, 0)
    else if 0 <? n then (pm, n - (pm - par))
    else (0, n + par) in
  do l <- (if dir then localIndexOf bs patch fixed par' else localIndexOf bs patch par' fixed);
  Ok (l, n').

(** src/gsMPBESMapTensor.h:678-709 _transformStepsToNeighbour: nothing happens for opposite sides, where the steps keep
    their direction; the case of opposite sides with reversed orientation is not treated there either. *)
Definition transformStep (s1 s2 : side) (orient : bool) (st : step) : step :=
  let along := Bool.eqb (snd st) (Nat.eqb (side_dir s1) 1) in
  let neg (x : Z) := - x in
  if side_eqb s1 s2 then
    (if along then (neg (fst st), snd st) else if negb orient then (neg (fst st), snd st) else st)
  else match s1, s2 with
  | West, South | East, North | South, West | North, East =>
      ((if along then neg (fst st) else if negb orient then neg (fst st) else fst st), negb (snd st))
  | West, North | East, South | South, East | North, West =>
      ((if along then fst st else if negb orient then neg (fst st) else fst st), negb (snd st))
  | _, _ => st
  end.

(** boundaryInterface::dirOrientation(ps, 1-ps.direction()) (G+Smo core): true when both sides run in the same sense *)
Definition orientation (f : iface) : bool := negb (ifflip f).

(** src/gsMPBESMapTensor.h:643-666 _transformToNeighbour and 668-677 _transformIndexToNeighbour *)
Definition transformToNeighbour (bs : list mbase) (t : topo) (localIndex : Z) (st : step) (rest : list step)
  : res (Z * list step) :=
  let patch := getPatch bs localIndex in
  do u <- getPar bs localIndex false;
  do v <- getPar bs localIndex true;
  do b <- vget bs patch;
  let s := if snd st then (if 0 <? fst st then North else South) else (if 0 <? fst st then East else West) in
  match getInterface t (patch, s) with
  | None => Err
  | Some f =>
      do pn <- iother f (patch, s);
      do _ <- ensure (match s with
                      | West => u =? 0 | East => u =? parMax b false
                      | South => v =? 0 | North => v =? parMax b true end);
      do _ <- ensure (negb (fst st =? 0));
      let orient := orientation f in
      let non_fixed := if snd st then u else v in
      let st' := (if 0 <? fst st then fst st - 1 else fst st + 1, snd st) in
      let steps' := map (transformStep s (snd pn) orient) (st' :: rest) in
      do bn <- vget bs (fst pn);
      do l <- (if Nat.eqb (side_dir (snd pn)) 1
               then localIndexOf bs (fst pn) (if orient then non_fixed else parMax bn false - non_fixed)
                                 (if side_par (snd pn) then parMax bn true else 0)
               else localIndexOf bs (fst pn) (if side_par (snd pn) then parMax bn false else 0)
                                 (if orient then non_fixed else parMax bn true - non_fixed));
      Ok (l, steps')
  end.

(** src/gsMPBESMapTensor.h:736-750 _travelUVSteps; [Err] when the fuel does not suffice *)
Fixpoint travelUVSteps (fuel : nat) (bs : list mbase) (t : topo) (localIndex : Z) (steps : list step) : res Z :=
  match steps with
  | [] => Ok localIndex
  | st :: rest =>
      match fuel with
      | O => Err
      | S f =>
          do r <- travelInsidePatch bs localIndex (snd st) (fst st);
          let (l, n) := (r : Z * Z) in
          if n =? 0 then travelUVSteps f bs t l rest
          else do q <- transformToNeighbour bs t l (n, snd st) rest;
               travelUVSteps f bs t (fst q) (snd q)
      end
  end.

(** *** Blocks *)

(** src/gsMPBESMapTensor.h:601-616: the step for one side, towards the side *)
Definition towards (s : side) (n : Z) : step := (if side_par s then n else - n, Nat.eqb (side_dir s) 1).

(** enough iterations for one call of _travelUVSteps: every iteration either finishes a step or shortens it *)
Definition travelFuel (lengths : list Z) : nat := (Z.to_nat (sumZ lengths) + length lengths + 1)%nat.
Definition blockFuel (lengths : list Z) : nat := Z.to_nat (fold_right (fun l r => (l + 1) * r) 1 lengths).

(** src/gsMPBESMapTensor.h:571-622 _addBlockToMap: the local functions that are combined.  The weights (knot insertion
    coefficients, _getBoehmCoefs 390-430) are not computed here. *)
Definition blockLocals (bs : list mbase) (t : topo) (start : Z) (sides : list side) (lengths : list Z) : res (list Z) :=
  do pts <- blockPoints (blockFuel lengths) lengths (map (fun _ => 0) lengths);
  mapM (fun pt => travelUVSteps (travelFuel lengths) bs t start (map (fun sx => towards (fst sx) (snd sx)) (combine sides pt))) pts.

(** src/gsMPBESMapTensor.h:451-457 _alreadyHandled(local_BFs,startPatch) *)
Definition alreadyHandled (bs : list mbase) (locals : list Z) (startPatch : nat) : bool :=
  existsb (fun l => Nat.ltb (getPatch bs l) startPatch) locals.

(** src/gsMPBESMapTensor.h:619-621: the column that is added, if any *)
Definition addBlock (bs : list mbase) (t : topo) (start : Z) (sides : list side) (lengths : list Z) : res (option (list Z)) :=
  do ls <- blockLocals bs t start sides lengths;
  Ok (if alreadyHandled bs ls (getPatch bs start) then None else Some ls).
