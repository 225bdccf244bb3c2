(** Model of the map from global to local functions of a multi-patch basis of hierarchical splines (src/gsMPBESMapHB2D.h with the functions of the
    base class, src/gsMPBESMapTensor.h), and of isLocallyConnected of that basis (src/gsMPBESHSplineBasis.hpp:194-214).

    Simplifications: as in MapAllModel.v, real arithmetic is exact, the matrix is the list of its columns, and what _setTensorMappingOfPatch reads for a
    patch is given, here for every level.  The tensor bases of a patch are given for every level; getBases() holds the first [hpNum] of them.  Of
    gsHTensorBasis (G+Smo core) this uses the lists m_xmatrix of the active functions of each level. *)
From Coq Require Import Reals.
From Verif Require Import Common TopoModel MapModel SplineModel BoehmModel MapAllModel.
Open Scope Z_scope.

(** one patch: tensor basis of every level, number of levels in getBases(), m_xmatrix (maxLevel() is its length less 1) *)
Record hpatch := mkHP { hpBase : nat -> mbase; hpNum : nat; hpX : list (list Z) }.
(** the basis: patches, topology, what is read for a patch at a level, knot vectors by level, patch and direction, weights *)
Record hmp := mkHM { hps : list hpatch; htop : topo; hconf : nat -> nat -> pconf; hkv : nat -> nat -> nat -> sbasis; hwt : pside -> R }.

(** gsHTensorBasis::size() *)
Definition hsize (P : hpatch) : Z := Z.of_nat (length (concat (hpX P))).
(** m_xmatrix_offset *)
Definition hoffset (P : hpatch) (lev : nat) : Z := Z.of_nat (length (concat (firstn lev (hpX P)))).
(** position in an ascending list (std::lower_bound) *)
Fixpoint posIn (x : Z) (l : list Z) : option nat :=
  match l with [] => None | y :: r => if x =? y then Some 0%nat else option_map S (posIn x r) end.
(** gsHTensorBasis::flatTensorIndexToHierachicalIndex (G+Smo core): -1 if the function is not active *)
Definition toHier (P : hpatch) (k : Z) (lev : nat) : Z :=
  match nth_error (hpX P) lev with
  | None => -1
  | Some xs => match posIn k xs with None => -1 | Some i => hoffset P lev + Z.of_nat i end
  end.
(** gsHTensorBasis::flatTensorIndexOf(i, level) (G+Smo core): reads m_xmatrix[level][i - offset] *)
Definition fromHier (P : hpatch) (i : Z) (lev : nat) : res Z :=
  do xs <- vget (hpX P) lev; if i <? hoffset P lev then Err else vget xs (Z.to_nat (i - hoffset P lev)).
(** getBases()[level] *)
Definition hbaseAt (P : hpatch) (lev : nat) : res mbase := if Nat.ltb lev (hpNum P) then Ok (hpBase P lev) else Err.

(** _getFirstLocalIndex, _getPatch and _getPatchIndex of the base class only read the sizes of the patches *)
Definition hsizes (H : hmp) : list mbase := map (fun P => mkMB (hsize P) 1 0 0) (hps H).

(** src/gsMPBESMapHB2D.h:167-170 _getLocalIndex(patch,u,v) with 215-219 and 222-227; an inactive function gets the number before the first one of the patch *)
Definition hlocalIndexOf (H : hmp) (lev p : nat) (u v : Z) : res Z :=
  do f <- firstLocalIndex (hsizes H) p; do P <- vget (hps H) p; do b <- hbaseAt P lev; Ok (f + toHier P (patchIndex b u v) lev).
(** src/gsMPBESMapHB2D.h:237-250 _getPar with 229-235 *)
Definition hgetPar (H : hmp) (lev : nat) (l : Z) (par : bool) : res Z :=
  do P <- vget (hps H) (getPatch (hsizes H) l); do k <- getPatchIndex (hsizes H) l; do x <- fromHier P k lev; do b <- hbaseAt P lev; Ok (patchPar b x par).
(** src/gsMPBESMapHB2D.h:146-149 _getParMax *)
Definition hparMax (H : hmp) (lev p : nat) (par : bool) : res Z := do P <- vget (hps H) p; do b <- hbaseAt P lev; Ok (parMax b par).

(** src/gsMPBESMapHB2D.h:172-213 _getPatchIndex(patch,side,flag): the function in a corner, of the first level where it is active;
    "did not find the patchindex" is [Err] *)
Fixpoint cornerHier (P : hpatch) (k : corner) (levs : list nat) : res Z :=
  match levs with
  | [] => Err
  | lev :: r =>
      do b <- hbaseAt P lev;
      let i := toHier P (patchIndex b (if cpar0 k then parMax b false else 0) (if cpar1 k then parMax b true else 0)) lev in
      if i =? -1 then cornerHier P k r else Ok i
  end.
(** src/gsMPBESMapTensor.h:764-779 _getLocalIndex(patchCorner) *)
Definition hlocalIndexOfCorner (H : hmp) (pc : pcorner) : res Z :=
  do P <- vget (hps H) (fst pc); do i <- cornerHier P (snd pc) (seq 0 (length (hpX P))); do f <- firstLocalIndex (hsizes H) (fst pc); Ok (f + i).

(** *** Travelling over interfaces at one level *)

(** src/gsMPBESMapTensor.h:711-734 _travelInsidePatch *)
Definition htravelInside (H : hmp) (lev : nat) (l : Z) (dir : bool) (n : Z) : res (Z * Z) :=
  let patch := getPatch (hsizes H) l in
  do par <- hgetPar H lev l dir;
  do pm <- hparMax H lev patch dir;
  do fixed <- hgetPar H lev l (negb dir);
  let '(par', n') :=
    if (0 <=? par + n) && (par + n <=? pm) then (par + n, 0)
    else if 0 <? n then (pm, n - (pm - par))
    else (0, n + par) in
  do l <- (if dir then hlocalIndexOf H lev patch fixed par' else hlocalIndexOf H lev patch par' fixed);
  Ok (l, n').

(** src/gsMPBESMapTensor.h:643-677 _transformToNeighbour and _transformIndexToNeighbour *)
Definition htransform (H : hmp) (lev : nat) (l : Z) (st : step) (rest : list step) : res (Z * list step) :=
  let patch := getPatch (hsizes H) l in
  do u <- hgetPar H lev l false;
  do v <- hgetPar H lev l true;
  let s := if snd st then (if 0 <? fst st then North else South) else (if 0 <? fst st then East else West) in
  match getInterface (htop H) (patch, s) with
  | None => Err
  | Some f =>
      do pn <- iother f (patch, s);
      do u_max <- hparMax H lev patch false;
      do v_max <- hparMax H lev patch true;
      do _ <- ensure (match s with West => u =? 0 | East => u =? u_max | South => v =? 0 | North => v =? v_max end);
      do _ <- ensure (negb (fst st =? 0));
      let orient := orientation f in
      let non_fixed := if snd st then u else v in
      let st' := (if 0 <? fst st then fst st - 1 else fst st + 1, snd st) in
      let steps' := map (transformStep s (snd pn) orient) (st' :: rest) in
      do un <- hparMax H lev (fst pn) false;
      do vn <- hparMax H lev (fst pn) true;
      do l <- (if Nat.eqb (side_dir (snd pn)) 1
               then hlocalIndexOf H lev (fst pn) (if orient then non_fixed else un - non_fixed) (if side_par (snd pn) then vn else 0)
               else hlocalIndexOf H lev (fst pn) (if side_par (snd pn) then un else 0) (if orient then non_fixed else vn - non_fixed));
      Ok (l, steps')
  end.

(** src/gsMPBESMapTensor.h:736-750 _travelUVSteps; [Err] when the fuel does not suffice *)
Fixpoint htravel (fuel : nat) (H : hmp) (lev : nat) (l : Z) (steps : list step) : res Z :=
  match steps with
  | [] => Ok l
  | st :: rest =>
      match fuel with
      | O => Err
      | S f =>
          do r <- htravelInside H lev l (snd st) (fst st);
          let (l, n) := (r : Z * Z) in
          if n =? 0 then htravel f H lev l rest
          else do q <- htransform H lev l (n, snd st) rest; htravel f H lev (fst q) (snd q)
      end
  end.

(** *** The map *)

(** src/gsMPBESMapTensor.h:583-600 with src/gsMPBESMapHB2D.h:140-144 _getKnotVector: the weights for one side *)
Definition hweights (H : hmp) (lev patch : nat) (s : side) (len dist : Z) : res (list R) :=
  do pn <- getNeighbour (htop H) (patch, s);
  do P <- vget (hps H) patch; do _ <- hbaseAt P lev; do Pn <- vget (hps H) (fst pn); do _ <- hbaseAt Pn lev;
  getBoehmCoefs (hkv H lev patch (side_dir s)) (side_par s) (hwt H (patch, s)) (hkv H lev (fst pn) (side_dir (snd pn))) (side_par (snd pn)) (hwt H pn)
    (Z.to_nat len) (Z.to_nat dist).

(** src/gsMPBESMapTensor.h:571-622 _addBlockToMap *)
Definition haddBlock (H : hmp) (lev : nat) (start : Z) (sides : list side) (lengths dists : list Z) : res (list column) :=
  do w1 <- mapM (fun x => hweights H lev (getPatch (hsizes H) start) (fst x) (fst (snd x)) (snd (snd x))) (combine sides (combine lengths dists));
  do pts <- blockPoints (blockFuel lengths) lengths (map (fun _ => 0) lengths);
  do entries <- mapM (fun pt =>
      do ws <- mapM (fun x => vget (fst x) (Z.to_nat (snd x))) (combine w1 pt);
      do l <- htravel (travelFuel lengths) H lev start (map (fun sx => towards (fst sx) (snd sx)) (combine sides pt));
      Ok (l, fold_left Rmult ws 1%R)) pts;
  Ok (if alreadyHandled (hsizes H) (map fst entries) (getPatch (hsizes H) start) then [] else [entries]).

(** src/gsMPBESMapTensor.h:517-545 _addSingularCornerToMap with 442-471 *)
Definition haddCorner (H : hmp) (lev : nat) (l : Z) : res (list column) :=
  do u <- hgetPar H lev l false;
  do v <- hgetPar H lev l true;
  let patch := getPatch (hsizes H) l in
  let c := if (u =? 0) && (v =? 0) then SW else if u =? 0 then NW else if v =? 0 then SE else NE in
  do cl <- cornerList (htop H) (patch, c);
  do vs <- mapM (hlocalIndexOfCorner H) cl;
  Ok (if alreadyHandled (hsizes H) vs patch then [] else [map (fun x => (x, 1%R)) vs]).

(** one function of a level of a patch; src/gsMPBESMapHB2D.h:157-165 _getLocalIndex_into: inactive functions are passed over *)
Definition haddAction (H : hmp) (lev patch : nat) (xa : Z * Z * act) : res (list column) :=
  do P <- vget (hps H) patch; do b <- hbaseAt P lev;
  if toHier P (patchIndex b (fst (fst xa)) (snd (fst xa))) lev =? -1 then Ok [] else
  do l <- hlocalIndexOf H lev patch (fst (fst xa)) (snd (fst xa));
  match snd xa with
  | Free => Ok [[(l, 1%R)]]
  | Singular => haddCorner H lev l
  | Line s len dist => haddBlock H lev l [s] [len] [dist]
  | Block s1 s2 len1 len2 dist1 dist2 => haddBlock H lev l [s1; s2] [len1; len2] [dist1; dist2]
  end.

(** src/gsMPBESMapHB2D.h:95-108 _getMaxLevel, as the number of levels *)
Definition hlevels (H : hmp) : nat := fold_left (fun m P => Nat.max m (length (hpX P))) (hps H) 0%nat.
(** src/gsMPBESMapHB2D.h:84-93 _setMappingOfPatch *)
Definition hpatchColumns (H : hmp) (p : nat) : res (list column) :=
  do P <- vget (hps H) p;
  do ls <- mapM (fun lev => if Nat.ltb lev (length (hpX P))
                            then do l <- mapM (haddAction H lev p) (patchActions (hconf H lev p)); Ok (concat l) else Ok [])
                (seq 0 (hlevels H));
  Ok (concat ls).
(** src/gsMPBESMapTensor.h:62-77 makeMapper; _finalize (src/gsMPBESMapHB2D.h:74-82) keeps the columns that have been used *)
Definition hmakeMapper (H : hmp) : res (list column) := do cs <- mapM (hpatchColumns H) (seq 0 (length (hps H))); Ok (concat cs).

(** *** Neighbours in the control mesh *)

(** gsHTensorBasis::levelOf (G+Smo core): the first level whose functions end behind the index *)
Fixpoint levelOfAux (xs : list (list Z)) (i : Z) : option nat :=
  match xs with [] => None | x :: r => if i <? Z.of_nat (length x) then Some 0%nat else option_map S (levelOfAux r (i - Z.of_nat (length x))) end.
Definition levelOf (P : hpatch) (i : Z) : res nat := if i <? 0 then Err else match levelOfAux (hpX P) i with Some l => Ok l | None => Err end.
(** src/gsMPBESHSplineBasis.hpp:194-214 isLocallyConnected; the entry of [vec_i] is taken with the index of the second function, [j]; beyond 1 it is [Err] *)
Definition hisLocallyConnected (H : hmp) (i j : Z) : res bool :=
  let pi := getPatch (hsizes H) i in let pj := getPatch (hsizes H) j in
  if negb (Nat.eqb pi pj) then Ok false else
  do Pi <- vget (hps H) pi; do Pj <- vget (hps H) pj;
  do li <- getPatchIndex (hsizes H) i; do lj <- getPatchIndex (hsizes H) j;
  do leveli <- levelOf Pi li; do levelj <- levelOf Pj lj;
  if negb (Nat.eqb leveli levelj) then Ok false else
  do ti <- fromHier Pi li leveli; do tj <- fromHier Pj lj levelj;
  do bi <- hbaseAt Pi leveli; do bj <- hbaseAt Pj levelj;
  let vec_i := [patchPar bi ti false; patchPar bi ti true] in let vec_j := [patchPar bj tj false; patchPar bj tj true] in
  do a <- (if j <? 0 then Err else vget vec_i (Z.to_nat j));
  Ok (Nat.eqb (length (filter (fun y => negb (a - y =? 0)) vec_j)) 1).
