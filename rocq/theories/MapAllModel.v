(** Model of the whole map from global to local functions in the multi-patch B-spline basis with enhanced smoothness:
    makeMapper, _addToMap and the functions that add entries (src/gsMPBESMapTensor.h:62-77, 507-622), for tensor B-splines
    (src/gsMPBESMapB2D.h).

    Simplifications: real arithmetic is exact; the matrix of gsWeightMapper (core) is the list of its columns, a column is the list of the
    calls setEntry(row, column, value) in order; what _setTensorMappingOfPatch reads for a patch is given ([pconf], MapModel.v). *)
From Coq Require Import Reals.
From Verif Require Import Common TopoModel MapModel SplineModel BoehmModel.
Open Scope Z_scope.

(** bases, topology, what is read for each patch, knot vectors by patch and direction, weights of sides *)
Record mpbes := mkMP { mbs : list mbase; mtop : topo; mconf : nat -> pconf; mkv : nat -> nat -> sbasis; mwt : pside -> R }.

Definition column := list (Z * R).

(** src/gsMPBESMapTensor.h:583-600: the weights for one side *)
Definition weights1 (M : mpbes) (patch : nat) (s : side) (len dist : Z) : res (list R) :=
  do pn <- getNeighbour (mtop M) (patch, s);
  getBoehmCoefs (mkv M patch (side_dir s)) (side_par s) (mwt M (patch, s)) (mkv M (fst pn) (side_dir (snd pn))) (side_par (snd pn)) (mwt M pn)
    (Z.to_nat len) (Z.to_nat dist).

(** src/gsMPBESMapTensor.h:571-622 _addBlockToMap; the sides belong to the patch of the function *)
Definition addBlockToMap (M : mpbes) (start : Z) (sides : list side) (lengths dists : list Z) : res (list column) :=
  do w1 <- mapM (fun x => weights1 M (getPatch (mbs M) start) (fst x) (fst (snd x)) (snd (snd x))) (combine sides (combine lengths dists));
  do pts <- blockPoints (blockFuel lengths) lengths (map (fun _ => 0) lengths);
  do entries <- mapM (fun pt =>
      do ws <- mapM (fun x => vget (fst x) (Z.to_nat (snd x))) (combine w1 pt);
      do l <- travelUVSteps (travelFuel lengths) (mbs M) (mtop M) start (map (fun sx => towards (fst sx) (snd sx)) (combine sides pt));
      Ok (l, fold_left Rmult ws 1%R)) pts;
  Ok (if alreadyHandled (mbs M) (map fst entries) (getPatch (mbs M) start) then [] else [entries]).

(** src/gsMPBESMapTensor.h:459-471 _findVertexInPatches *)
Definition findVertex (M : mpbes) (pc : pcorner) : res (list Z) :=
  do l <- cornerList (mtop M) pc; mapM (localIndexOfCorner (mbs M)) l.

(** src/gsMPBESMapTensor.h:517-545 _addSingularCornerToMap and 442-449 _alreadyHandled(ps,flag) *)
Definition addSingularCorner (M : mpbes) (localIndex : Z) : res (list column) :=
  do u <- getPar (mbs M) localIndex false;
  do v <- getPar (mbs M) localIndex true;
  let patch := getPatch (mbs M) localIndex in
  let c := if (u =? 0) && (v =? 0) then SW else if u =? 0 then NW else if v =? 0 then SE else NE in
  do vs <- findVertex M (patch, c);
  Ok (if alreadyHandled (mbs M) vs patch then [] else [map (fun x => (x, 1%R)) vs]).

(** the call for one function of a patch; _addFreeToMap is 507-515, _addCombinedLineToMap and _addCombinedBlockToMap 547-569 *)
Definition addAction (M : mpbes) (patch : nat) (xa : Z * Z * act) : res (list column) :=
  do l <- localIndexOf (mbs M) patch (fst (fst xa)) (snd (fst xa));
  match snd xa with
  | Free => Ok [[(l, 1%R)]]
  | Singular => addSingularCorner M l
  | Line s len dist => addBlockToMap M l [s] [len] [dist]
  | Block s1 s2 len1 len2 dist1 dist2 => addBlockToMap M l [s1; s2] [len1; len2] [dist1; dist2]
  end.

(** src/gsMPBESMapTensor.h:62-77 makeMapper: the columns in the order of m_global *)
Definition makeMapper (M : mpbes) : res (list column) :=
  do cs <- mapM (fun p => do l <- mapM (addAction M p) (patchActions (mconf M p)); Ok (concat l)) (seq 0 (length (mbs M)));
  Ok (concat cs).

(** the value of row [l] in a column: that of the last call for this row *)
Definition entry (c : column) (l : Z) : R := fold_left (fun a e => if fst e =? l then snd e else a) c 0%R.
