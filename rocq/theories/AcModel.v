(** The smoothing matrix of gsAlmostC1: the handlers of src/gsAlmostC1.hpp:901-1051 on top of those of src/gsDPatchBase.hpp
    (DpModel.v), and the treatment of the special vertices, src/gsAlmostC1.hpp:591-682.

    Simplifications: as in DpModel.v and TriangleModel.v.  The bases before the refinement have one level and number their functions
    like the tensor bases m_Bbases, so that one model stands for both.  What is read from the refined geometry is given. *)
From Coq Require Import Reals Qreals.
From Verif Require Import Common TopoModel BaseModel BaseModel2 RingModel RefModel DpModel TriangleModel EvModel.
Open Scope nat_scope.

(* ------------------------------------------------------------------ *)
(** * Handlers *)

(** src/gsAlmostC1.hpp:1008, 1011, 1029, 1047: m_basisCheck[rowIdx] = true *)
Definition acCheck (C : dctx) (s : xstate) (r : nat) : res xstate :=
  do bc <- vset (xs_basis s) r true; Ok (mkXS (xs_side s) (xs_vert s) bc (xs_mat s)).

(** src/gsAlmostC1.hpp:1002-1010, 1025-1032, 1042-1049: those of the functions that are free are marked as handled; the row that
    was looked up last is returned *)
Definition acMark (C : dctx) (s : xstate) (r0 : nat) (l : list dof) : res (xstate * nat) :=
  foldM (fun (st : xstate * nat) (x : dof) =>
    if cis_free (dcMod C) (snd x) (fst x) then
      do r <- drow C (snd x) (fst x);
      do s <- acCheck C (fst st) r;
      Ok (s, r)
    else Ok st) l (s, r0).

(** weights 1/2 from the functions on both sides of an interface to row [r]: src/gsAlmostC1.hpp:938-957 and
    src/gsDPatchBase.hpp:1739-1755 *)
Definition acHalves (C : dctx) (pc : pcorner) (r : nat) (sd : side) : res (list entry) :=
  match getInterface (dtopo C) (fst pc, sd) with
  | None => Err
  | Some f =>
      do os <- getNeighbour (dtopo C) (fst pc, sd);
      do oc <- imapCorner f pc;
      do i1 <- difv C 1 pc sd 0;
      do i2 <- difv C 1 oc (snd os) 0;
      do c1 <- dcol C i1 (fst pc);
      do c2 <- dcol C i2 (fst os);
      Ok [(r, c1, half); (r, c2, half)]
  end.

(** src/gsDPatchBase.hpp:1689-1772, _handleIrregularBoundaryVertexNonSmooth *)
Definition bNonSmooth (C : dctx) (s : xstate) (pc : pcorner) : res xstate :=
  do b11 <- difv C 1 pc (cside (snd pc) 0) 1;
  do r <- drow C b11 (fst pc);
  do c11 <- dcol C b11 (fst pc);
  do ess <- mapM (fun sd =>
      match getInterface (dtopo C) (fst pc, sd) with
      | None =>
          do i <- difv C 1 pc sd 0;
          do ri <- drow C i (fst pc);
          do ci <- dcol C i (fst pc);
          Ok [(ri, ci, 1%Q)]
      | Some _ => acHalves C pc r sd
      end) (containing_sides (snd pc));
  do b00 <- difv C 0 pc (cside (snd pc) 0) 0;
  do r0 <- drow C b00 (fst pc);
  do c0 <- dcol C b00 (fst pc);
  do s <- dpush C ((r, c11, 1%Q) :: concat ess ++ [(r0, c0, 1%Q)]) s;
  setVert s pc.

(** src/gsAlmostC1.hpp:901-905 and 1016-1034, _handleRegularBoundaryVertexNonSmooth and _handleIrregularBoundaryVertexNonSmooth *)
Definition acNonSmooth (C : dctx) (s : xstate) (pc : pcorner) : res xstate :=
  do s <- bNonSmooth C s pc;
  do l <- rInterfaceIndices (dring (dcI C)) pc 1;
  do st <- acMark C s 0 l;
  Ok (fst st).

(** src/gsAlmostC1.hpp:907-1014, _handleIrregularBoundaryVertexSmooth *)
Definition acSmooth (C : dctx) (s : xstate) (pc : pcorner) : res xstate :=
  do l <- cornerList (dtopo C) pc;
  do b11 <- difv C 1 pc (cside (snd pc) 0) 1;
  do r <- drow C b11 (fst pc);
  do c11 <- dcol C b11 (fst pc);
  do ess <- mapM (fun sd => if isInterface (dtopo C) (fst pc, sd) then acHalves C pc r sd else Ok []) (containing_sides (snd pc));
  do cols <- mapM (fun c' => do b <- rbasisOf (dring (dcI C)) (fst c'); Ok (rcorner b (snd c'), fst c')) l;
  do bes <- mapM (fun sd =>
      match getInterface (dtopo C) (fst pc, sd) with
      | Some _ => Ok []
      | None =>
          do i <- difv C 1 pc sd 0;
          do ri <- drow C i (fst pc);
          do ci <- dcol C i (fst pc);
          Ok [(ri, ci)]
      end) (containing_sides (snd pc));
  let rows := concat bes in
  do _ <- ensure (length rows <? 2);
  do hs <- match rows with
           | [(ri, _)] => mapM (fun x => do c <- dcol C (fst x) (snd x); Ok (ri, c, half)) cols
           | _ => Ok []
           end;
  do s <- dpush C ((r, c11, 1%Q) :: concat ess ++ map (fun x => (fst x, snd x, 1%Q)) rows ++ hs) s;
  let r := match rows with [(ri, _)] => ri | _ => r end in
  do i0 <- rInterfaceIndices (dring (dcI C)) pc 0;
  do st <- acMark C s r i0;
  do s <- acCheck C (fst st) (snd st);
  setVert s pc.

(** src/gsAlmostC1.hpp:1036-1051, _handleInteriorVertex *)
Definition acInteriorVertex (C : dctx) (s : xstate) (pc : pcorner) (valence : nat) : res xstate :=
  do s <- dInteriorVertex C s pc valence;
  do l <- rInterfaceIndices (dring (dcI C)) pc 0;
  do st <- acMark C s 0 l;
  Ok (fst st).

(** src/gsDPatchBase.hpp:969-999, _handleVertex, with the functions of gsAlmostC1 *)
Definition acVertex (C : dctx) (s : xstate) (pc : pcorner) : res xstate :=
  do chk <- vget (xs_vert s) (vertIndex pc);
  if (chk : bool) then Ok s else
  do vd <- vertexData (dtopo C) pc;
  do c0 <- vget (riC0 (dring (dcI C))) (vertIndex pc);
  let v := fst vd in
  if negb (snd vd) then
    if v =? 1 then dRegularCorner C s pc
    else if (v =? 2) && negb c0 then dRegularBoundary [0; 1] C s pc
    else if (v =? 2) && c0 then acNonSmooth C s pc
    else if (2 <? v) && negb c0 then acSmooth C s pc
    else if (2 <? v) && c0 then acNonSmooth C s pc
    else Err
  else acInteriorVertex C s pc v.

(** src/gsDPatchBase.hpp:1176-1206, _computeSmoothMatrix *)
Definition acLoops (C : dctx) : res xstate :=
  let t := dtopo C in
  let np := length (ribases (dring (dcI C))) in
  let s0 := mkXS (repeat false (2 * length (tif t) + length (tbd t))) (repeat false (4 * np)) (repeat false (dcRows C)) [] in
  do s <- foldM (acVertex C) (all_corners np) s0;
  do s <- foldM (dInterface C) (tif t) s;
  do s <- foldM (dBoundary C) (tbd t) s;
  dInterior C s.

(** src/gsDPatchBase.hpp:25-36 up to the first _checkMatrix, with the size checks (1179, 1251) *)
Definition acCompute (I : dinput) : res dresult :=
  do size <- rcountDoFs SchemeAlmostC1 (dring I);
  do m <- rMapper SchemeAlmostC1 (dring I);
  do _ <- ensure (Z.of_nat (cfreeSize m) =? size)%Z;
  let cols := cfreeSize (cmap_of (map rsize (ribases (dring I)))) in
  do s <- acLoops (mkDC I m (Z.to_nat size) cols);
  do _ <- performChecks s;
  Ok (mkDR (Z.to_nat size) cols m (xs_mat s)).

(* ------------------------------------------------------------------ *)
(** * Special vertices *)

(** What is read from the refined patches: _indexFromVert on the refined bases, m_mapOriginal.index, the dimension, control points
    (patch, index), the point and the normal at a corner; [rf_t] is the transfer matrix *)
Record refinedIn := mkRF {
  rf_ix : nat -> pcorner -> side -> nat -> res nat;
  rf_col : nat -> nat -> res nat;
  rf_dim : nat;
  rf_coef : nat -> nat -> vec3;
  rf_point : pcorner -> vec3;
  rf_normal : pcorner -> vec3;
  rf_t : nat -> nat -> R }.

(** src/gsAlmostC1.hpp:85-222: corners of the triangle at a corner, columns and barycentric coordinates of the functions around it
    (makeTriangle: TriangleModel.v) *)
Definition acTri (t : topo) (F : refinedIn) (pc : pcorner) : res (list vec3 * (list nat * list vec3)) :=
  do l <- cornerList t pc;
  do cs <- mapM (fun c => mapM (fun ij =>
      do i <- rf_ix F (fst ij) c (cside (snd c) 0) (snd ij);
      do col <- rf_col F i (fst c);
      Ok (col, rf_coef F (fst c) i)) [(0, 0); (0, 1); (1, 0); (1, 1)]) l;
  let us := concat cs in
  do r <- makeTriangle (rf_dim F) (rf_point F pc) (map snd us) (map (rf_normal F) l);
  Ok (fst r, (map fst us, snd r)).

(** src/gsAlmostC1.hpp:628: std::tie(std::ignore,ub,uind) = _makeTriangle(pcorner) *)
Definition acTriangle (t : topo) (F : refinedIn) (pc : pcorner) : res (list nat * list vec3) :=
  do T <- acTri t F pc; Ok (snd T).

(** src/gsAlmostC1.hpp:630-656 *)
Definition acRows (I : rinput) (m : cmap) (pc : pcorner) (v : nat) : res (list nat) :=
  do i0 <- rAllInterfaceIndices I pc 0;
  do ix <- (if v =? 2 then
              do i1 <- rAllInterfaceIndices I pc 1;
              match getLowestIndices i1 1 with x :: _ => Ok (i0 ++ [x]) | [] => Err end
            else Ok (getLowestIndices i0 3));
  mapM (fun x => do _ <- ensure (cis_free m (snd x) (fst x)); cindex m (snd x) (fst x)) ix.

(** src/gsAlmostC1.hpp:613-678: one vertex *)
Definition acEV (I : rinput) (m : cmap) (F : refinedIn) (st : (nat -> nat -> R) * list bool) (l : list pcorner) : res ((nat -> nat -> R) * list bool) :=
  match l with
  | [] => Err
  | pc :: _ =>
      do chk <- vget (snd st) (vertIndex pc);
      if (chk : bool) then Ok st else
      do vd <- vertexData (ritopo I) pc;
      do T <- acTriangle (ritopo I) F pc;
      do rows <- acRows I m pc (fst vd);
      do A <- triangleStep (fst st) rows (fst T) (snd T);
      do vc <- foldM (fun vc c => vset vc (vertIndex c) true) l (snd st);
      Ok (A, vc)
  end.

(** src/gsAlmostC1.hpp:591-682, _computeEVs; [n]: number of columns before the refinement *)
Definition acEVs (I : rinput) (m : cmap) (F : refinedIn) (n : nat) (A : nat -> nat -> R) : res (nat -> nat -> R) :=
  do lists <- getSpecialCornerLists (ritopo I) (riC0 I);
  match lists with
  | [] => Ok A
  | _ =>
      let A1 := refined n A (rf_t F) in
      do st <- foldM (acEV I m F) lists (A1, repeat false (4 * length (ribases I)));
      Ok (fst st)
  end.

(** src/gsDPatchBase.hpp:25-36, compute: the matrix before and after the treatment of the special vertices; the matrix before it has
    rational entries *)
Definition acFinal (I : dinput) (F : refinedIn) : res (dresult * (nat -> nat -> R)) :=
  do D <- acCompute I;
  do A <- acEVs (dring I) (drMap D) F (drCols D) (fun r c => Q2R (dentry D r c));
  Ok (D, A).
