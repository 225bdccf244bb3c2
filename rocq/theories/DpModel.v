(** The smoothing matrix of gsDPatch before the treatment of the extraordinary
    vertices: src/gsDPatchBase.hpp:905-1206 and 1547-1678 on hierarchical bases,
    src/gsDPatch.hpp:893-1109.

    Simplifications: exact arithmetic; a basis is seen through the functions called
    on it (see RingModel); gsBasis::matchWith on hierarchical bases is given. *)
From Verif Require Import Common TopoModel BaseModel RingModel.

(** [dmatch f o]: m_bases[first].matchWith(iface, m_bases[second], o), the matching
    functions [o] rows away from the two sides *)
Record dinput := mkDI { dring : rinput; dmatch : iface -> nat -> res (list nat * list nat) }.

(* ------------------------------------------------------------------ *)
(** * Numbering of a finalized gsDofMapper (external)

    gsDofMapper::finalize(): uncoupled free functions first, then the coupled groups
    in the order of their first function, then the eliminated ones. *)
Fixpoint posZ (z : Z) (l : list Z) : nat :=
  match l with [] => 0 | y :: r => if (z =? y)%Z then 0 else S (posZ z r) end.

Definition firsts (l : list Z) : list Z := rev (nodup Z.eq_dec (rev l)).

Definition cdofs (m : cmap) : list dof := dofs_from 0 (cmsizes m).
Definition czeros (m : cmap) : list dof := filter (fun x => cmval m x =? 0)%Z (cdofs m).
Definition cgroups (m : cmap) : list Z := firsts (filter (fun z => 0 <? z)%Z (map (cmval m) (cdofs m))).
Definition celims (m : cmap) : list Z := firsts (filter (fun z => z <? 0)%Z (map (cmval m) (cdofs m))).

(** gsDofMapper::index(k,p) *)
Definition cindex (m : cmap) (k p : nat) : res nat :=
  if cvalid m (p, k) then
    let z := cmval m (p, k) in
    Ok (if (z =? 0)%Z then pos_in (p, k) (czeros m)
        else if (0 <? z)%Z then length (czeros m) + posZ z (cgroups m)
        else length (czeros m) + length (cgroups m) + posZ z (celims m))
  else Err.

(** gsDofMapper::is_free(k,p) *)
Definition cis_free (m : cmap) (k p : nat) : bool := (0 <=? cmval m (p, k))%Z.

(* ------------------------------------------------------------------ *)
(** * Handlers *)

(** Fixed during the construction of the matrix: the input, the finalized m_mapModified and the
    dimensions of m_matrix; m_mapOriginal eliminates nothing. *)
Record dctx := mkDC { dcI : dinput; dcMod : cmap; dcRows : nat; dcCols : nat }.

Definition dtopo (C : dctx) : topo := ritopo (dring (dcI C)).
Definition dorig (C : dctx) : cmap := cmap_of (map rsize (ribases (dring (dcI C)))).
Definition drow (C : dctx) (k p : nat) : res nat := cindex (dcMod C) k p.
Definition dcol (C : dctx) (k p : nat) : res nat := cindex (dorig C) k p.
(** _indexFromVert(k,corner,side,o), src/gsDPatchBase.hpp:369-422 *)
Definition difv (C : dctx) (k : nat) (pc : pcorner) (s : side) (o : nat) : res nat :=
  do b <- rbasisOf (dring (dcI C)) (fst pc); Ok (rifv b k (snd pc) s o).

(** src/gsDPatchBase.h:332-342, _pushAndCheck *)
Definition dpush (C : dctx) (es : list entry) (s : xstate) : res xstate :=
  foldM (fun s (e : entry) =>
    let '(r, c, w) := e in
    do _ <- ensure ((r <? dcRows C) && (c <? dcCols C));
    do bc <- vset (xs_basis s) r true;
    Ok (mkXS (xs_side s) (xs_vert s) bc (e :: xs_mat s))) es s.

(** src/gsDPatchBase.hpp:1547-1576, _handleRegularCorner *)
Definition dRegularCorner (C : dctx) (s : xstate) (pc : pcorner) : res xstate :=
  let s0 := cside (snd pc) 0 in
  let s1 := cside (snd pc) 1 in
  do b00 <- difv C 0 pc s0 0;
  do b01 <- difv C 1 pc s0 0;
  do b10 <- difv C 1 pc s1 0;
  do b11 <- difv C 1 pc s1 1;
  do es <- mapM (fun i => do r <- drow C i (fst pc); do c <- dcol C i (fst pc); Ok (r, c, 1%Q))
             [b00; b01; b10; b11];
  do s <- dpush C es s;
  setVert s pc.

(** src/gsDPatchBase.hpp:1578-1627 (ks=[0;1]) and 1629-1678 (ks=[1]),
    _handleRegularBoundaryVertexSmooth / NonSmooth *)
Definition dRegularBoundary (ks : list nat) (C : dctx) (s : xstate) (pc : pcorner) : res xstate :=
  let s0 := cside (snd pc) 0 in
  let s1 := cside (snd pc) 1 in
  let is := if isInterface (dtopo C) (fst pc, s0) then s0 else s1 in
  match getInterface (dtopo C) (fst pc, is) with
  | None => Err
  | Some f =>
      do os <- iother f (fst pc, is);
      do oc <- imapCorner f pc;
      do ess <- mapM (fun k =>
          do i0 <- difv C k pc is 1;
          do i1 <- difv C k pc is 0;
          do i2 <- difv C k oc (snd os) 0;
          do r <- drow C i0 (fst pc);
          do c0 <- dcol C i0 (fst pc);
          do c1 <- dcol C i1 (fst pc);
          do c2 <- dcol C i2 (fst os);
          Ok [(r, c0, 1%Q); (r, c1, half); (r, c2, half)]) ks;
      do s <- dpush C (concat ess) s;
      setVert s pc
  end.

(** src/gsDPatchBase.hpp:905-966, _handleInteriorVertex *)
Definition dInteriorVertex (C : dctx) (s : xstate) (pc : pcorner) (valence : nat) : res xstate :=
  let s0 := cside (snd pc) 0 in
  do b11 <- difv C 1 pc s0 1;
  do r <- drow C b11 (fst pc);
  do c11 <- dcol C b11 (fst pc);
  do l <- cornerList (dtopo C) pc;
  do es00 <- mapM (fun c' =>
      do b <- rbasisOf (dring (dcI C)) (fst c');
      do c <- dcol C (rcorner b (snd c')) (fst c');
      Ok (r, c, (1 # Pos.of_nat valence)%Q)) l;
  do ess <- mapM (fun sd =>
      match getInterface (dtopo C) (fst pc, sd) with
      | None => Err
      | Some f =>
          do os <- getNeighbour (dtopo C) (fst pc, sd);
          do oc <- imapCorner f pc;
          do i1 <- difv C 1 pc sd 0;
          do i2 <- difv C 1 oc (snd os) 0;
          do c1 <- dcol C i1 (fst pc);
          do c2 <- dcol C i2 (fst os);
          Ok [(r, c1, half); (r, c2, half)]
      end) (containing_sides (snd pc));
  do s <- dpush C ((r, c11, 1%Q) :: es00 ++ concat ess) s;
  setVert s pc.

(** src/gsDPatch.hpp:927-929: the corner with the lowest patch, the first one if there are several *)
Definition lowestCorner (l : list pcorner) : res pcorner :=
  match l with
  | [] => Err
  | c :: _ => Ok (fold_left (fun lo c => if fst c <? fst lo then c else lo) l c)
  end.

Definition quarter : Q := (1 # 4)%Q.

(** src/gsDPatch.hpp:944-972: boundary sides at corner [c]; [e] is extraRow *)
Definition dBoundarySides (C : dctx) (e : nat) (c : pcorner) : res (list entry) :=
  do l <- mapM (fun sd =>
      match getInterface (dtopo C) (fst c, sd) with
      | Some _ => Ok []
      | None =>
          do i <- difv C 1 c sd 0;
          do col <- dcol C i (fst c);
          do o <- difv C 1 c sd 1;
          do row <- drow C o (fst c);
          Ok [(row, col, half); (e, col, half)]
      end) (containing_sides (snd c));
  Ok (concat l).

(** src/gsDPatch.hpp:1039-1090: interface [f] stored at a corner of the vertex with the corners [l] *)
Definition dVertexInterface (C : dctx) (l : list pcorner) (f : iface) : res (list entry) :=
  do es <- mapM (fun c =>
      let pc := (fst (if1 f), c) in
      if existsb (pc_eqb pc) l then
        do oc <- imapCorner f pc;
        let ics := [(pc, snd (if1 f)); (oc, snd (if2 f))] in
        do rows <- mapM (fun x => do i <- difv C 1 (fst x) (snd x) 1; drow C i (fst (fst x))) ics;
        do cols <- mapM (fun x => do i <- difv C 1 (fst x) (snd x) 0; dcol C i (fst (fst x))) ics;
        Ok (flat_map (fun r => map (fun c => (r, c, half)) cols) rows)
      else Ok []) (contained_corners (snd (if1 f)));
  Ok (concat es).

(** src/gsDPatch.hpp:893-1102, _handleIrregularBoundaryVertexSmooth: all corners of the vertex at
    once; also used for the non-smooth case (1104-1109).  The loop over the empty vector
    "boundaries" (1018-1036) does nothing. *)
Definition dIrregularBoundary (C : dctx) (s : xstate) (pc : pcorner) : res xstate :=
  do l <- cornerList (dtopo C) pc;
  do lo <- lowestCorner l;
  do i <- difv C 0 lo (cside (snd lo) 0) 0;
  do e <- drow C i (fst lo);
  do idx <- mapM (fun c =>
      do i0 <- difv C 0 c (cside (snd c) 0) 0;
      do i1 <- difv C 1 c (cside (snd c) 0) 1;
      Ok (i0, i1, fst c)) l;
  do bes <- mapM (dBoundarySides C e) l;
  do cols0 <- mapM (fun x => dcol C (fst (fst x)) (snd x)) idx;
  do es11 <- mapM (fun x =>
      do r <- drow C (snd (fst x)) (snd x);
      do c <- dcol C (snd (fst x)) (snd x);
      Ok ((r, c, 1%Q) :: map (fun c => (r, c, quarter)) cols0)) idx;
  let ifs := flat_map (fun c => flat_map (fun sd => match getInterface (dtopo C) (fst c, sd) with Some f => [f] | None => [] end)
                                         (containing_sides (snd c))) l in
  do ies <- mapM (dVertexInterface C l) ifs;
  do s <- dpush C (concat bes ++ map (fun c => (e, c, quarter)) cols0 ++ concat es11 ++ concat ies) s;
  foldM setVert l s.

(** src/gsDPatchBase.hpp:969-999, _handleVertex *)
Definition dVertex (C : dctx) (s : xstate) (pc : pcorner) : res xstate :=
  do chk <- vget (xs_vert s) (vertIndex pc);
  if (chk : bool) then Ok s else
  do vd <- vertexData (dtopo C) pc;
  do c0 <- vget (riC0 (dring (dcI C))) (vertIndex pc);
  let v := fst vd in
  if negb (snd vd) then
    if v =? 1 then dRegularCorner C s pc
    else if (v =? 2) && negb c0 then dRegularBoundary [0; 1] C s pc
    else if (v =? 2) && c0 then dRegularBoundary [1] C s pc
    else if (2 <? v) && negb c0 then dIrregularBoundary C s pc
    else if (2 <? v) && c0 then dIrregularBoundary C s pc
    else Err
  else dInteriorVertex C s pc v.

(** src/gsDPatchBase.hpp:1074-1098: writes of one side of an interface *)
Fixpoint dEntries (C : dctx) (p np : nat) (ix ox ixn : list nat) : res (list entry) :=
  match ix, ox, ixn with
  | i :: ix', o :: ox', j :: ixn' =>
      do _ <- ensure (cis_free (dcMod C) o p);
      do r <- drow C o p;
      do _ <- ensure (cis_free (dorig C) o p);
      do c0 <- dcol C o p;
      do c1 <- dcol C i p;
      do c2 <- dcol C j np;
      do es <- dEntries C p np ix' ox' ixn';
      Ok ((r, c0, 1%Q) :: (r, c1, half) :: (r, c2, half) :: es)
  | [], _, _ => Ok []
  | _, _, _ => Err
  end.

(** functions near the corners of a side, [o] rows away from it (1031-1063) *)
Definition dnear (b : rbasis) (s : side) (o : nat) : list nat :=
  flat_map (fun c => [rifv b 0 c s o; rifv b 1 c s o]) (contained_corners s).

(** src/gsDPatchBase.hpp:1001-1109, _handleInterface *)
Definition dInterface (C : dctx) (s : xstate) (f : iface) : res xstate :=
  do k1 <- vget (xs_side s) (sideIndex (if1 f));
  do k2 <- vget (xs_side s) (sideIndex (if2 f));
  if k1 || k2 then Ok s else
  let p1 := fst (if1 f) in
  let p2 := fst (if2 f) in
  do b1 <- rbasisOf (dring (dcI C)) p1;
  do b2 <- rbasisOf (dring (dcI C)) p2;
  do ind <- dmatch (dcI C) f 0;
  do oind <- dmatch (dcI C) f 1;
  let i1 := without (fst ind) (dnear b1 (snd (if1 f)) 0) in
  let o1 := without (fst oind) (dnear b1 (snd (if1 f)) 1) in
  let i2 := without (snd ind) (dnear b2 (snd (if2 f)) 0) in
  let o2 := without (snd oind) (dnear b2 (snd (if2 f)) 1) in
  do _ <- ensure (length i1 =? length i2);
  do _ <- ensure (length o1 =? length o2);
  do es1 <- dEntries C p1 p2 i1 o1 i2;
  do es2 <- dEntries C p2 p1 i2 o2 i1;
  do s <- dpush C (es1 ++ es2) s;
  do s <- setSide s (if1 f);
  setSide s (if2 f).

(** src/gsDPatchBase.hpp:1111-1152, _handleBoundary *)
Definition dBoundary (C : dctx) (s : xstate) (ps : pside) : res xstate :=
  do b <- rbasisOf (dring (dcI C)) (fst ps);
  do es <- mapM (fun i => do r <- drow C i (fst ps); do c <- dcol C i (fst ps); Ok (r, c, 1%Q))
             (without (roff b (snd ps) 0) (dnear b (snd ps) 0));
  do s <- dpush C es s;
  setSide s ps.

(** src/gsDPatchBase.hpp:1154-1174, _handleInterior *)
Definition dInterior (C : dctx) (s : xstate) : res xstate :=
  foldM (fun s (x : dof) =>
    let '(p, b) := x in
    do r <- drow C b p;
    if negb (cis_free (dcMod C) b p) then Ok s else
    do chk <- vget (xs_basis s) r;
    if (chk : bool) then Ok s else
    do c <- dcol C b p;
    dpush C [(r, c, 1%Q)] s) (cdofs (dorig C)) s.

(** src/gsDPatchBase.hpp:1176-1206, _computeSmoothMatrix *)
Definition dLoops (C : dctx) : res xstate :=
  let t := dtopo C in
  let np := length (ribases (dring (dcI C))) in
  let s0 := mkXS (repeat false (2 * length (tif t) + length (tbd t))) (repeat false (4 * np)) (repeat false (dcRows C)) [] in
  do s <- foldM (dVertex C) (all_corners np) s0;
  do s <- foldM (dInterface C) (tif t) s;
  do s <- foldM (dBoundary C) (tbd t) s;
  dInterior C s.

Record dresult := mkDR { drRows : nat; drCols : nat; drMap : cmap; drMat : list entry }.

(** src/gsDPatchBase.hpp:25-36 up to the first _checkMatrix, with the size checks (1179, 1251) *)
Definition dCompute (I : dinput) : res dresult :=
  do size <- rcountDoFs SchemeDPatch (dring I);
  do m <- rMapper SchemeDPatch (dring I);
  do _ <- ensure (Z.of_nat (cfreeSize m) =? size)%Z;
  let cols := cfreeSize (cmap_of (map rsize (ribases (dring I)))) in
  do s <- dLoops (mkDC I m (Z.to_nat size) cols);
  do _ <- performChecks s;
  Ok (mkDR (Z.to_nat size) cols m (xs_mat s)).

Definition dentry (R : dresult) (r c : nat) : Q := mget (drMat R) r c.

(** A tensor-product multi-basis seen this way *)
Definition dtensor (I : input) : dinput :=
  mkDI (mkRI (itopo I) (map ring_of (ibases I)) (iC0 I))
    (fun f o => do b1 <- basisOf I (fst (if1 f)); do b2 <- basisOf I (fst (if2 f)); matchWith b1 b2 f o).
