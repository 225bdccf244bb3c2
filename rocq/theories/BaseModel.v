(** Model of gsDPatchBase (index helpers, mapper, smoothing matrix) and of
    gsSmoothInterfaces (src/gsDPatchBase.{h,hpp}, src/gsSmoothInterfaces.hpp)
    for d=2 and tensor-product local bases. *)
From Verif Require Import Common TopoModel.

(* ------------------------------------------------------------------ *)
(** * Local bases (external: gsTensorBSplineBasis) *)

(** A local basis is given by its number of functions per direction. *)
Definition tbasis := (nat * nat)%type.

(** gsTensorBSplineBasis::index(i,j), ::size() *)
Definition tindex (b : tbasis) (i j : nat) : nat := i + fst b * j.
Definition tsize (b : tbasis) : nat := fst b * snd b.

(** gsTensorBasis::boundaryOffset(side,offset): functions of the row with the
    given distance to the side, in increasing order.  (boundary(s) is offset 0.) *)
Definition boundaryOffset (b : tbasis) (s : side) (o : nat) : list nat :=
  match s with
  | West  => map (fun j => tindex b o j) (seq 0 (snd b))
  | East  => map (fun j => tindex b (fst b - 1 - o) j) (seq 0 (snd b))
  | South => map (fun i => tindex b i o) (seq 0 (fst b))
  | North => map (fun i => tindex b i (snd b - 1 - o)) (seq 0 (fst b))
  end.

(** gsTensorBasis::functionAtCorner(c) *)
Definition functionAtCorner (b : tbasis) (c : corner) : nat :=
  tindex b (if cpar0 c then fst b - 1 else 0) (if cpar1 c then snd b - 1 else 0).

(** gsTensorBasis::matchWith(iface,other,bndThis,bndOther,offset): the two rows
    in matching order; the second is reversed when the orientation is opposite. *)
Definition matchWith (b1 b2 : tbasis) (f : iface) (o : nat) : res (list nat * list nat) :=
  let l1 := boundaryOffset b1 (snd (if1 f)) o in
  let l2 := boundaryOffset b2 (snd (if2 f)) o in
  if length l1 =? length l2
  then Ok (l1, if ifflip f then rev l2 else l2)
  else Err.

(* ------------------------------------------------------------------ *)
(** * Index helpers of gsDPatchBase *)

(** src/gsDPatchBase.hpp:306-368, _indexFromVert_impl (tensor basis).  The
    return value -1 for an invalid side cannot occur: [side] has four values. *)
Definition indexFromVert_impl (b : tbasis) (index : nat) (c : corner) (s : side) (offset : nat)
  : res nat :=
  let n0 := fst b in
  let n1 := snd b in
  match s with
  | West =>
      do _ <- ensure (offset <? n0); do _ <- ensure (index <? n1);
      match c with
      | SW => Ok (tindex b offset index)
      | NW => Ok (tindex b offset (n1 - 1 - index))
      | _ => Err
      end
  | East =>
      do _ <- ensure (offset <? n0); do _ <- ensure (index <? n1);
      match c with
      | SE => Ok (tindex b (n0 - 1 - offset) index)
      | NE => Ok (tindex b (n0 - 1 - offset) (n1 - 1 - index))
      | _ => Err
      end
  | South =>
      do _ <- ensure (offset <? n1); do _ <- ensure (index <? n0);
      match c with
      | SW => Ok (tindex b index offset)
      | SE => Ok (tindex b (n0 - 1 - index) offset)
      | _ => Err
      end
  | North =>
      do _ <- ensure (offset <? n1); do _ <- ensure (index <? n0);
      match c with
      | NW => Ok (tindex b index (n1 - 1 - offset))
      | NE => Ok (tindex b (n0 - 1 - index) (n1 - 1 - offset))
      | _ => Err
      end
  end.

(** src/gsDPatchBase.hpp:280-304, _indexFromVert(basis,index,corner,side,offset). *)
Definition indexFromVert (b : tbasis) (index : nat) (c : corner) (s : side) (offset : nat)
  : res nat :=
  if (index =? 0) && (offset =? 0) then Ok (functionAtCorner b c)
  else indexFromVert_impl b index c s offset.

(** src/gsDPatchBase.hpp:226-266, _indexFromSides (both sides on one patch). *)
Definition indexFromSides (b : tbasis) (index1 : nat) (s1 : side) (index2 : nat) (s2 : side)
  : res nat :=
  do _ <- ensure (negb (side_dir s1 =? side_dir s2));
  let ind := boundaryOffset b s1 index2 in
  let n := length ind in
  if side_par s2 then (do _ <- ensure (index1 <? n); vget ind (n - 1 - index1))
  else vget ind index1.

(** src/gsDPatchBase.h:557 and 577 *)
Definition sideIndex (ps : pside) : nat := 4 * fst ps + side_ix (snd ps) - 1.
Definition vertIndex (pc : pcorner) : nat := 4 * fst pc + corner_ix (snd pc) - 1.

(** src/gsDPatchBase.hpp:424-432, _vertexData: valence and interior flag. *)
Definition vertexData (t : topo) (c : pcorner) : res (nat * bool) :=
  do l <- cornerList t c; Ok (length l, vertex_inner t l).

(* ------------------------------------------------------------------ *)
(** * gsDofMapper (external)

    Only elimination is used by gsSmoothInterfaces.  A mapper is the list of
    patch sizes plus the eliminated (patch,index) pairs.  After finalize() the
    free functions are numbered 0,1,.. in lexicographic order, the eliminated
    ones after them. *)

Definition dof := (nat * nat)%type. (* (patch, local index) *)
Definition dof_eqb (a b : dof) : bool := (fst a =? fst b) && (snd a =? snd b).

Record mapper := mkM { msizes : list nat; melim : list dof }.

Definition mapper_of (bs : list tbasis) : mapper := mkM (map tsize bs) [].

Fixpoint dofs_from (p : nat) (sizes : list nat) : list dof :=
  match sizes with
  | [] => []
  | n :: r => map (fun k => (p, k)) (seq 0 n) ++ dofs_from (S p) r
  end.
Definition all_dofs (m : mapper) : list dof := dofs_from 0 (msizes m).

Definition valid_dof (m : mapper) (x : dof) : bool :=
  match nth_error (msizes m) (fst x) with Some n => snd x <? n | None => false end.

(** gsDofMapper::eliminateDof(k,p) *)
Definition eliminateDof (m : mapper) (k p : nat) : res mapper :=
  if valid_dof m (p, k) then Ok (mkM (msizes m) ((p, k) :: melim m)) else Err.

(** gsDofMapper::markBoundary(p,indices) *)
Definition markBoundary (m : mapper) (p : nat) (ks : list nat) : res mapper :=
  foldM (fun m k => eliminateDof m k p) ks m.

Definition is_free_dof (m : mapper) (x : dof) : bool := negb (existsb (dof_eqb x) (melim m)).
Definition free_list (m : mapper) : list dof := filter (is_free_dof m) (all_dofs m).
Definition elim_list (m : mapper) : list dof :=
  filter (fun x => negb (is_free_dof m x)) (all_dofs m).

Fixpoint pos_in (x : dof) (l : list dof) : nat :=
  match l with
  | [] => 0
  | y :: r => if dof_eqb x y then 0 else S (pos_in x r)
  end.

(** gsDofMapper::freeSize(), ::is_free(k,p), ::index(k,p), ::patchSize(p) *)
Definition freeSize (m : mapper) : nat := length (free_list m).
Definition is_free (m : mapper) (k p : nat) : bool := is_free_dof m (p, k).
Definition mindex (m : mapper) (k p : nat) : res nat :=
  if valid_dof m (p, k) then
    if is_free m k p then Ok (pos_in (p, k) (free_list m))
    else Ok (freeSize m + pos_in (p, k) (elim_list m))
  else Err.

(* ------------------------------------------------------------------ *)
(** * Input of the construction *)

(** Topology, local bases (m_bases) and the sharp-corner flags m_C0s (indexed by
    vertIndex). *)
Record input := mkIn { itopo : topo; ibases : list tbasis; iC0 : list bool }.

Definition basisOf (I : input) (p : nat) : res tbasis := vget (ibases I) p.

(** _indexFromVert(index,corner,side,offset) on the basis of corner.patch;
    src/gsDPatchBase.hpp:268-272. *)
Definition ifv (I : input) (k : nat) (pc : pcorner) (s : side) (o : nat) : res nat :=
  do b <- basisOf I (fst pc); indexFromVert b k (snd pc) s o.

(* ------------------------------------------------------------------ *)
(** * Mapper construction *)

(** State of _computeMapper: m_mapModified, m_sideCheck, m_vertCheck. *)
Record mstate := mkMS { ms_map : mapper; ms_side : list bool; ms_vert : list bool }.

(** The four indices 0,1 away from both end corners of a side, on the side:
    src/gsDPatchBase.hpp:1314-1320 (also 1036-1037 and 1121-1125). *)
Definition near_corner_indices (I : input) (ps : pside) (o : nat) : res (list nat) :=
  do ll <- mapM (fun c =>
              do a <- ifv I 0 (fst ps, c) (snd ps) o;
              do b <- ifv I 1 (fst ps, c) (snd ps) o;
              Ok [a; b]) (contained_corners (snd ps));
  Ok (concat ll).

(** std::set_difference on sorted ranges without repetition (1326-1328), and the
    copy_if filters of 1044-1060. *)
Definition without (l sel : list nat) : list nat :=
  filter (fun x => negb (existsb (Nat.eqb x) sel)) l.

(** src/gsDPatchBase.hpp:1279-1337, one pass of the loop over the two sides. *)
Definition interfaceMapper_side (I : input) (s : mstate) (ps : pside) : res mstate :=
  do chk <- vget (ms_side s) (sideIndex ps);
  if (chk : bool) then Ok s else
  do b <- basisOf I (fst ps);
  do sel <- near_corner_indices I ps 0;
  do m <- markBoundary (ms_map s) (fst ps) (without (boundaryOffset b (snd ps) 0) sel);
  do sc <- vset (ms_side s) (sideIndex ps) true;
  Ok (mkMS m sc (ms_vert s)).

(** src/gsDPatchBase.hpp:1259-1338, _computeInterfaceMapper. *)
Definition computeInterfaceMapper (I : input) (s : mstate) (f : iface) : res mstate :=
  do chk <- vget (ms_side s) (sideIndex (if2 f));
  if (chk : bool) then Ok s else
  foldM (interfaceMapper_side I) [if1 f; if2 f] s.

(** src/gsDPatchBase.hpp:1340-1345, _computeBoundaryMapper. *)
Definition computeBoundaryMapper (s : mstate) (ps : pside) : res mstate :=
  do sc <- vset (ms_side s) (sideIndex ps) true;
  Ok (mkMS (ms_map s) sc (ms_vert s)).

(** eliminate the functions [ks] steps away from [pc] along side [sd] (offset 0) *)
Definition elim_along (I : input) (pc : pcorner) (sd : side) (ks : list nat) (m : mapper)
  : res mapper :=
  foldM (fun m k => do i <- ifv I k pc sd 0; eliminateDof m i (fst pc)) ks m.

(** src/gsDPatchBase.hpp:1387-1444 *)
Definition mapperRegularBoundaryVertexSmooth_v2 (I : input) (pc : pcorner) (m : mapper) : res mapper :=
  foldM (fun m sd => if isInterface (itopo I) (fst pc, sd)
                     then elim_along I pc sd [0; 1] m else Ok m)
        (containing_sides (snd pc)) m.

(** src/gsDPatchBase.hpp:1446-1473 *)
Definition mapperRegularBoundaryVertexNonSmooth_v2 (I : input) (pc : pcorner) (m : mapper) : res mapper :=
  foldM (fun m sd => if isInterface (itopo I) (fst pc, sd)
                     then elim_along I pc sd [1] m else Ok m)
        (containing_sides (snd pc)) m.

(** src/gsDPatchBase.hpp:1499-1514 *)
Definition mapperIrregularBoundaryVertexNonSmooth_v (I : input) (pc : pcorner) (m : mapper) : res mapper :=
  foldM (fun m sd => if isInterface (itopo I) (fst pc, sd)
                     then elim_along I pc sd [1] m else Ok m)
        (containing_sides (snd pc)) m.

(** src/gsDPatchBase.hpp:1475-1497 (warns and uses the non-smooth rule) *)
Definition mapperIrregularBoundaryVertexSmooth_v (I : input) (pc : pcorner) (m : mapper) : res mapper :=
  mapperIrregularBoundaryVertexNonSmooth_v I pc m.

(** src/gsDPatchBase.hpp:1516-1545 *)
Definition mapperInteriorVertex_v (I : input) (pc : pcorner) (m : mapper) : res mapper :=
  foldM (fun m sd => elim_along I pc sd [0; 1] m) (containing_sides (snd pc)) m.

(** src/gsDPatchBase.hpp:1347-1376, _computeVertexMapper (v=1: 1378-1385 does nothing). *)
Definition computeVertexMapper (I : input) (s : mstate) (pc : pcorner) : res mstate :=
  do chk <- vget (ms_vert s) (vertIndex pc);
  if (chk : bool) then Ok s else
  do c0 <- vget (iC0 I) (vertIndex pc);
  do vd <- vertexData (itopo I) pc;
  let valence := fst vd in
  let interior := snd vd in
  do m <-
    (if negb interior && (valence =? 1) then Ok (ms_map s)
     else if negb interior && (valence =? 2) && c0 then
       mapperRegularBoundaryVertexNonSmooth_v2 I pc (ms_map s)
     else if negb interior && (valence =? 2) && negb c0 then
       mapperRegularBoundaryVertexSmooth_v2 I pc (ms_map s)
     else if negb interior && (2 <? valence) && c0 then
       mapperIrregularBoundaryVertexNonSmooth_v I pc (ms_map s)
     else if negb interior && (2 <? valence) && negb c0 then
       mapperIrregularBoundaryVertexSmooth_v I pc (ms_map s)
     else if interior then mapperInteriorVertex_v I pc (ms_map s)
     else Err);
  do vc <- vset (ms_vert s) (vertIndex pc) true;
  Ok (mkMS m (ms_side s) vc).

(** src/gsDPatchBase.hpp:809-820: m_nSides, m_nVerts. *)
Definition nSides (I : input) : nat := 2 * length (tif (itopo I)) + length (tbd (itopo I)).
Definition nVerts (I : input) : nat := 4 * length (ibases I).

(** the loops "for p, for c=1..4" of 1187-1189 and 1239-1247 *)
Definition corner_loop (I : input) : list pcorner := all_corners (length (ibases I)).

(** src/gsDPatchBase.hpp:1208-1249, _computeMapper up to finalize(). *)
Definition computeMapper (I : input) : res mapper :=
  let s0 := mkMS (mapper_of (ibases I)) (repeat false (nSides I)) (repeat false (nVerts I)) in
  do s1 <- foldM (computeInterfaceMapper I) (tif (itopo I)) s0;
  do s2 <- foldM computeBoundaryMapper (tbd (itopo I)) s1;
  do s3 <- foldM (computeVertexMapper I) (corner_loop I) s2;
  Ok (ms_map s3).

(* ------------------------------------------------------------------ *)
(** * Size prediction of gsSmoothInterfaces *)

(** size_t arithmetic *)
Definition u64 (z : Z) : Z := (z mod 2 ^ 64)%Z.
Definition zlen {A} (l : list A) : Z := Z.of_nat (length l).

(** src/gsSmoothInterfaces.hpp:113-129: interior functions *)
Definition count_interior (I : input) : Z :=
  fold_left (fun tmp b =>
    fold_left (fun tmp k =>
      let tmp := u64 (tmp - zlen (boundaryOffset b West k)) in
      let tmp := u64 (tmp - zlen (boundaryOffset b East k)) in
      let tmp := u64 (tmp - (zlen (boundaryOffset b South k) - 4)) in
      u64 (tmp - (zlen (boundaryOffset b North k) - 4)))%Z
    [0; 1] (u64 (tmp + Z.of_nat (tsize b)))%Z) (ibases I) 0%Z.

(** src/gsSmoothInterfaces.hpp:131-144: interfaces *)
Definition count_interfaces (I : input) : res Z :=
  foldM (fun tmp f =>
    do b1 <- basisOf I (fst (if1 f));
    do b2 <- basisOf I (fst (if2 f));
    let tmp := u64 (tmp + (zlen (boundaryOffset b1 (snd (if1 f)) 0) - 4))%Z in
    Ok (u64 (tmp + (zlen (boundaryOffset b2 (snd (if2 f)) 0) - 4))%Z)) (tif (itopo I)) 0%Z.

(** src/gsSmoothInterfaces.hpp:146-155: boundaries *)
Definition count_boundaries (I : input) : res Z :=
  foldM (fun tmp ps =>
    do b <- basisOf I (fst ps);
    let tmp := u64 (tmp + (zlen (boundaryOffset b (snd ps) 0) - 4))%Z in
    Ok (u64 (tmp + (zlen (boundaryOffset b (snd ps) 1) - 4))%Z)) (tbd (itopo I)) 0%Z.

(** src/gsSmoothInterfaces.hpp:175-188: contribution of one vertex *)
Definition count_vertex_class (valence : nat) (interior C0 : bool) : Z :=
  let v := Z.of_nat valence in
  (if negb interior && (valence =? 1)%nat then 4
   else if negb interior && (valence =? 2)%nat && negb C0 then 4
   else if negb interior && (2 <? valence)%nat && negb C0 then 2 * v + 2
   else if negb interior && (valence =? 2)%nat && C0 then 6
   else if negb interior && (2 <? valence)%nat && C0 then 2 * v + 2
   else v)%Z.

(** src/gsSmoothInterfaces.hpp:157-192: vertices, each counted once *)
Definition count_vertices (I : input) : res Z :=
  do r <- foldM (fun (st : list bool * Z) pc =>
      let '(passed, tmp) := st in
      do chk <- vget passed (vertIndex pc);
      if (chk : bool) then Ok st else
      do l <- cornerList (itopo I) pc;
      do passed' <- foldM (fun ps c => vset ps (vertIndex c) true) l passed;
      do vd <- vertexData (itopo I) pc;
      do c0 <- vget (iC0 I) (vertIndex pc);
      Ok (passed', u64 (tmp + count_vertex_class (fst vd) (snd vd) c0))%Z)
    (corner_loop I) (repeat false (nVerts I), 0%Z);
  Ok (snd r).

(** src/gsSmoothInterfaces.hpp:110-198, _countDoFs *)
Definition countDoFs (I : input) : res Z :=
  let s := u64 (0 + count_interior I) in
  do a <- count_interfaces I;
  let s := u64 (s + a) in
  do b <- count_boundaries I;
  let s := u64 (s + b) in
  do c <- count_vertices I;
  Ok (u64 (s + c))%Z.

(* ------------------------------------------------------------------ *)
(** * Smoothing matrix *)

(** one element of sparseEntry_t: (row, column, weight) *)
Definition entry := (nat * nat * Q)%type.

(** State of _computeSmoothMatrix: check arrays and the writes to m_matrix,
    newest first. *)
Record xstate := mkXS {
  xs_side : list bool; xs_vert : list bool; xs_basis : list bool; xs_mat : list entry }.

(** m_matrix(r,c): value of the last write, 0 if never written. *)
Fixpoint mget (m : list entry) (r c : nat) : Q :=
  match m with
  | [] => 0%Q
  | (r', c', w) :: rest => if (r' =? r) && (c' =? c) then w else mget rest r c
  end.

(** Context fixed during matrix construction: finalized mappers and the matrix
    dimensions (src/gsDPatchBase.hpp:1252). *)
Record ctx := mkC { cI : input; cMod : mapper; cOrig : mapper; cRows : nat; cCols : nat }.

(** src/gsDPatchBase.h:332-342, _pushAndCheck *)
Definition pushAndCheck (C : ctx) (es : list entry) (s : xstate) : res xstate :=
  foldM (fun s (e : entry) =>
    let '(r, c, w) := e in
    do _ <- ensure ((r <? cRows C) && (c <? cCols C));
    do bc <- vset (xs_basis s) r true;
    Ok (mkXS (xs_side s) (xs_vert s) bc (e :: xs_mat s))) es s.

Definition setVert (s : xstate) (pc : pcorner) : res xstate :=
  do vc <- vset (xs_vert s) (vertIndex pc) true;
  Ok (mkXS (xs_side s) vc (xs_basis s) (xs_mat s)).
Definition setSide (s : xstate) (ps : pside) : res xstate :=
  do sc <- vset (xs_side s) (sideIndex ps) true;
  Ok (mkXS sc (xs_vert s) (xs_basis s) (xs_mat s)).

Definition rowIdx (C : ctx) (k p : nat) : res nat := mindex (cMod C) k p.
Definition colIdx (C : ctx) (k p : nat) : res nat := mindex (cOrig C) k p.

Definition half : Q := (1 # 2)%Q.

(** src/gsDPatchBase.hpp:1547-1576, _handleRegularCorner *)
Definition handleRegularCorner (C : ctx) (s : xstate) (pc : pcorner) : res xstate :=
  let I := cI C in
  let s0 := cside (snd pc) 0 in
  let s1 := cside (snd pc) 1 in
  do b00 <- ifv I 0 pc s0 0;
  do b01 <- ifv I 1 pc s0 0;
  do b10 <- ifv I 1 pc s1 0;
  do b11 <- ifv I 1 pc s1 1;
  do es <- mapM (fun i => do r <- rowIdx C i (fst pc); do c <- colIdx C i (fst pc); Ok (r, c, 1%Q))
             [b00; b01; b10; b11];
  do s <- pushAndCheck C es s;
  setVert s pc.

(** src/gsDPatchBase.hpp:1578-1627 (ks=[0;1]) and 1629-1678 (ks=[1]),
    _handleRegularBoundaryVertexSmooth / NonSmooth: identical except for the
    range of k. *)
Definition handleRegularBoundaryVertex (ks : list nat) (C : ctx) (s : xstate) (pc : pcorner) : res xstate :=
  let I := cI C in
  let s0 := cside (snd pc) 0 in
  let s1 := cside (snd pc) 1 in
  let is := if isInterface (itopo I) (fst pc, s0) then s0 else s1 in
  match getInterface (itopo I) (fst pc, is) with
  | None => Err
  | Some f =>
      do os <- iother f (fst pc, is);
      do oc <- imapCorner f pc;
      do ess <- mapM (fun k =>
          do i0 <- ifv I k pc is 1;
          do i1 <- ifv I k pc is 0;
          do i2 <- ifv I k oc (snd os) 0;
          do r <- rowIdx C i0 (fst pc);
          do c0 <- colIdx C i0 (fst pc);
          do c1 <- colIdx C i1 (fst pc);
          do c2 <- colIdx C i2 (fst os);
          Ok [(r, c0, 1%Q); (r, c1, half); (r, c2, half)]) ks;
      do s <- pushAndCheck C (concat ess) s;
      setVert s pc
  end.

Definition handleRegularBoundaryVertexSmooth := handleRegularBoundaryVertex [0; 1].
Definition handleRegularBoundaryVertexNonSmooth := handleRegularBoundaryVertex [1].

(** src/gsDPatchBase.hpp:1689-1767, _handleIrregularBoundaryVertexNonSmooth *)
Definition handleIrregularBoundaryVertexNonSmooth (C : ctx) (s : xstate) (pc : pcorner) : res xstate :=
  let I := cI C in
  let s0 := cside (snd pc) 0 in
  do b11 <- ifv I 1 pc s0 1;
  do r11 <- rowIdx C b11 (fst pc);
  do c11 <- colIdx C b11 (fst pc);
  do ess <- mapM (fun sd =>
      match getInterface (itopo I) (fst pc, sd) with
      | None =>
          do i <- ifv I 1 pc sd 0;
          do r <- rowIdx C i (fst pc);
          do c <- colIdx C i (fst pc);
          Ok [(r, c, 1%Q)]
      | Some f =>
          do os <- iother f (fst pc, sd);
          do oc <- imapCorner f pc;
          do i <- ifv I 1 pc sd 0;
          do c1 <- colIdx C i (fst pc);
          do i' <- ifv I 1 oc (snd os) 0;
          do c2 <- colIdx C i' (fst oc);
          Ok [(r11, c1, half); (r11, c2, half)]
      end) (containing_sides (snd pc));
  do b00 <- ifv I 0 pc s0 0;
  do r00 <- rowIdx C b00 (fst pc);
  do c00 <- colIdx C b00 (fst pc);
  do s <- pushAndCheck C ((r11, c11, 1%Q) :: concat ess ++ [(r00, c00, 1%Q)]) s;
  setVert s pc.

(** src/gsDPatchBase.hpp:1680-1687: warns and uses the non-smooth handler *)
Definition handleIrregularBoundaryVertexSmooth := handleIrregularBoundaryVertexNonSmooth.

(** src/gsDPatchBase.hpp:905-966, _handleInteriorVertex *)
Definition handleInteriorVertex (C : ctx) (s : xstate) (pc : pcorner) (valence : nat) : res xstate :=
  let I := cI C in
  let s0 := cside (snd pc) 0 in
  do b11 <- ifv I 1 pc s0 1;
  do r <- rowIdx C b11 (fst pc);
  do c11 <- colIdx C b11 (fst pc);
  do l <- cornerList (itopo I) pc;
  do es00 <- mapM (fun c' =>
      do b <- basisOf I (fst c');
      do c <- colIdx C (functionAtCorner b (snd c')) (fst c');
      Ok (r, c, (1 # Pos.of_nat valence)%Q)) l;
  do ess <- mapM (fun sd =>
      match getInterface (itopo I) (fst pc, sd) with
      | None => Err
      | Some f =>
          do os <- getNeighbour (itopo I) (fst pc, sd);
          do oc <- imapCorner f pc;
          do i1 <- ifv I 1 pc sd 0;
          do i2 <- ifv I 1 oc (snd os) 0;
          do c1 <- colIdx C i1 (fst pc);
          do c2 <- colIdx C i2 (fst os);
          Ok [(r, c1, half); (r, c2, half)]
      end) (containing_sides (snd pc));
  do s <- pushAndCheck C ((r, c11, 1%Q) :: es00 ++ concat ess) s;
  setVert s pc.

(** src/gsDPatchBase.hpp:969-999, _handleVertex *)
Definition handleVertex (C : ctx) (s : xstate) (pc : pcorner) : res xstate :=
  do chk <- vget (xs_vert s) (vertIndex pc);
  if (chk : bool) then Ok s else
  do vd <- vertexData (itopo (cI C)) pc;
  do c0 <- vget (iC0 (cI C)) (vertIndex pc);
  let v := fst vd in
  if negb (snd vd) then
    if v =? 1 then handleRegularCorner C s pc
    else if (v =? 2) && negb c0 then handleRegularBoundaryVertexSmooth C s pc
    else if (v =? 2) && c0 then handleRegularBoundaryVertexNonSmooth C s pc
    else if (2 <? v) && negb c0 then handleIrregularBoundaryVertexSmooth C s pc
    else if (2 <? v) && c0 then handleIrregularBoundaryVertexNonSmooth C s pc
    else Err
  else handleInteriorVertex C s pc v.

(** src/gsDPatchBase.hpp:1074-1098: writes of one side of an interface.
    [ix], [ox] are the remaining indices (offset 0 and 1) of this side, [ixn]
    those (offset 0) of the other side. *)
Fixpoint interface_entries (C : ctx) (p np : nat) (ix ox ixn : list nat) : res (list entry) :=
  match ix, ox, ixn with
  | i :: ix', o :: ox', j :: ixn' =>
      do _ <- ensure (is_free (cMod C) o p);
      do r <- rowIdx C o p;
      do _ <- ensure (is_free (cOrig C) o p);
      do c0 <- colIdx C o p;
      do c1 <- colIdx C i p;
      do c2 <- colIdx C j np;
      do es <- interface_entries C p np ix' ox' ixn';
      Ok ((r, c0, 1%Q) :: (r, c1, half) :: (r, c2, half) :: es)
  | [], _, _ => Ok []
  | _, _, _ => Err
  end.

(** src/gsDPatchBase.hpp:1001-1109, _handleInterface *)
Definition handleInterface (C : ctx) (s : xstate) (f : iface) : res xstate :=
  let I := cI C in
  do k1 <- vget (xs_side s) (sideIndex (if1 f));
  do k2 <- vget (xs_side s) (sideIndex (if2 f));
  if k1 || k2 then Ok s else
  let p1 := fst (if1 f) in
  let p2 := fst (if2 f) in
  do b1 <- basisOf I p1;
  do b2 <- basisOf I p2;
  do ind <- matchWith b1 b2 f 0;
  do oind <- matchWith b1 b2 f 1;
  do sel1 <- near_corner_indices I (if1 f) 0;
  do osel1 <- near_corner_indices I (if1 f) 1;
  do sel2 <- near_corner_indices I (if2 f) 0;
  do osel2 <- near_corner_indices I (if2 f) 1;
  let i1 := without (fst ind) sel1 in
  let o1 := without (fst oind) osel1 in
  let i2 := without (snd ind) sel2 in
  let o2 := without (snd oind) osel2 in
  do _ <- ensure (length i1 =? length i2);
  do _ <- ensure (length o1 =? length o2);
  do es1 <- interface_entries C p1 p2 i1 o1 i2;
  do es2 <- interface_entries C p2 p1 i2 o2 i1;
  do s <- pushAndCheck C (es1 ++ es2) s;
  do s <- setSide s (if1 f);
  setSide s (if2 f).

(** src/gsDPatchBase.hpp:1111-1152, _handleBoundary *)
Definition handleBoundary (C : ctx) (s : xstate) (ps : pside) : res xstate :=
  do b <- basisOf (cI C) (fst ps);
  do sel <- near_corner_indices (cI C) ps 0;
  do es <- mapM (fun i => do r <- rowIdx C i (fst ps); do c <- colIdx C i (fst ps); Ok (r, c, 1%Q))
             (without (boundaryOffset b (snd ps) 0) sel);
  do s <- pushAndCheck C es s;
  setSide s ps.

(** src/gsDPatchBase.hpp:1154-1174, _handleInterior *)
Definition handleInterior (C : ctx) (s : xstate) : res xstate :=
  foldM (fun s (x : dof) =>
    let '(p, b) := x in
    do r <- rowIdx C b p;
    if negb (is_free (cMod C) b p) then Ok s else
    do chk <- vget (xs_basis s) r;
    if (chk : bool) then Ok s else
    do c <- colIdx C b p;
    pushAndCheck C [(r, c, 1%Q)] s) (all_dofs (mapper_of (ibases (cI C)))) s.

(** src/gsDPatchBase.hpp:874-887, _performChecks(true) *)
Definition performChecks (s : xstate) : res unit :=
  do _ <- ensure (forallb (fun b => b) (xs_side s));
  do _ <- ensure (forallb (fun b => b) (xs_vert s));
  ensure (forallb (fun b => b) (xs_basis s)).

(** src/gsDPatchBase.hpp:1176-1206, _computeSmoothMatrix (without the final checks) *)
Definition smoothMatrixLoops (C : ctx) : res xstate :=
  let I := cI C in
  let s0 := mkXS (repeat false (nSides I)) (repeat false (nVerts I)) (repeat false (cRows C)) [] in
  do s <- foldM (handleVertex C) (corner_loop I) s0;
  do s <- foldM (handleInterface C) (tif (itopo I)) s;
  do s <- foldM (handleBoundary C) (tbd (itopo I)) s;
  handleInterior C s.

Definition computeSmoothMatrix (C : ctx) : res (list entry) :=
  do s <- smoothMatrixLoops C;
  do _ <- performChecks s;
  Ok (xs_mat s).

(** The result of gsSmoothInterfaces::compute(): src/gsDPatchBase.hpp:25-36 with
    _initialize (791-807), the size checks (1179, 1251) and matrix dimensions
    (1252).  _makeTHB is empty and _computeEVs only compresses
    (src/gsSmoothInterfaces.hpp:93-108). *)
Record result := mkR { rRows : nat; rCols : nat; rMap : mapper; rMat : list entry }.

Definition compute (I : input) : res result :=
  do size <- countDoFs I;
  do m <- computeMapper I;
  do _ <- ensure (Z.of_nat (freeSize m) =? size)%Z;
  let orig := mapper_of (ibases I) in
  let C := mkC I m orig (Z.to_nat size) (freeSize orig) in
  do w <- computeSmoothMatrix C;
  Ok (mkR (Z.to_nat size) (freeSize orig) m w).

(** Column sums as computed by _checkMatrix, src/gsDPatchBase.hpp:552-565. *)
Definition colSum (R : result) (c : nat) : Q :=
  sumQ (map (fun r => mget (rMat R) r c) (seq 0 (rRows R))).
