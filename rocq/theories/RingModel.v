(** Mapper and size prediction of gsDPatch and gsAlmostC1
    (src/gsDPatch.hpp, src/gsAlmostC1.hpp, on top of src/gsDPatchBase.hpp).

    The local bases of these constructions are hierarchical.  The code sees them
    only through size(), boundaryOffset(side,k), functionAtCorner(c) and
    _indexFromVert; a basis is therefore modelled by these four functions. *)
From Verif Require Import Common TopoModel BaseModel BaseModel2.

(** rsize: size(); roff s k: boundaryOffset(s,k); rcorner c: functionAtCorner(c);
    rifv k c s o: _indexFromVert(k,c,s,o) (src/gsDPatchBase.hpp:369-422; its result is
    taken as given here). *)
Record rbasis := mkRB {
  rsize : nat;
  roff : side -> nat -> list nat;
  rcorner : corner -> nat;
  rifv : nat -> corner -> side -> nat -> nat }.

Record rinput := mkRI { ritopo : topo; ribases : list rbasis; riC0 : list bool }.

(* ------------------------------------------------------------------ *)
(** * gsDofMapper with coupling (external, before finalize())

    value 0: free; > 0: coupled (one number per group); < 0: eliminated. *)
Record cmap := mkCM { cmsizes : list nat; cmval : dof -> Z; cmcouple : Z; cmelim : Z }.

Definition cmap_of (sizes : list nat) : cmap := mkCM sizes (fun _ => 0%Z) 1 (-1).

Definition cvalid (m : cmap) (x : dof) : bool :=
  match nth_error (cmsizes m) (fst x) with Some n => snd x <? n | None => false end.

Definition cset (m : cmap) (x : dof) (z : Z) : dof -> Z := fun y => if dof_eqb y x then z else cmval m y.
(** replaceDofGlobally(old,new) *)
Definition creplace (m : cmap) (old new : Z) : dof -> Z := fun y => if (cmval m y =? old)%Z then new else cmval m y.

(** gsDofMapper::eliminateDof(k,p) *)
Definition celiminate (m : cmap) (k p : nat) : res cmap :=
  if cvalid m (p, k) then
    let old := cmval m (p, k) in
    if (old =? 0)%Z then Ok (mkCM (cmsizes m) (cset m (p, k) (cmelim m)) (cmcouple m) (cmelim m - 1))
    else if (0 <? old)%Z then Ok (mkCM (cmsizes m) (creplace m old (cmelim m)) (cmcouple m) (cmelim m - 1))
    else Ok m
  else Err.

(** gsDofMapper::markBoundary(p,indices) *)
Definition cmarkBoundary (m : cmap) (p : nat) (ks : list nat) : res cmap :=
  foldM (fun m k => celiminate m k p) ks m.

(** gsDofMapper::matchDof(u,i,v,j) *)
Definition cmatch (m : cmap) (u i v j : nat) : res cmap :=
  if cvalid m (u, i) && cvalid m (v, j) then
    let '(a, b) := if (cmval m (v, j) <? cmval m (u, i))%Z then ((v, j), (u, i)) else ((u, i), (v, j)) in
    let d1 := cmval m a in
    let d2 := cmval m b in
    if (d1 <? 0)%Z then
      if (d2 <? 0)%Z then
        if (d1 =? d2)%Z then Ok m else Ok (mkCM (cmsizes m) (creplace m d1 d2) (cmcouple m) (cmelim m))
      else if (d2 =? 0)%Z then Ok (mkCM (cmsizes m) (cset m b d1) (cmcouple m) (cmelim m))
      else Ok (mkCM (cmsizes m) (creplace m d2 d1) (cmcouple m) (cmelim m))
    else if (d1 =? 0)%Z then
      if (d2 =? 0)%Z then
        Ok (mkCM (cmsizes m) (fun y => if dof_eqb y a || dof_eqb y b then cmcouple m else cmval m y)
                 (cmcouple m + 1) (cmelim m))
      else Ok (mkCM (cmsizes m) (cset m a d2) (cmcouple m) (cmelim m))
    else if (d1 =? d2)%Z then Ok m else Ok (mkCM (cmsizes m) (creplace m d1 d2) (cmcouple m) (cmelim m))
  else Err.

(** gsDofMapper::finalize(), freeSize(): free functions plus one per coupled group *)
Definition cfreeSize (m : cmap) : nat :=
  length (filter (fun x => cmval m x =? 0)%Z (dofs_from 0 (cmsizes m))) +
  length (nodup Z.eq_dec (filter (fun z => 0 <? z)%Z (map (cmval m) (dofs_from 0 (cmsizes m))))).

(* ------------------------------------------------------------------ *)
(** * Mapper construction *)

Inductive scheme := SchemeDPatch | SchemeAlmostC1.

Record rstate := mkRS { rs_map : cmap; rs_side : list bool; rs_vert : list bool }.

Definition rbasisOf (I : rinput) (p : nat) : res rbasis := vget (ribases I) p.

(** src/gsDPatchBase.hpp:1279-1337: one side of an interface.  (boundary() of a
    hierarchical basis is increasing, so std::set_difference is a filter.) *)
Definition rInterfaceSide (I : rinput) (s : rstate) (ps : pside) : res rstate :=
  do chk <- vget (rs_side s) (sideIndex ps);
  if (chk : bool) then Ok s else
  do b <- rbasisOf I (fst ps);
  let sel := flat_map (fun c => [rifv b 0 c (snd ps) 0; rifv b 1 c (snd ps) 0]) (contained_corners (snd ps)) in
  do m <- cmarkBoundary (rs_map s) (fst ps) (without (roff b (snd ps) 0) sel);
  do sc <- vset (rs_side s) (sideIndex ps) true;
  Ok (mkRS m sc (rs_vert s)).

(** src/gsDPatchBase.hpp:1259-1338 *)
Definition rInterface (I : rinput) (s : rstate) (f : iface) : res rstate :=
  do chk <- vget (rs_side s) (sideIndex (if2 f));
  if (chk : bool) then Ok s else
  foldM (rInterfaceSide I) [if1 f; if2 f] s.

(** src/gsDPatchBase.hpp:1340-1345 *)
Definition rBoundary (s : rstate) (ps : pside) : res rstate :=
  do sc <- vset (rs_side s) (sideIndex ps) true;
  Ok (mkRS (rs_map s) sc (rs_vert s)).

(** eliminate a list of (patch,index) pairs *)
Definition celimAll (l : list dof) (m : cmap) : res cmap :=
  foldM (fun m (x : dof) => celiminate m (snd x) (fst x)) l m.

(** src/gsDPatchBase.hpp:506-534 and 536-550 on the modelled bases *)
Definition rInterfaceIndices (I : rinput) (pc : pcorner) (depth : nat) : res (list dof) :=
  do b <- rbasisOf I (fst pc);
  if depth =? 0 then Ok [(fst pc, rcorner b (snd pc))]
  else Ok (flat_map (fun s => if isBoundary (ritopo I) (fst pc, s) then []
                              else [(fst pc, rifv b depth (snd pc) s 0)]) (containing_sides (snd pc))).
Definition rAllInterfaceIndices (I : rinput) (pc : pcorner) (depth : nat) : res (list dof) :=
  do l <- cornerList (ritopo I) pc;
  do ll <- mapM (fun c => rInterfaceIndices I c depth) l;
  Ok (concat ll).

(** the functions [ks] steps from [pc] along those containing sides that satisfy [test] *)
Definition along_sides (I : rinput) (pc : pcorner) (ks : list nat) (test : side -> bool) : res (list dof) :=
  do b <- rbasisOf I (fst pc);
  Ok (flat_map (fun s => if test s then map (fun k => (fst pc, rifv b k (snd pc) s 0)) ks else [])
               (containing_sides (snd pc))).

Definition rIface (I : rinput) (pc : pcorner) (s : side) : bool := isInterface (ritopo I) (fst pc, s).

(** src/gsDPatchBase.hpp:1387-1444, _computeMapperRegularBoundaryVertexSmooth_v2 *)
Definition rRegularSmooth (I : rinput) (pc : pcorner) (m : cmap) : res cmap :=
  do l <- along_sides I pc [0; 1] (rIface I pc); celimAll l m.

(** src/gsDPatchBase.hpp:1446-1473 and 1499-1514: _computeMapperRegularBoundaryVertexNonSmooth_v2,
    _computeMapperIrregularBoundaryVertexNonSmooth_v *)
Definition rNonSmooth (I : rinput) (pc : pcorner) (m : cmap) : res cmap :=
  do l <- along_sides I pc [1] (rIface I pc); celimAll l m.

(** src/gsDPatchBase.hpp:1516-1545, _computeMapperInteriorVertex_v *)
Definition rInterior (I : rinput) (pc : pcorner) (m : cmap) : res cmap :=
  do l <- along_sides I pc [0; 1] (fun _ => true); celimAll l m.

(** mark all corners of a vertex *)
Definition markCorners (l : list pcorner) (vc : list bool) : res (list bool) :=
  foldM (fun v c => vset v (vertIndex c) true) l vc.

(** src/gsDPatch.hpp:1146-1210, _computeMapperIrregularBoundaryVertexSmooth_v3
    (also used for the non-smooth case, 1203-1208) *)
Definition dpBoundary_v3 (I : rinput) (pc : pcorner) (m : cmap) (vc : list bool) : res (cmap * list bool) :=
  do l <- cornerList (ritopo I) pc;
  do first <- match l with c :: _ => Ok c | [] => Err end;
  do b0 <- rbasisOf I (fst first);
  foldM (fun (st : cmap * list bool) (ic : nat * pcorner) =>
      let '(m, vc) := st in
      let c := snd ic in
      do b <- rbasisOf I (fst c);
      do m <- celiminate m (rifv b 1 (snd c) (cside (snd c) 0) 0) (fst c);
      do m <- celiminate m (rifv b 1 (snd c) (cside (snd c) 1) 0) (fst c);
      do m <- (if fst ic =? 0 then Ok m
               else cmatch m (fst first) (rcorner b0 (snd first)) (fst c) (rcorner b (snd c)));
      do vc <- vset vc (vertIndex c) true;
      Ok (m, vc)) (combine (seq 0 (length l)) l) (m, vc).

(** src/gsAlmostC1.hpp:819-844 *)
Definition acNonSmooth_v2 (I : rinput) (pc : pcorner) (m : cmap) (vc : list bool) : res (cmap * list bool) :=
  do i1 <- rAllInterfaceIndices I pc 1;
  do i1 <- removeLowestIndices i1 1;
  do m <- celimAll i1 m;
  do l <- cornerList (ritopo I) pc;
  do vc <- markCorners l vc;
  Ok (m, vc).

(** src/gsAlmostC1.hpp:846-868 *)
Definition acIrregularSmooth (I : rinput) (pc : pcorner) (m : cmap) (vc : list bool) : res (cmap * list bool) :=
  do i0 <- rAllInterfaceIndices I pc 0;
  do i1 <- rAllInterfaceIndices I pc 1;
  do l <- cornerList (ritopo I) pc;
  do vc <- markCorners l vc;
  do m <- celimAll i1 m;
  do i0 <- removeLowestIndices i0 3;
  do m <- celimAll i0 m;
  Ok (m, vc).

(** src/gsAlmostC1.hpp:877-899 *)
Definition acInterior (I : rinput) (pc : pcorner) (m : cmap) (vc : list bool) : res (cmap * list bool) :=
  do i0 <- rAllInterfaceIndices I pc 0;
  do i1 <- rAllInterfaceIndices I pc 1;
  do l <- cornerList (ritopo I) pc;
  do vc <- markCorners l vc;
  do i0 <- removeLowestIndices i0 3;
  do m <- celimAll i0 m;
  do m <- celimAll i1 m;
  Ok (m, vc).

(** _computeVertexMapper: src/gsDPatch.hpp:1111-1144 (valence > 3 on the boundary:
    GISMO_ERROR, 1212-1222) and src/gsAlmostC1.hpp:786-817; valence 1:
    src/gsDPatchBase.hpp:1378-1385 does nothing; gsAlmostC1.hpp:870-875: interior
    vertices of valence 4 *)
Definition rVertexRule (sc : scheme) (I : rinput) (pc : pcorner) (valence : nat) (interior C0 : bool)
    (m : cmap) (vc : list bool) : res (cmap * list bool) :=
  let percorner (r : res cmap) := do m <- r; Ok (m, vc) in
  match sc with
  | SchemeDPatch =>
      if negb interior && (valence =? 1) then Ok (m, vc)
      else if negb interior && (valence =? 2) && C0 then percorner (rNonSmooth I pc m)
      else if negb interior && (valence =? 2) && negb C0 then percorner (rRegularSmooth I pc m)
      else if negb interior && (valence =? 3) then dpBoundary_v3 I pc m vc
      else if negb interior && (3 <? valence) then Err
      else if interior then percorner (rInterior I pc m)
      else Err
  | SchemeAlmostC1 =>
      if negb interior && (valence =? 1) then Ok (m, vc)
      else if negb interior && (valence =? 2) && C0 then acNonSmooth_v2 I pc m vc
      else if negb interior && (valence =? 2) && negb C0 then percorner (rRegularSmooth I pc m)
      else if negb interior && (2 <? valence) && C0 then percorner (rNonSmooth I pc m)
      else if negb interior && (2 <? valence) && negb C0 then acIrregularSmooth I pc m vc
      else if interior && (valence =? 4) then percorner (rRegularSmooth I pc m)
      else if interior && ((valence =? 3) || (4 <? valence)) then acInterior I pc m vc
      else Err
  end.

Definition rVertex (sc : scheme) (I : rinput) (s : rstate) (pc : pcorner) : res rstate :=
  do chk <- vget (rs_vert s) (vertIndex pc);
  if (chk : bool) then Ok s else
  do c0 <- vget (riC0 I) (vertIndex pc);
  do vd <- vertexData (ritopo I) pc;
  do r <- rVertexRule sc I pc (fst vd) (snd vd) c0 (rs_map s) (rs_vert s);
  do vc <- vset (snd r) (vertIndex pc) true;
  Ok (mkRS (fst r) (rs_side s) vc).

(** src/gsDPatchBase.hpp:1208-1249 *)
Definition rMapper (sc : scheme) (I : rinput) : res cmap :=
  let np := length (ribases I) in
  let t := ritopo I in
  let s0 := mkRS (cmap_of (map rsize (ribases I))) (repeat false (2 * length (tif t) + length (tbd t))) (repeat false (4 * np)) in
  do s1 <- foldM (rInterface I) (tif t) s0;
  do s2 <- foldM rBoundary (tbd t) s1;
  do s3 <- foldM (rVertex sc I) (all_corners np) s2;
  Ok (rs_map s3).

(* ------------------------------------------------------------------ *)
(** * Size prediction: src/gsDPatch.hpp:641-729, src/gsAlmostC1.hpp:684-784
    (the two functions differ in the vertex part only) *)

Definition rcount_interior (I : rinput) : Z :=
  fold_left (fun tmp b =>
    fold_left (fun tmp k =>
      let tmp := u64 (tmp - zlen (roff b West k)) in
      let tmp := u64 (tmp - zlen (roff b East k)) in
      let tmp := u64 (tmp - (zlen (roff b South k) - 4)) in
      u64 (tmp - (zlen (roff b North k) - 4)))%Z
    [0; 1] (u64 (tmp + Z.of_nat (rsize b)))%Z) (ribases I) 0%Z.

Definition rcount_interfaces (I : rinput) : res Z :=
  foldM (fun tmp f =>
    do b1 <- rbasisOf I (fst (if1 f));
    do b2 <- rbasisOf I (fst (if2 f));
    let tmp := u64 (tmp + (zlen (roff b1 (snd (if1 f)) 0) - 4))%Z in
    Ok (u64 (tmp + (zlen (roff b2 (snd (if2 f)) 0) - 4))%Z)) (tif (ritopo I)) 0%Z.

Definition rcount_boundaries (I : rinput) : res Z :=
  foldM (fun tmp ps =>
    do b <- rbasisOf I (fst ps);
    let tmp := u64 (tmp + (zlen (roff b (snd ps) 0) - 4))%Z in
    Ok (u64 (tmp + (zlen (roff b (snd ps) 1) - 4))%Z)) (tbd (ritopo I)) 0%Z.

(** src/gsDPatch.hpp:705-720; src/gsAlmostC1.hpp:750-777 *)
Definition rcount_class (sc : scheme) (valence : nat) (interior C0 : bool) : Z :=
  let v := Z.of_nat valence in
  match sc with
  | SchemeDPatch =>
      (if negb interior && (valence =? 1)%nat then 4
       else if negb interior && (valence =? 2)%nat && negb C0 then 4
       else if negb interior && (2 <? valence)%nat && negb C0 then 4
       else if negb interior && (valence =? 2)%nat && C0 then 6
       else if negb interior && (2 <? valence)%nat && C0 then 4
       else v)%Z
  | SchemeAlmostC1 =>
      (if negb interior && (valence =? 1)%nat then 4
       else if negb interior && (valence =? 2)%nat && negb C0 then 4
       else if negb interior && (2 <? valence)%nat && negb C0 then v + 3 + 2
       else if negb interior && (valence =? 2)%nat && C0 then 2 * v + 2 + 1
       else if negb interior && (2 <? valence)%nat && C0 then 2 * v + 2
       else if interior && (valence =? 4)%nat then 4
       else v + 3)%Z
  end.

Definition rcount_vertices (sc : scheme) (I : rinput) : res Z :=
  do r <- foldM (fun (st : list bool * Z) pc =>
      let '(passed, tmp) := st in
      do chk <- vget passed (vertIndex pc);
      if (chk : bool) then Ok st else
      do l <- cornerList (ritopo I) pc;
      do passed' <- foldM (fun ps c => vset ps (vertIndex c) true) l passed;
      do vd <- vertexData (ritopo I) pc;
      do c0 <- vget (riC0 I) (vertIndex pc);
      Ok (passed', u64 (tmp + rcount_class sc (fst vd) (snd vd) c0))%Z)
    (all_corners (length (ribases I))) (repeat false (4 * length (ribases I)), 0%Z);
  Ok (snd r).

Definition rcountDoFs (sc : scheme) (I : rinput) : res Z :=
  let s := u64 (0 + rcount_interior I) in
  do a <- rcount_interfaces I;
  let s := u64 (s + a) in
  do b <- rcount_boundaries I;
  let s := u64 (s + b) in
  do c <- rcount_vertices sc I;
  Ok (u64 (s + c))%Z.

(** A tensor-product basis seen this way. *)
Definition ring_of (b : tbasis) : rbasis :=
  mkRB (tsize b) (boundaryOffset b) (functionAtCorner b)
    (fun k c s o => match indexFromVert b k c s o with Ok i => i | Err => 0 end).
