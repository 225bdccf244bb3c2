(** Model of the univariate spaces both patches of an interface work with in the approximate C1 construction: init() of gsApproxC1Spline
    creates the spaces of the pieces, gsApproxC1GluingData, gsApproxC1Edge and gsApproxC1Vertex choose those of the gluing data and of the
    functions in the re-parameterised patches.

    Simplifications: knot vectors as in C1Model; tensor bases and geometries are pairs of knot vectors. The gluing data themselves are in
    the space computed here (L2 projection, not modelled). *)
From Verif Require Import Common TopoModel BaseModel ReparamModel C1Model SpaceModel.
Open Scope Z_scope.

Definition tens : Type := kvec * kvec.
(** basis.component(dir) = k *)
Definition setComp (b : tens) (dir : nat) (k : kvec) : tens := match dir with 0%nat => (k, snd b) | _ => (fst b, k) end.

(** ** Re-parameterisation *)
(** knots of a geometry: as [geoK] of ReparamModel (src/gsPatchReparameterized.h:85, 172, 175, 259, 262, 359-363) *)
Definition kvGeo (o : op) (b : tens) : tens :=
  match o with
  | OSwap => (snd b, fst b)
  | OAnti => (snd b, kvrev (fst b))
  | OClock => (kvrev (snd b), fst b)
  | OTwice => (kvrev (fst b), kvrev (snd b))
  end.
(** knots of the pieces of the basis: as [op_basis] (119, 211, 297, 394), reverse() of the container, src/gsContainerBasis.h:105-128 *)
Definition kvBas (o : op) (b : tens) : tens := match o with OTwice => b | _ => (snd b, fst b) end.
Definition runGeo (h : list op) (b : tens) : tens := fold_left (fun b o => kvGeo o b) h b.
Definition runBas (h : list op) (b : tens) : tens := fold_left (fun b o => kvBas o b) h b.
(** mapIndex after the operations and getMapIndex: 121-125, 213-227, 299-313, 394-408, 593 *)
Definition runMap (h : list op) : list nat * bool :=
  fold_left (fun mo o => (op_map o (snd mo), match o with OSwap => true | _ => snd mo end)) h ([1; 2; 3; 4]%nat, false).
Definition mapIndex (h : list op) (s : side) : res nat := vget (fst (runMap h)) (side_ix s - 1).
(** getMapIndex(side) < 3 ? 1 : 0 *)
Definition localDir (h : list op) (s : side) : res nat := do i <- mapIndex h s; Ok (if (i <? 3)%nat then 1%nat else 0%nat).

(** reparametrizeInterfacePatches and reparametrizeVertexPatches: src/gsApproxC1Edge.hpp:186-238, src/gsApproxC1Vertex.hpp:26-66 *)
Definition ifOps (first : bool) (neg : bool) (s : side) : list op := orientOps neg ++ interfaceOps first (side_ix s).
Definition vtOps (neg : bool) (c : corner) : list op := orientOps neg ++ vertexOps neg (corner_ix c).

(** ** Interfaces *)
(** one of the two patches: geometry, basis, side of the interface, orientation() == -1 *)
Record ipatch := mkIP { ipGeo : tens; ipBas : tens; ipSide : side; ipNeg : bool }.

(** src/gsApproxC1Spline.hpp:101-146: plus and minus space, pieces for the two sides *)
Definition ifInit (redn : nat -> nat -> nat) (pt rt : Z) (p1 p2 : ipatch) : res (kvec * kvec * tens * tens) :=
  let d1 := along (ipSide p1) in
  let d2 := along (ipSide p2) in
  let k1 := kcomp (ipBas p1) d1 in
  let k2 := kcomp (ipBas p2) d2 in
  let '(geo, k, b1, b2) :=
    if (kvelements k2 <? kvelements k1)%nat then (kcomp (ipGeo p2) d2, k2, setComp (ipBas p1) d1 k2, ipBas p2)
    else (kcomp (ipGeo p1) d1, k1, ipBas p1, setComp (ipBas p2) d2 k1) in
  do plus <- createPlusSpace (redn 1%nat) geo k;
  do minus <- createMinusSpace (redn 1%nat) geo k;
  do gd <- gluingSpace geo k pt rt;
  do e1 <- edgeSpace redn (kcomp (ipGeo p1) d1) (kcomp b1 d1) plus minus gd;
  do e2 <- edgeSpace redn (kcomp (ipGeo p2) d2) (kcomp b2 d2) plus minus gd;
  Ok (plus, minus, setComp b1 d1 e1, setComp b2 d2 e2).

(** src/gsApproxC1GluingData.h:100-110: space of the gluing data of one patch, [own] and [other] are the components along the interface *)
Definition coarser (own other : kvec) : kvec := if (kvelements other <? kvelements own)%nat then other else own.
Definition ifGluing (pt rt : Z) (geo own other : kvec) : res kvec := gluingSpace geo (coarser own other) pt rt.

Record ifLocal := mkIL { ilPlus : kvec; ilMinus : kvec; ilGD1 : kvec; ilGD2 : kvec }.
(** src/gsApproxC1Edge.hpp:30-70, src/gsApproxC1GluingData.h:47-50: patch 0 has the interface in direction 1, patch 1 in direction 0 *)
Definition ifSetup (redn : nat -> nat -> nat) (pt rt : Z) (p1 p2 : ipatch) : res ifLocal :=
  let h1 := ifOps true (ipNeg p1) (ipSide p1) in
  let h2 := ifOps false (ipNeg p2) (ipSide p2) in
  let g1 := kcomp (runGeo h1 (ipGeo p1)) 1 in
  let g2 := kcomp (runGeo h2 (ipGeo p2)) 0 in
  let k1 := kcomp (runBas h1 (ipBas p1)) 1 in
  let k2 := kcomp (runBas h2 (ipBas p2)) 0 in
  do gd2 <- ifGluing pt rt g2 k2 k1;
  do gd1 <- ifGluing pt rt g1 k1 k2;
  let '(geo, k) := if (kvelements k2 <? kvelements k1)%nat then (g2, k2) else (g1, k1) in
  do plus <- createPlusSpace (redn 1%nat) geo k;
  do minus <- createMinusSpace (redn 1%nat) geo k;
  Ok (mkIL plus minus gd1 gd2).

(** ** Vertices *)
(** the neighbour across a side: its basis and side, and the corner and orientation with which it appears among the patches at the vertex
    (src/gsApproxC1Vertex.h:186-196: the last patch with that number) *)
Record vneigh := mkVN { vnBas : tens; vnSide : side; vnCorner : corner; vnNeg : bool }.
(** one patch at the vertex *)
Record vpatch := mkVP { vpGeo : tens; vpBas : tens; vpCorner : corner; vpNeg : bool; vpNb : side -> option vneigh }.

(** src/gsApproxC1Spline.hpp:191-216: one containing side *)
Definition vtCoarser (P : vpatch) (b : tens) (s : side) : tens :=
  match vpNb P s with
  | None => b
  | Some n => setComp b (along s) (coarser (kcomp b (along s)) (kcomp (vnBas n) (along (vnSide n))))
  end.
Definition isIf (P : vpatch) (s : side) : bool := match vpNb P s with Some _ => true | None => false end.
(** src/gsApproxC1Spline.hpp:183-231: the piece for the corner; 218-223 exchanges the flags if the first side is west or east *)
Definition vtInit (redn : nat -> nat -> nat) (pt rt : Z) (P : vpatch) : res tens :=
  let s1 := cside (vpCorner P) 0 in
  let s2 := cside (vpCorner P) 1 in
  let b := vtCoarser P (vtCoarser P (vpBas P) s1) s2 in
  let '(f1, f2) := if (side_ix s1 <? 3)%nat then (isIf P s2, isIf P s1) else (isIf P s1, isIf P s2) in
  do u <- vertexSpace redn (fst (vpGeo P)) (fst b) f1 pt rt;
  do v <- vertexSpace redn (snd (vpGeo P)) (snd b) f2 pt rt;
  Ok (u, v).

(** what is used along one edge: (is it an interface, gluing data, plus, minus) *)
Record vtEdge := mkVE { veIf : bool; veGD : kvec; vePlus : kvec; veMinus : kvec }.
(** src/gsApproxC1Vertex.h:178-207: basis_pm, one side *)
Definition vtPM (P : vpatch) (base : tens) (b : tens) (s : side) : res tens :=
  match vpNb P s with
  | None => Ok b
  | Some n =>
      do d1 <- localDir (vtOps (vpNeg P) (vpCorner P)) s;
      let h2 := vtOps (vnNeg n) (vnCorner n) in
      do d2 <- localDir h2 (vnSide n);
      let k2 := kcomp (runBas h2 (vnBas n)) d2 in
      Ok (if (kvelements k2 <? kvelements (kcomp base d1))%nat then setComp b d1 k2 else b)
  end.
(** src/gsApproxC1Vertex.h:153-250 with src/gsApproxC1GluingData.h:52-72: the two edges by local direction *)
Definition vtSetup (redn : nat -> nat -> nat) (pt rt : Z) (P : vpatch) : res (list (option vtEdge)) :=
  let h := vtOps (vpNeg P) (vpCorner P) in
  let s1 := cside (vpCorner P) 0 in
  let s2 := cside (vpCorner P) 1 in
  let sides := if (side_ix s1 <? 3)%nat then [s2; s1] else [s1; s2] in
  let geo := runGeo h (vpGeo P) in
  let base := runBas h (vpBas P) in
  do pm <- foldM (vtPM P base) sides base;
  foldM (fun l s =>
    do d <- localDir h s;
    do gd <- gluingSpace (kcomp geo d) (kcomp pm d) pt rt;
    let k := if isIf P s then kcomp pm d else kcomp base d in
    do plus <- createPlusSpace (redn 1%nat) (kcomp geo d) k;
    do minus <- createMinusSpace (redn 1%nat) (kcomp geo d) k;
    vset l d (Some (mkVE (isIf P s) gd plus minus))) sides [None; None].
