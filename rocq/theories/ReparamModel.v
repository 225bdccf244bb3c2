(** Re-parameterisation of one patch: src/gsPatchReparameterized.h and
    src/gsG1AuxiliaryPatch.h, and the case tables that drive it
    (src/gsApproxC1Edge.hpp, src/gsApproxC1Vertex.hpp, src/gsC1SurfEdge.hpp,
    src/gsC1SurfVertex.h).

    Simplifications: rows of a coefficient matrix are elements of an arbitrary
    type; weights of NURBS patches are permuted by the same index expressions as
    the control points and are not separate in the model (a row stands for the
    control point together with its weight). *)
From Verif Require Import Common TopoModel.

(** A univariate B-spline basis as far as it matters here: knots and number of
    functions (gsBSplineBasis, G+Smo core). *)
Record comp := mkComp { cknots : list Q; csize : nat }.

(** gsKnotVector::reverse() (G+Smo core): t -> first + last - t, order reversed. *)
Definition krev (c : comp) : comp :=
  let a := hd 0%Q (cknots c) in
  let b := last (cknots c) 0%Q in
  mkComp (rev (map (fun t => (a + b - t)%Q) (cknots c))) (csize c).

(** A tensor B-spline patch: the two component bases and the coefficient rows,
    row u + dimU*v belonging to grid point (u,v). *)
Record patch (A : Type) := mkPatch { pU : comp; pV : comp; pC : list A }.
Arguments mkPatch {A}. Arguments pU {A}. Arguments pV {A}. Arguments pC {A}.

(** Row access coefs().row(r): an index outside the matrix is an error. *)
Definition zget {A} (l : list A) (r : Z) : res A :=
  if (r <? 0)%Z then Err else vget l (Z.to_nat r).

(** gsMatrix mpar(n, dim) followed by assignments mpar.row(w) = coefs.row(r).
    A row that is never assigned stays uninitialised: error. *)
Definition gather {A} (n : nat) (src : list A) (moves : list (nat * Z)) : res (list A) :=
  do m <- foldM (fun m (wr : nat * Z) => do a <- zget src (snd wr); vset m (fst wr) (Some a)) moves (repeat None n);
  mapM (fun o => match o with Some a => Ok a | None => Err end) m.

(** The loops over j = 0..dimU-1 and i = 0..dimV-1. *)
Definition grid (dimU dimV : nat) : list (nat * nat) :=
  flat_map (fun j => map (fun i => (j, i)) (seq 0 dimV)) (seq 0 dimU).
(** The same with j running downwards (src/gsPatchReparameterized.h:253). *)
Definition grid_down (dimU dimV : nat) : list (nat * nat) :=
  flat_map (fun j => map (fun i => (j, i)) (seq 0 dimV)) (rev (seq 0 dimU)).

(** src/gsPatchReparameterized.h:77-79, 552-558; src/gsG1AuxiliaryPatch.h:256-262, 293-299 *)
Definition swapC {A} (dimU dimV : nat) (c : list A) : res (list A) :=
  gather (dimU * dimV) c
    (map (fun '(j, i) => (i + j * dimV, Z.of_nat (j + dimU * i))) (grid dimU dimV)).

(** src/gsPatchReparameterized.h:167-169, 488-494; src/gsG1AuxiliaryPatch.h:58-64, 97-103 *)
Definition antiC {A} (dimU dimV : nat) (c : list A) : res (list A) :=
  gather (dimU * dimV) c
    (map (fun '(j, i) => (i + j * dimV, (Z.of_nat dimU - 1 - Z.of_nat j + Z.of_nat (dimU * i))%Z)) (grid dimU dimV)).

(** src/gsPatchReparameterized.h:253-255, 520-527; src/gsG1AuxiliaryPatch.h:125-131, 167-174 *)
Definition clockC {A} (dimU dimV : nat) (c : list A) : res (list A) :=
  gather (dimU * dimV) c
    (map (fun '(j, i) => (i + (dimU - j - 1) * dimV,
                          (Z.of_nat (dimV * dimU) - 1 - Z.of_nat j - Z.of_nat (dimU * i))%Z)) (grid_down dimU dimV)).

(** src/gsPatchReparameterized.h:355-356, 459-462; src/gsG1AuxiliaryPatch.h:196-199, 232-235 *)
Definition twiceC {A} (dimU dimV : nat) (c : list A) : res (list A) :=
  gather (dimU * dimV) c
    (map (fun i => (i, (Z.of_nat (dimU * dimV) - 1 - Z.of_nat i)%Z)) (seq 0 (dimU * dimV))).

Inductive op := OSwap | OAnti | OClock | OTwice.

Definition opC {A} (o : op) : nat -> nat -> list A -> res (list A) :=
  match o with OSwap => swapC | OAnti => antiC | OClock => clockC | OTwice => twiceC end.

(** New component bases of a re-parameterised *geometry* in
    gsPatchReparameterized: knots of the reversed direction(s) are reversed.
    swap: 85; anti-clock: 172, 175; clock: 259, 262; twice: 359-363. *)
Definition geoK (o : op) (cU cV : comp) : comp * comp :=
  match o with
  | OSwap => (cV, cU)
  | OAnti => (cV, krev cU)
  | OClock => (krev cV, cU)
  | OTwice => (krev cU, krev cV)
  end.

(** New component bases of a re-parameterised *basis function*
    (rotateBasis...: 464, 497, 530, 561) and of the geometry in gsG1AuxiliaryPatch
    (67, 134, 201, 265): no reversal. *)
Definition basK (o : op) (cU cV : comp) : comp * comp :=
  match o with OTwice => (cU, cV) | _ => (cV, cU) end.

Definition op_patch {A} (K : comp -> comp -> comp * comp) (o : op) (p : patch A) : res (patch A) :=
  do c <- opC o (csize (pU p)) (csize (pV p)) (pC p);
  let k := K (pU p) (pV p) in Ok (mkPatch (fst k) (snd k) c).

(** m_basisRotated.basis(0).reverse(): components swapped
    (src/gsPatchReparameterized.h:119, 211, 297; twice: nothing, 394). *)
Definition op_basis (o : op) (b : comp * comp) : comp * comp :=
  match o with OTwice => b | _ => (snd b, fst b) end.

(** State of a gsPatchReparameterized object (src/gsPatchReparameterized.h:595-611);
    [neg]: gsGeometry::orientation() == -1 (G+Smo core), changed by a swap of the
    axes and by nothing else. *)
Record aux (A : Type) := mkAux {
  geo : patch A; bas2 : comp * comp; mapIx : list nat; orient : bool; rotNum : Z; neg : bool }.
Arguments mkAux {A}. Arguments geo {A}. Arguments bas2 {A}. Arguments mapIx {A}.
Arguments orient {A}. Arguments rotNum {A}. Arguments neg {A}.

(** constructor, src/gsPatchReparameterized.h:29-40 *)
Definition newAux {A} (p : patch A) (negative : bool) : aux A :=
  mkAux p (pU p, pV p) [1; 2; 3; 4] false 0 negative.

(** checkRotation(), src/gsPatchReparameterized.h:574-578 *)
Definition checkRotation (r : Z) : Z := if (r =? 4)%Z then 0%Z else r.

(** Map Index blocks: 121-125, 213-227, 299-313, 394-408 *)
Definition op_map (o : op) (oriented : bool) : list nat :=
  match o, oriented with
  | OSwap, _ => [3; 4; 1; 2]
  | OAnti, false => [4; 3; 1; 2]
  | OAnti, true => [1; 2; 4; 3]
  | OClock, false => [3; 4; 2; 1]
  | OClock, true => [2; 1; 3; 4]
  | OTwice, false => [2; 1; 4; 3]
  | OTwice, true => [4; 3; 2; 1]
  end.

(** rotationNum update: anti-clock 231 (no check), clock 316-317, twice 411-412 *)
Definition op_rot (o : op) (r : Z) : Z :=
  match o with
  | OSwap => r
  | OAnti => (r + 1)%Z
  | OClock => checkRotation (r - 1)
  | OTwice => checkRotation (r + 2)
  end.

(** swapAxis (42-128), rotateParamAntiClock (131-232), rotateParamClock (234-318),
    rotateParamAntiClockTwice (320-413) *)
Definition run1 {A} (a : aux A) (o : op) : res (aux A) :=
  do g <- op_patch (geoK o) o (geo a);
  Ok (mkAux g (op_basis o (bas2 a)) (op_map o (orient a))
        (match o with OSwap => true | _ => orient a end) (op_rot o (rotNum a))
        (match o with OSwap => negb (neg a) | _ => neg a end)).

Definition run {A} (h : list op) (a : aux A) : res (aux A) := foldM run1 h a.

(** getMapIndex(glSide), src/gsPatchReparameterized.h:593 *)
Definition getMapIndex {A} (a : aux A) (glSide : nat) : res nat := vget (mapIx a) (glSide - 1).

(** the case distinction of parametrizeBasisBack, src/gsPatchReparameterized.h:417-439,
    src/gsG1AuxiliaryPatch.h:316-334 *)
Definition back_ops (r : Z) (oriented : bool) : list op :=
  (if (r =? 2)%Z then [OTwice] else if (r =? -1)%Z then [OAnti] else if (r =? 1)%Z then [OClock] else [])
  ++ (if oriented then [OSwap] else []).

(** parametrizeBasisBack(g1Basis): every function of the list is treated alike
    (443-566 loop over the patches of g1Basis). *)
Definition parametrizeBasisBack {A} (a : aux A) (gs : list (patch A)) : res (list (patch A)) :=
  foldM (fun gs o => mapM (op_patch (basK o) o) gs) (back_ops (rotNum a) (orient a)) gs.

(** gsG1AuxiliaryPatch: the same without side map and without knot reversal
    (src/gsG1AuxiliaryPatch.h:30-35, 46-79, 114-147, 185-214, 245-276, 374-377). *)
Record aux1 (A : Type) := mkAux1 { geo1 : patch A; orient1 : bool; rotNum1 : Z; neg1 : bool }.
Arguments mkAux1 {A}. Arguments geo1 {A}. Arguments orient1 {A}. Arguments rotNum1 {A}. Arguments neg1 {A}.

Definition newAux1 {A} (p : patch A) (negative : bool) : aux1 A := mkAux1 p false 0 negative.

Definition run1_1 {A} (a : aux1 A) (o : op) : res (aux1 A) :=
  do g <- op_patch (basK o) o (geo1 a);
  Ok (mkAux1 g (match o with OSwap => true | _ => orient1 a end) (op_rot o (rotNum1 a))
        (match o with OSwap => negb (neg1 a) | _ => neg1 a end)).

Definition run_1 {A} (h : list op) (a : aux1 A) : res (aux1 A) := foldM run1_1 h a.

(** src/gsG1AuxiliaryPatch.h:311-337 *)
Definition parametrizeBasisBack_1 {A} (a : aux1 A) (gs : list (patch A)) : res (list (patch A)) :=
  foldM (fun gs o => mapM (op_patch (basK o) o) gs) (back_ops (rotNum1 a) (orient1 a)) gs.

(** computeAuxTopology (src/gsApproxC1Edge.hpp:188-195) and checkOrientation
    (src/gsApproxC1Vertex.hpp:106-112) on one patch. *)
Definition orientOps (negative : bool) : list op := if negative then [OSwap] else [].

(** Case tables of reparametrizeInterfacePatches, src/gsApproxC1Edge.hpp:210-237
    (and src/gsC1SurfEdge.hpp:45-72); [first]: patch 0. *)
Definition interfaceOps (first : bool) (sideIndex : nat) : list op :=
  if first then
    match sideIndex with 1 => [] | 4 => [OClock] | 3 => [OAnti] | 2 => [OTwice] | _ => [] end
  else
    match sideIndex with 3 => [] | 4 => [OTwice] | 2 => [OAnti] | 1 => [OClock] | _ => [] end.

Definition reparametrizeInterface {A} (first : bool) (sideIndex : nat) (a : aux A) : res (aux A) :=
  do a1 <- run (orientOps (neg a)) a;
  run (interfaceOps first sideIndex) a1.

(** reparametrizeSinglePatch, src/gsApproxC1Edge.hpp:242-280
    (and src/gsC1SurfEdge.hpp:79-116) *)
Definition singleOps (oriented : bool) (sideIndex : nat) : list op :=
  if oriented then
    match sideIndex with 3 => [] | 2 => [OClock] | 4 => [OTwice] | 1 => [OAnti] | _ => [] end
  else
    match sideIndex with 1 => [] | 4 => [OClock] | 2 => [OTwice] | 3 => [OAnti] | _ => [] end.

Definition reparametrizeSingle {A} (sideIndex : nat) (a : aux A) : res (aux A) :=
  do a1 <- run (orientOps (neg a)) a;
  run (singleOps (orient a1) sideIndex) a1.

(** reparametrizeVertexPatches, one patch: src/gsApproxC1Vertex.hpp:26-66 *)
Definition vertexOps (oriented : bool) (vertexIndex : nat) : list op :=
  if oriented then
    match vertexIndex with 4 => [OTwice] | 3 => [OAnti] | 2 => [OClock] | _ => [] end
  else
    match vertexIndex with 4 => [OTwice] | 2 => [OAnti] | 3 => [OClock] | _ => [] end.

Definition reparametrizeVertex {A} (vertexIndex : nat) (a : aux A) : res (aux A) :=
  do a1 <- run (orientOps (neg a)) a;
  run (vertexOps (orient a1) vertexIndex) a1.

(** reparametrizeG1Vertex with checkOrientation, one patch:
    src/gsC1SurfVertex.h:57-79, 93-108.  Returns the new vertex index as well. *)
Definition reparametrizeG1Vertex {A} (vertexIndex : nat) (a : aux1 A) : res (aux1 A * nat) :=
  do a1 <- run_1 (orientOps (neg1 a)) a;
  let v := if neg1 a then (if vertexIndex =? 2 then 3 else if vertexIndex =? 3 then 2 else vertexIndex) else vertexIndex in
  do a2 <- run_1 (match v with 4 => [OTwice] | 2 => [OAnti] | 3 => [OClock] | _ => [] end) a1;
  Ok (a2, v).
