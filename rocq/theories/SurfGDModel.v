(** Model of the gluing data of the C1 construction on surfaces (src/gsC1SurfGluingData.h and
    src/gsC1SurfGluingDataVisitor.h) and of the functions at an edge (src/gsC1SurfVisitorBasisEdge.h).

    Simplifications: real arithmetic is exact; the derivatives of the two geometries are given by functions and points have
    three coordinates (a planar geometry has 0 for the third); the quadrature nodes and weights of the elements are given
    (gsGaussRule belongs to the core); a matrix is a function of row and column; the parallel loop over the elements is
    sequential. The sparse solver is external: a solution of the system is any vector that satisfies its equations. *)
From Verif Require Import Common SplineModel GluingModel.
Open Scope R_scope.

(** a quadrature node and its weight *)
Record qnode := mkNode { qt : R; qw : R }.

(** product of a row and a column *)
Definition tdot (a b : R * R * R) : R := let '(a1, a2, a3) := a in let '(b1, b2, b3) := b in a1 * b1 + a2 * b2 + a3 * b3.

(** src/gsC1SurfGluingDataVisitor.h:54-91: the derivatives of the right geometry at (0,t), of the left one at (t,0) *)
Definition DuFR (jacR : R * R -> J3) (t : R) : R * R * R := let J := jacR (0, t) in (Xu J, Yu J, Zu J).
Definition DvFR (jacR : R * R -> J3) (t : R) : R * R * R := let J := jacR (0, t) in (Xv J, Yv J, Zv J).
Definition DvFL (jacL : R * R -> J3) (t : R) : R * R * R := let J := jacL (t, 0) in (Xv J, Yv J, Zv J).

(** src/gsC1SurfGluingDataVisitor.h:98-173: row [r] of basisData at a node; [lam] is the penalty of line 66 *)
Definition basisData (jacR jacL : R * R -> J3) (lam t : R) (r : nat) : R :=
  let LL := tdot (DvFL jacL t) (DvFL jacL t) in
  let RR := tdot (DuFR jacR t) (DuFR jacR t) in
  let VV := tdot (DvFR jacR t) (DvFR jacR t) in
  let LR := tdot (DvFL jacL t) (DuFR jacR t) in
  let VR := tdot (DvFR jacR t) (DuFR jacR t) in
  let LV := tdot (DvFL jacL t) (DvFR jacR t) in
  match r with
  | 0%nat => 2 * (t * t * (LL - lam) - 2 * t * (LL - lam) + 1 * (LL - lam))
  | 1%nat => 2 * t * (1 - t) * (LL - lam)
  | 2%nat => 2 * (t * t * LR - 2 * t * LR + 1 * LR)
  | 3%nat => 2 * t * (1 - t) * LR
  | 4%nat => 2 * (1 * LV - 3 * t * LV + 3 * t * t * LV - t * t * t * LV)
  | 5%nat => 4 * t * (1 - t) * (1 - t) * LV
  | 6%nat => 2 * t * t * (1 - t) * LV
  | 7%nat => 2 * t * (1 - t) * (LL - lam)
  | 8%nat => 2 * t * t * (LL - lam)
  | 9%nat => 2 * t * (1 - t) * LR
  | 10%nat => 2 * t * t * LR
  | 11%nat => 2 * t * (1 - t) * (1 - t) * LV
  | 12%nat => 4 * t * t * (1 - t) * LV
  | 13%nat => 2 * t * t * t * LV
  | 14%nat => 2 * (t * t * LR - 2 * t * LR + 1 * LR)
  | 15%nat => 2 * t * (1 - t) * LR
  | 16%nat => 2 * (t * t * (RR - lam) - 2 * t * (RR - lam) + 1 * (RR - lam))
  | 17%nat => 2 * t * (1 - t) * (RR - lam)
  | 18%nat => 2 * (1 * VR - 3 * t * VR + 3 * t * t * VR - t * t * t * VR)
  | 19%nat => 4 * t * (1 - t) * (1 - t) * VR
  | 20%nat => 2 * t * t * (1 - t) * VR
  | 21%nat => 2 * t * (1 - t) * LR
  | 22%nat => 2 * t * t * LR
  | 23%nat => 2 * t * (1 - t) * (RR - lam)
  | 24%nat => 2 * t * t * (RR - lam)
  | 25%nat => 2 * t * (1 - t) * (1 - t) * VR
  | 26%nat => 4 * t * t * (1 - t) * VR
  | 27%nat => 2 * t * t * t * VR
  | 28%nat => 2 * (1 * LV - 3 * t * LV + 3 * t * t * LV - t * t * t * LV)
  | 29%nat => 2 * t * (1 - t) * (1 - t) * LV
  | 30%nat => 2 * (1 * VR - 3 * t * VR + 3 * t * t * VR - t * t * t * VR)
  | 31%nat => 2 * t * (1 - t) * (1 - t) * VR
  | 32%nat => 2 * (1 * VV - 4 * t * VV + 6 * t * t * VV - 4 * t * t * t * VV + t * t * t * t * VV)
  | 33%nat => 4 * t * (1 - t) * (1 - t) * (1 - t) * VV
  | 34%nat => 2 * t * t * (1 - t) * (1 - t) * VV
  | 35%nat => 4 * t * (1 - t) * (1 - t) * LV
  | 36%nat => 4 * t * t * (1 - t) * LV
  | 37%nat => 4 * t * (1 - t) * (1 - t) * VR
  | 38%nat => 4 * t * t * (1 - t) * VR
  | 39%nat => 4 * t * (1 - t) * (1 - t) * (1 - t) * VV
  | 40%nat => 8 * t * t * (1 - t) * (1 - t) * VV
  | 41%nat => 4 * t * t * t * (1 - t) * VV
  | 42%nat => 2 * t * t * (1 - t) * LV
  | 43%nat => 2 * t * t * t * LV
  | 44%nat => 2 * t * t * (1 - t) * VR
  | 45%nat => 2 * t * t * t * VR
  | 46%nat => 2 * t * t * (1 - t) * (1 - t) * VV
  | 47%nat => 4 * t * t * t * (1 - t) * VV
  | 48%nat => 2 * t * t * t * t * VV
  | _ => 0
  end.

(** src/gsC1SurfGluingDataVisitor.h:178-185 *)
Definition rhsVals (lam t : R) (i : nat) : R :=
  match i with
  | 0%nat => - 2 * (lam - t * lam)
  | 1%nat => - 2 * t * lam
  | 2%nat => - 2 * (lam - t * lam)
  | 3%nat => - 2 * t * lam
  | 4%nat => 0 * 1
  | 5%nat => 0 * 1
  | 6%nat => 0 * 1
  | _ => 0
  end.

(** src/gsC1SurfGluingDataVisitor.h:266-286 assemble, on one element: the matrix and the right-hand side are set to zero
    (lines 188-189) and the nodes are added one after the other *)
Definition localMat (jacR jacL : R * R -> J3) (lam : R) (nodes : list qnode) (i j : nat) : R :=
  fold_left (fun a k => a + qw k * basisData jacR jacL lam (qt k) (i * 7 + j)) nodes 0.
Definition localRhs (lam : R) (nodes : list qnode) (i : nat) : R :=
  fold_left (fun a k => a + qw k * rhsVals lam (qt k) i) nodes 0.

(** src/gsC1SurfGluingData.h:131-204 assemble, apply and src/gsC1SurfGluingDataVisitor.h:312-322 localToGlobal: no degree of
    freedom is eliminated, so that the entries of the elements are added up *)
Definition sysMat (jacR jacL : R * R -> J3) (lam : R) (els : list (list qnode)) (i j : nat) : R :=
  fold_left (fun a e => a + localMat jacR jacL lam e i j) els 0.
Definition sysRhs (lam : R) (els : list (list qnode)) (i : nat) : R :=
  fold_left (fun a e => a + localRhs lam e i) els 0.

(** src/gsC1SurfGluingData.h:50-84 *)
Definition evalAlpha_R (sol : nat -> R) (t : R) : R := sol 0%nat * (1 - t) + sol 1%nat * t.
Definition evalAlpha_L (sol : nat -> R) (t : R) : R := sol 2%nat * (1 - t) + sol 3%nat * t.
Definition evalBeta_R (solBeta : nat -> R) (t : R) : R := solBeta 0%nat * (1 - t) + solBeta 1%nat * t.
Definition evalBeta_L (solBeta : nat -> R) (t : R) : R := solBeta 2%nat * (1 - t) + solBeta 3%nat * t.
Definition evalBeta (sol : nat -> R) (t : R) : R := sol 4%nat * ((1 - t) * (1 - t)) + sol 5%nat * ((1 - t) * t) + sol 6%nat * t.

(** src/gsC1SurfGluingDataVisitor.h:208-210: the data that the second system uses *)
Definition visAlpha_R (sol : nat -> R) (t : R) : R := sol 0%nat * (1 - t) + sol 1%nat * t.
Definition visAlpha_L (sol : nat -> R) (t : R) : R := sol 2%nat * (1 - t) + sol 3%nat * t.
Definition visBeta (sol : nat -> R) (t : R) : R := sol 4%nat * (t * t - 2 * t + 1) + 2 * sol 5%nat * (t * (1 - t)) + sol 6%nat * (t * t).

(** src/gsC1SurfGluingDataVisitor.h:213-250: row [r] of basisDataBeta at a node *)
Definition basisDataBeta (sol : nat -> R) (lam t : R) (r : nat) : R :=
  let aR := visAlpha_R sol t in
  let aL := visAlpha_L sol t in
  let aR2 := aR * aR in
  let aL2 := aL * aL in
  let aRL := aR * aL in
  match r with
  | 0%nat => 2 * (t * t * (aL2 - lam) - 2 * t * (aL2 - lam) + 1 * (aL2 - lam))
  | 1%nat => 2 * t * (1 - t) * (aL2 - lam)
  | 2%nat => 2 * (t * t * aRL - 2 * t * aRL + 1 * aRL)
  | 3%nat => 2 * t * (1 - t) * aRL
  | 4%nat => 2 * t * (1 - t) * (aL2 - lam)
  | 5%nat => 2 * t * t * (aL2 - lam)
  | 6%nat => 2 * t * (1 - t) * aRL
  | 7%nat => 2 * t * t * aRL
  | 8%nat => 2 * (t * t * aRL - 2 * t * aRL + 1 * aRL)
  | 9%nat => 2 * t * (1 - t) * aRL
  | 10%nat => 2 * (t * t * (aR2 - lam) - 2 * t * (aR2 - lam) + 1 * (aR2 - lam))
  | 11%nat => 2 * t * (1 - t) * (aR2 - lam)
  | 12%nat => 2 * t * (1 - t) * aRL
  | 13%nat => 2 * t * t * aRL
  | 14%nat => 2 * t * (1 - t) * (aR2 - lam)
  | 15%nat => 2 * t * t * (aR2 - lam)
  | _ => 0
  end.

(** src/gsC1SurfGluingDataVisitor.h:255-259 *)
Definition rhsValsBeta (sol : nat -> R) (t : R) (i : nat) : R :=
  let aR := visAlpha_R sol t in
  let aL := visAlpha_L sol t in
  let beta := visBeta sol t in
  match i with
  | 0%nat => 2 * beta * (1 - t) * aL
  | 1%nat => 2 * beta * t * aL
  | 2%nat => 2 * beta * (1 - t) * aR
  | 3%nat => 2 * beta * t * aR
  | _ => 0
  end.

(** src/gsC1SurfGluingDataVisitor.h:288-309 assembleBeta, on one element *)
Definition localMatBeta (sol : nat -> R) (lam : R) (nodes : list qnode) (i j : nat) : R :=
  fold_left (fun a k => a + qw k * basisDataBeta sol lam (qt k) (i * 4 + j)) nodes 0.
Definition localRhsBeta (sol : nat -> R) (nodes : list qnode) (i : nat) : R :=
  fold_left (fun a k => a + qw k * rhsValsBeta sol (qt k) i) nodes 0.

(** src/gsC1SurfGluingData.h:144-155, 206-253 assembleBeta, applyBeta *)
Definition sysMatBeta (sol : nat -> R) (lam : R) (els : list (list qnode)) (i j : nat) : R :=
  fold_left (fun a e => a + localMatBeta sol lam e i j) els 0.
Definition sysRhsBeta (sol : nat -> R) (els : list (list qnode)) (i : nat) : R :=
  fold_left (fun a e => a + localRhsBeta sol e i) els 0.

(** src/gsC1SurfGluingData.h:273-293 setGDEdge: the data at a boundary edge *)
Definition edgeSol (i : nat) : R := match i with 0%nat | 1%nat | 2%nat | 3%nat => 1 | _ => 0 end.
Definition edgeSolBeta (i : nat) : R := 0.

(** src/gsC1SurfVisitorBasisEdge.h:44-157 evaluate: the right-hand side at one point for the function [bfID]: [comp] are the
    two components of the basis, [bs] is the plus space for [plus], the minus space otherwise, [uv] is the direction of the
    edge (1 on the right patch). The number in the knot vector is the degree + 2 (line 74); reading a knot or a function
    that does not exist is [Err]. *)
Definition surfEdge (comp : nat -> sbasis) (bs : sbasis) (sol solBeta : nat -> R) (isBoundary plus : bool) (bfID uv : nat) (x : R * R) : res R :=
  let b := comp (1 - uv)%nat in
  let s := row x uv in
  let c := row x (1 - uv) in
  do tau <- vget (sknots b) (sdeg b + 2);
  let alpha := match uv with O => evalAlpha_L sol s | _ => evalAlpha_R sol s end in
  let beta := match uv with O => evalBeta_L solBeta s | _ => evalBeta_R solBeta s end in
  do n0 <- evalSingle b 0 c;
  do n1 <- evalSingle b 1 c;
  do n <- evalSingle bs bfID s;
  if plus then
    do dn <- derivSingle bs bfID s;
    let bt := if isBoundary then 0 else beta in
    Ok (n * (n0 + n1) - bt * n1 * dn * tau / INR (sdeg b))
  else
    let al := if isBoundary then 1 else alpha in
    Ok (match uv with O => - (al * (n * n1)) | _ => al * (n * n1) end).

(** src/gsC1SurfVisitorBasisEdge.h:161-190 assemble, localToGlobal and src/gsC1SurfBasisEdge.h:190-291 refresh, assemble,
    apply: the least squares system for one function. A quadrature node has its weight, the measure of the geometry, the
    values of the free functions (those of the first two rows along the edge; a function that is not active has the value 0)
    and the value of the right-hand side. The eliminated functions have the coefficient 0. *)
Record pnode := mkPNode { pw : R; pmeas : R; pval : nat -> R; prhs : R }.
Definition projMat (els : list (list pnode)) (i j : nat) : R :=
  fold_left (fun a e => a + fold_left (fun a k => a + pval k i * pw k * pmeas k * pval k j) e 0) els 0.
Definition projRhs (els : list (list pnode)) (i : nat) : R :=
  fold_left (fun a e => a + fold_left (fun a k => a + pw k * pmeas k * (pval k i * prhs k)) e 0) els 0.
