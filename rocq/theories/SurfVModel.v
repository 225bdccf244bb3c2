(** Model of the functions at a vertex in the C1 construction on surfaces: the evaluation in
    src/gsC1SurfVisitorBasisVertex.h:53-422 and the matrix Phi in src/gsC1SurfVertex.h:595-693.

    Simplifications: as in VfunModel.v, whose functions [evalC], [firstPhi], [secondPhi], [d11], [d12], [d22] stand for the same
    expressions (lines 81-152 and 230-247, 284-385 here); the matrix of gluing data is a function of row and column; the
    projection of the functions to the spline space is part of SurfGDModel.v. *)
From Verif Require Import Common SplineModel GluingModel VfunModel.
Open Scope R_scope.

(** src/gsC1SurfVisitorBasisVertex.h:203-218: alpha and beta in direction [i] at [x], at 0, and their derivatives *)
Definition vAlpha (gd : nat -> nat -> R) (i : nat) (x : R) : R := gd 0%nat i * (1 - x) + gd 1%nat i * x.
Definition vAlpha0 (gd : nat -> nat -> R) (i : nat) : R := gd 0%nat i * (1 - 0) + gd 1%nat i * 0.
Definition vAlphaD (gd : nat -> nat -> R) (i : nat) : R := (gd 1%nat i - gd 0%nat i) * 1.
Definition vBeta (gd : nat -> nat -> R) (i : nat) (x : R) : R := gd 2%nat i * (1 - x) + gd 3%nat i * x.
Definition vBeta0 (gd : nat -> nat -> R) (i : nat) : R := gd 2%nat i * (1 - 0) + gd 3%nat i * 0.
Definition vBetaD (gd : nat -> nat -> R) (i : nat) : R := (gd 3%nat i - gd 2%nat i) * 1.

(** src/gsC1SurfVisitorBasisVertex.h:223-227, 252-259 *)
Definition vMinus (gd : nat -> nat -> R) (G : vgeo) (r : nat) : R :=
  - (1) / vAlpha0 gd 0 * (gjac G r 1 + vBeta0 gd 0 * gjac G r 0).
Definition vPlus (gd : nat -> nat -> R) (G : vgeo) (r : nat) : R :=
  1 / vAlpha0 gd 1 * (gjac G r 0 + vBeta0 gd 1 * gjac G r 1).
Definition vMinusD (gd : nat -> nat -> R) (G : vgeo) (r : nat) : R :=
  - (1) / (vAlpha0 gd 0 * vAlpha0 gd 0) *
  ((d12 G r + (vBetaD gd 0 * gjac G r 0 + vBeta0 gd 0 * d11 G r)) * vAlpha0 gd 0 - (gjac G r 1 + vBeta0 gd 0 * gjac G r 0) * vAlphaD gd 0).
Definition vPlusD (gd : nat -> nat -> R) (G : vgeo) (r : nat) : R :=
  1 / (vAlpha0 gd 1 * vAlpha0 gd 1) *
  ((d12 G r + (vBetaD gd 1 * gjac G r 1 + vBeta0 gd 1 * d22 G r)) * vAlpha0 gd 1 - (gjac G r 0 + vBeta0 gd 1 * gjac G r 1) * vAlphaD gd 1).

(** src/gsC1SurfVisitorBasisVertex.h:53-422 evaluate: rhsVals of function [b] at the point [x]; isBoundary is not used *)
Definition surfVertex (surface : bool) (comp plus minus : nat -> sbasis) (gd : nat -> nat -> R) (G : vgeo) (Phi : nat -> nat -> R)
    (b : nat) (x : R * R) : res R :=
  do U <- evalC (comp 0%nat) (plus 0%nat) (minus 0%nat) (row x 0);
  do V <- evalC (comp 1%nat) (plus 1%nat) (minus 1%nat) (row x 1);
  let j0 := fun r => gjac G r 0 in
  let j1 := fun r => gjac G r 1 in
  (* d_ik, lines 267-299 *)
  let e0 := Phi 0%nat b in
  let e1 := firstPhi surface Phi b j0 in
  let e2 := firstPhi surface Phi b j1 in
  let e3 := secondPhi surface Phi b j0 j1 (d12 G) in
  (* d_ilik_minus, lines 305-343 *)
  let m0 := Phi 0%nat b in
  let m1 := firstPhi surface Phi b j0 in
  let m2 := secondPhi surface Phi b j0 j0 (d11 G) in
  let m3 := firstPhi surface Phi b (vMinus gd G) in
  let m4 := secondPhi surface Phi b j0 (vMinus gd G) (vMinusD gd G) in
  (* d_ilik_plus, lines 347-385 *)
  let p0 := Phi 0%nat b in
  let p1 := firstPhi surface Phi b j1 in
  let p2 := secondPhi surface Phi b j1 j1 (d22 G) in
  let p3 := firstPhi surface Phi b (vPlus gd G) in
  let p4 := secondPhi surface Phi b j1 (vPlus gd G) (vPlusD gd G) in
  let alpha0 := vAlpha gd 0 (row x 0) in
  let alpha1 := vAlpha gd 1 (row x 1) in
  let beta0 := vBeta gd 0 (row x 0) in
  let beta1 := vBeta gd 1 (row x 1) in
  (* lines 388-409 *)
  Ok (m0 * (cp_0 U * c_0 V - beta0 * (dp_0 U * c_1 V)) +
      m1 * (cp_1 U * c_0 V - beta0 * (dp_1 U * c_1 V)) +
      m2 * (cp_2 U * c_0 V - beta0 * (dp_2 U * c_1 V)) -
      m3 * (alpha0 * (cm_0 U * c_1 V)) -
      m4 * (alpha0 * (cm_1 U * c_1 V)) +
      (p0 * (cp_0 V * c_0 U - beta1 * (dp_0 V * c_1 U)) +
       p1 * (cp_1 V * c_0 U - beta1 * (dp_1 V * c_1 U)) +
       p2 * (cp_2 V * c_0 U - beta1 * (dp_2 V * c_1 U)) +
       p3 * (alpha1 * (cm_0 V * c_1 U)) +
       p4 * (alpha1 * (cm_1 V * c_1 U))) -
      (e0 * (c_0 U * c_0 V) + e2 * (c_0 U * c_1 V) + e1 * (c_1 U * c_0 V) + e3 * (c_1 U * c_1 V))).

(** src/gsC1SurfVertex.h:595-602 and 685-693 *)
Definition surfPhi (surface : bool) (sigma : R) (i j : nat) : R :=
  if surface then
    match i, j with
    | 0%nat, 0%nat => 1
    | 1%nat, 1%nat => sigma
    | 2%nat, 2%nat => sigma
    | 4%nat, 3%nat => sigma * sigma
    | 5%nat, 4%nat => sigma * sigma
    | 7%nat, 4%nat => sigma * sigma
    | 8%nat, 5%nat => sigma * sigma
    | _, _ => 0
    end
  else (if (i =? j)%nat then 1 else 0) * match j with 0%nat => 1 | 1%nat => sigma | 2%nat => sigma | _ => sigma * sigma end.
