(** Model of the functions at an edge in the approximate C1 construction (src/gsApproxC1Utils.h): the gluing data gsAlpha and
    gsBeta of a geometry, and gsTraceBasis and gsNormalDerivBasis.

    Simplifications: real arithmetic is exact; evaluation is at one point instead of many; the derivatives of the geometry
    at a point are given by a function; the B-splines of the gluing data are arbitrary functions. *)
From Verif Require Import Common SplineModel.
Open Scope R_scope.

(** coordinate of a point *)
Definition row (x : R * R) (i : nat) : R := match i with O => fst x | _ => snd x end.

(** derivatives of a planar geometry, and of a surface *)
Record J2 := mkJ2 { xu : R; xv : R; yu : R; yv : R }.
Record J3 := mkJ3 { Xu : R; Xv : R; Yu : R; Yv : R; Zu : R; Zv : R }.

(** src/gsApproxC1Utils.h:86-88, 195-196: the point of the edge: zero but for coordinate [m] *)
Definition edgePoint (m : nat) (s : R) : R * R := match m with O => (s, 0) | _ => (0, s) end.

(** src/gsApproxC1Utils.h:84-97 gsAlpha, planar *)
Definition alphaPlanar (jac : R * R -> J2) (m : nat) (s : R) : R :=
  let ev := jac (edgePoint m s) in 1 * (xu ev * yv ev - xv ev * yu ev).

(** src/gsApproxC1Utils.h:191-208 gsBeta, planar *)
Definition betaPlanar (jac : R * R -> J2) (m : nat) (s : R) : R :=
  let ev := jac (edgePoint m s) in
  let D1 := 1 / match m with O => sqrt (xu ev * xu ev + yu ev * yu ev) | _ => sqrt (xv ev * xv ev + yv ev * yv ev) end in
  - 1 * D1 * D1 * (xv ev * xu ev + yv ev * yu ev).

(** src/gsApproxC1Utils.h:98-140 gsAlpha, surface. The three columns of D0 are the derivatives in the two directions and N. *)
Definition det3 (a b c : R * R * R) : R :=
  let '(a1, a2, a3) := a in let '(b1, b2, b3) := b in let '(c1, c2, c3) := c in
  a1 * (b2 * c3 - b3 * c2) - b1 * (a2 * c3 - a3 * c2) + c1 * (a2 * b3 - a3 * b2).
Definition norm3 (a : R * R * R) : R := let '(a1, a2, a3) := a in sqrt (a1 * a1 + a2 * a2 + a3 * a3).
Definition normalN (ev : J3) : R * R * R :=
  (Yu ev * Zv ev - Zu ev * Yv ev, Zu ev * Xv ev - Xu ev * Zv ev, Xu ev * Yv ev - Yu ev * Xv ev).
Definition alphaSurface (jac : R * R -> J3) (m : nat) (s : R) : R :=
  let ev := jac (edgePoint m s) in
  let Duv := match m with O => (Xu ev, Yu ev, Zu ev) | _ => (Xv ev, Yv ev, Zv ev) end in
  let D0 := match m with
            | O => det3 Duv (Xv ev, Yv ev, Zv ev) (normalN ev)
            | _ => det3 (Xu ev, Yu ev, Zu ev) Duv (normalN ev)
            end in
  1 / norm3 Duv * sqrt D0.

(** src/gsApproxC1Utils.h:209-227 gsBeta, surface *)
Definition betaSurface (jac : R * R -> J3) (m : nat) (s : R) : R :=
  let ev := jac (edgePoint m s) in
  let D1 := 1 / norm3 (match m with O => (Xu ev, Yu ev, Zu ev) | _ => (Xv ev, Yv ev, Zv ev) end) in
  - 1 * D1 * D1 * (Xv ev * Xu ev + Yv ev * Yu ev + Zv ev * Zu ev).

(** src/gsApproxC1Utils.h:292-318 gsTraceBasis::eval_into. [comp] are the two components of the basis, [bp] is the plus space.
    Reading a knot or a function that does not exist is [Err]. *)
Definition traceEval (comp : nat -> sbasis) (bp : sbasis) (beta : R -> R) (boundary : bool) (bfID m : nat) (x : R * R) : res R :=
  let b := comp (1 - m)%nat in
  do tau <- vget (sknots b) (sdeg b + 1);
  let bt := if boundary then 0 else beta (row x m) in
  do n0 <- evalSingle b 0 (row x (1 - m));
  do n1 <- evalSingle b 1 (row x (1 - m));
  do n <- evalSingle bp bfID (row x m);
  do dn <- derivSingle bp bfID (row x m);
  Ok (n * (n0 + n1) - bt * dn * n1 * tau / INR (sdeg b)).

(** src/gsApproxC1Utils.h:380-406 gsNormalDerivBasis::eval_into; [bm] is the minus space *)
Definition normalEval (comp : nat -> sbasis) (bm : sbasis) (alpha : R -> R) (boundary : bool) (bfID m : nat) (x : R * R) : res R :=
  let b := comp (1 - m)%nat in
  do tau <- vget (sknots b) (sdeg b + 1);
  let al := if boundary then 1 else alpha (row x m) in
  do n1 <- evalSingle b 1 (row x (1 - m));
  do n <- evalSingle bm bfID (row x m);
  let sign := match m with O => - (1) | _ => 1 end in
  if boundary then Ok (sign * (al * (n * n1)))
  else Ok (sign * (al * (n * n1)) * tau / INR (sdeg b)).
