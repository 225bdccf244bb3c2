(** What the property C41 says. *)
From Verif Require Import Common SplineModel GluingModel GluingSpec RotModel.
Open Scope R_scope.

Definition orthogonal (M : mat3) : Prop :=
  let '(a, b, c) := M in dot3 a a = 1 /\ dot3 b b = 1 /\ dot3 c c = 1 /\ dot3 a b = 0 /\ dot3 a c = 0 /\ dot3 b c = 0.
(** orthogonal with determinant 1 *)
Definition rotation (M : mat3) : Prop := orthogonal M /\ (let '(a, b, c) := M in det3 a b c = 1).

(** square of the length of the normal's part parallel to the xy-plane, which is the length of the rotation axis used *)
Definition flat2 (n : R * R * R) : R := let '(n0, n1, _) := n in n0 * n0 + n1 * n1.

Definition sub3 (a b : R * R * R) : R * R * R := let '(a0, a1, a2) := a in let '(b0, b1, b2) := b in (a0 - b0, a1 - b1, a2 - b2).
Definition dist2 (a b : R * R * R) : R := dot3 (sub3 a b) (sub3 a b).
