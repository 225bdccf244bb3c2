(** Derivatives from the right and the start of a spline basis. *)
From Verif Require Import Common SplineModel.
Open Scope R_scope.

(** [d] is the derivative of [f] at [x] from the right *)
Definition rderiv (f : R -> R) (x d : R) : Prop :=
  forall eps, 0 < eps -> exists del, 0 < del /\ forall h, 0 < h < del -> Rabs ((f (x + h) - f x) / h - d) < eps.

(** The knots ascend and start with [sdeg + 1] zeros, followed by a positive knot; there are at least [n] functions. *)
Definition open_basis (b : sbasis) (n : nat) : Prop :=
  (n + sdeg b + 1 <= length (sknots b))%nat /\
  (forall i j x y, (i <= j)%nat -> nth_error (sknots b) i = Some x -> nth_error (sknots b) j = Some y -> x <= y) /\
  (forall i, (i <= sdeg b)%nat -> nth_error (sknots b) i = Some 0) /\
  (exists x, nth_error (sknots b) (sdeg b + 1) = Some x /\ 0 < x).
