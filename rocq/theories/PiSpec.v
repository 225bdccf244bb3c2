(** Vocabulary for square matrices of real numbers. *)
From Coq Require Import Reals.
Open Scope R_scope.

Fixpoint rsum (n : nat) (f : nat -> R) : R :=
  match n with O => 0 | S k => rsum k f + f k end.

Definition rows_sum_to_one (n : nat) (M : nat -> nat -> R) : Prop :=
  forall r, (r < n)%nat -> rsum n (M r) = 1.
Definition nonnegative (n : nat) (M : nat -> nat -> R) : Prop :=
  forall r c, (r < n)%nat -> (c < n)%nat -> 0 <= M r c.
Definition idempotent (n : nat) (M : nat -> nat -> R) : Prop :=
  forall r c, (r < n)%nat -> (c < n)%nat -> rsum n (fun s => M r s * M s c) = M r c.
Definition symmetric (n : nat) (M : nat -> nat -> R) : Prop :=
  forall r c, (r < n)%nat -> (c < n)%nat -> M r c = M c r.
Definition trace (n : nat) (M : nat -> nat -> R) : R := rsum n (fun r => M r r).
Definition papply (n : nat) (M : nat -> nat -> R) (x : nat -> R) (r : nat) : R := rsum n (fun c => M r c * x c).
