(** Vocabulary of property C81. *)
From Coq Require Import Reals.
From Verif Require Import Common SurfGDSpec KernModel KernSpec.
Open Scope nat_scope.

(** The combination with the factors x has zero coefficients at the grid points in S. *)
Definition zero_on (p : vpatch) (x : nat -> R) (S : nat -> nat -> Prop) : Prop := forall u v, u < vdu p -> v < vdv p -> S u v -> comb p x (u + v * vdu p) = 0%R.

(** The kernel of the matrix consists of these combinations. *)
Definition kernel_is (M : kmat) (p : vpatch) (S : nat -> nat -> Prop) : Prop := forall x, in_kernel M x <-> zero_on p x S.

(** v is a combination of the columns. *)
Definition combination (K : list (nat -> R)) (v : nat -> R) : Prop := exists c, forall i, i < 6 -> v i = sumTo (length K) (fun j => (c j * column_at K j i)%R).

(** The columns are a basis of the kernel of the matrix. *)
Definition kernel_basis (M : kmat) (K : list (nat -> R)) : Prop := ~ dependent K /\ forall v, in_kernel M v <-> combination K v.

(** No entry lies strictly between 0 and the threshold. *)
Definition clean (eps : R) (K : list (nat -> R)) : Prop := forall c i, In c K -> i < 6 -> c i = 0%R \/ (eps <= Rabs (c i))%R.
