(** What the property C62 says: spline spaces as spaces of piecewise polynomials. *)
From Coq Require Import Reals Qreals Sorted.
From Verif Require Import Common C1Model.
Open Scope R_scope.

(** multiplicity of the inner knot [x], 0 if there is none *)
Fixpoint mult (l : list (Q * nat)) (x : Q) : nat :=
  match l with [] => 0%nat | (y, m) :: r => if Qeq_bool y x then m else mult r x end.
(** ascending knots, each at least once *)
Definition knots_ok (l : list (Q * nat)) : Prop := StronglySorted (fun a b => (fst a < fst b)%Q) l /\ Forall (fun xm => (0 < snd xm)%nat) l.

(** ** Piecewise polynomials *)
(** a polynomial is given by its coefficients *)
Fixpoint peval (a : list R) (t : R) : R := match a with [] => 0 | c :: r => c + t * peval r t end.
(** the difference of [a] and [b] has a zero of order [n] at [x] *)
Definition agree (n : nat) (x : Q) (a b : list R) : Prop := exists q, forall t, peval a t - peval b t = (t - Q2R x) ^ n * peval q t.
(** A piecewise polynomial: [s x] is the piece to the right of [x]. It is a spline of degree [p] with the inner knots [l] if the pieces
    have degree at most [p] and two pieces with nothing but the knot [x] between them agree up to the derivative of order
    [p - mult x] at [x]; without a knot they are equal. *)
Definition in_space (p : nat) (l : list (Q * nat)) (s : Q -> list R) : Prop :=
  (forall x, exists a, (length a <= p + 1)%nat /\ forall t, peval (s x) t = peval a t) /\
  (forall y x, (y < x)%Q -> (forall z, (y < z)%Q -> (z < x)%Q -> mult l z = 0%nat) -> agree (p + 1 - mult l x) x (s y) (s x)).
Definition space_of (k : kvec) (s : Q -> list R) : Prop := in_space (kvdeg k) (kvin k) s.

(** [s] is the product of [a] and [b]; the derivative of [a] *)
Definition product (a b s : Q -> list R) : Prop := forall x t, peval (s x) t = peval (a x) t * peval (b x) t.
Definition derivative (a s : Q -> list R) : Prop := forall x t, derivable_pt_lim (peval (a x)) t (peval (s x) t).

(** ** External: multiplicities reduced by [n] *)
Definition reduces (redn : nat -> nat -> nat) : Prop := forall n m, (n < m)%nat -> redn n m = (m - n)%nat.
(** no inner knot has a smaller multiplicity than the first one *)
Definition first_least (k : kvec) : Prop := match kvin k with [] => True | (_, m) :: l => Forall (fun xm => (m <= snd xm)%nat) l end.
