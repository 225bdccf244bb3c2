(** What the properties C57 and C58 say. *)
From Verif Require Import Common SplineModel SplineSpec GluingModel GluingSpec SurfGDModel.
Open Scope R_scope.

(** ** Least squares *)
Fixpoint total {A} (f : A -> R) (l : list A) : R := match l with [] => 0 | x :: r => f x + total f r end.
Fixpoint sumTo (n : nat) (f : nat -> R) : R := match n with O => 0 | S m => sumTo m f + f m end.
(** [c] satisfies the [n] equations *)
Definition solves (n : nat) (M : nat -> nat -> R) (b c : nat -> R) : Prop :=
  forall i, (i < n)%nat -> sumTo n (fun j => M i j * c j) = b i.

Definition plus_vec (c d : nat -> R) (i : nat) : R := c i + d i.

(** linear and quadratic Bernstein polynomials *)
Definition lin (a b t : R) : R := (1 - t) * a + t * b.
Definition quadr (a b c t : R) : R := (1 - t) * (1 - t) * a + 2 * t * (1 - t) * b + t * t * c.
(** the gluing data with the seven coefficients [c] *)
Definition aR (c : nat -> R) (t : R) : R := lin (c 0%nat) (c 1%nat) t.
Definition aL (c : nat -> R) (t : R) : R := lin (c 2%nat) (c 3%nat) t.
Definition bt (c : nat -> R) (t : R) : R := quadr (c 4%nat) (c 5%nat) (c 6%nat) t.

Definition comb3 (x : R) (a : R * R * R) (y : R) (b : R * R * R) (z : R) (c : R * R * R) : R * R * R :=
  let '(a1, a2, a3) := a in let '(b1, b2, b3) := b in let '(c1, c2, c3) := c in
  (x * a1 + y * b1 + z * c1, x * a2 + y * b2 + z * c2, x * a3 + y * b3 + z * c3).
(** The left side of the gluing condition aR DvFL + aL DuFR + beta DvFR = 0 at the point [t] of the interface, which is the
    west edge of the right patch and the south edge of the left one. *)
Definition defect (jacR jacL : R * R -> J3) (c : nat -> R) (t : R) : R * R * R :=
  comb3 (aR c t) (Fv (jacL (t, 0))) (aL c t) (Fu (jacR (0, t))) (bt c t) (Fv (jacR (0, t))).

(** the functional: squared defect minus penalty *)
Definition cost (jacR jacL : R * R -> J3) (lam : R) (nodes : list qnode) (c : nat -> R) : R :=
  total (fun k => qw k * (dot3 (defect jacR jacL c (qt k)) (defect jacR jacL c (qt k))
                          - lam * ((aR c (qt k) - 1) * (aR c (qt k) - 1) + (aL c (qt k) - 1) * (aL c (qt k) - 1)))) nodes.
(** its part of second order *)
Definition curvature (jacR jacL : R * R -> J3) (lam : R) (nodes : list qnode) (d : nat -> R) : R :=
  total (fun k => qw k * (dot3 (defect jacR jacL d (qt k)) (defect jacR jacL d (qt k))
                          - lam * (aR d (qt k) * aR d (qt k) + aL d (qt k) * aL d (qt k)))) nodes.

(** the two parts of beta with the four coefficients [c] *)
Definition bR (c : nat -> R) (t : R) : R := lin (c 0%nat) (c 1%nat) t.
Definition bL (c : nat -> R) (t : R) : R := lin (c 2%nat) (c 3%nat) t.
(** how far aL bR + aR bL is from beta *)
Definition split_defect (g c : nat -> R) (t : R) : R := aL g t * bR c t + aR g t * bL c t - bt g t.
Definition split_cost (g : nat -> R) (lam : R) (nodes : list qnode) (c : nat -> R) : R :=
  total (fun k => qw k * (split_defect g c (qt k) * split_defect g c (qt k) - lam * (bR c (qt k) * bR c (qt k) + bL c (qt k) * bL c (qt k)))) nodes.
Definition split_curvature (g : nat -> R) (lam : R) (nodes : list qnode) (d : nat -> R) : R :=
  total (fun k => qw k * ((aL g (qt k) * bR d (qt k) + aR g (qt k) * bL d (qt k)) * (aL g (qt k) * bR d (qt k) + aR g (qt k) * bL d (qt k))
                          - lam * (bR d (qt k) * bR d (qt k) + bL d (qt k) * bL d (qt k)))) nodes.

(** positive weights and at least two different nodes *)
Definition good_rule (nodes : list qnode) : Prop :=
  (forall k, In k nodes -> 0 < qw k) /\ exists k l, In k nodes /\ In l nodes /\ qt k <> qt l.

(** ** Functions at the interface *)
(** the first inner knot is at least double *)
Definition double_start (b : sbasis) : Prop :=
  exists x, nth_error (sknots b) (sdeg b + 1) = Some x /\ nth_error (sknots b) (sdeg b + 2) = Some x.
(** slope of the second function at the edge *)
Definition slope (b : sbasis) : R := INR (sdeg b) / tknot b (sdeg b + 1).
(** two vectors span a plane *)
Definition independent (a b : R * R * R) : Prop := dot3 a a * dot3 b b - dot3 a b * dot3 a b <> 0.
