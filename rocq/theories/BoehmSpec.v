(** Coupling functions of two patches across an interface, and smoothness of the result. *)
From Verif Require Import Common SplineModel.
Open Scope R_scope.

(** continuously differentiable [n] times on an open interval *)
Fixpoint Cn (n : nat) (lo hi : R) (f : R -> R) : Prop :=
  match n with
  | O => forall y, lo < y < hi -> continuity_pt f y
  | S m => exists f', (forall y, lo < y < hi -> derivable_pt_lim f y (f' y)) /\ Cn m lo hi f'
  end.

(** A knot vector over [a,b] whose end knots have multiplicity degree + 1. *)
Definition ascending (l : list R) : Prop := forall i j, (i <= j < length l)%nat -> nth i l 0 <= nth j l 0.
Definition clamped (kv : sbasis) (a b : R) (inner : list R) : Prop :=
  sknots kv = repeat a (sdeg kv + 1) ++ inner ++ repeat b (sdeg kv + 1) /\ a < b /\ ascending inner /\ forall v, In v inner -> a < v < b.

(** number of functions; the function in [d]-th position from the side with parameter [par] *)
Definition functions (kv : sbasis) : nat := (length (sknots kv) - sdeg kv - 1)%nat.
Definition nearSide (kv : sbasis) (par : bool) (d : nat) : nat := if par then (functions kv - 1 - d)%nat else d.
(** the parameter at distance [r] from that side, when the patch has length [w] per unit of its parameter *)
Definition paramAt (a b : R) (par : bool) (w r : R) : R := if par then b - r / w else a + r / w.

Fixpoint rsum (n : nat) (f : nat -> R) : R := match n with O => 0 | S m => rsum m f + f m end.

(** The coupled function seen along a line that crosses the interface: number [s] of the weights belongs to the function of the
    first patch in position [k - s] from the interface for [s <= k], to the function of the second patch in position
    [s - k - 1] otherwise. [r] is the distance from the interface. *)
Definition firstHalf (kv : sbasis) (a b : R) (par : bool) (w : R) (k : nat) (ws : list R) (r : R) : R :=
  rsum (k + 1) (fun s => nth s ws 0 * bspl (tknot kv) (sdeg kv) (nearSide kv par (k - s)) (paramAt a b par w r)).
Definition secondHalf (kv : sbasis) (a b : R) (par : bool) (w : R) (k : nat) (ws : list R) (r : R) : R :=
  rsum (length ws - k - 1) (fun e => nth (k + 1 + e) ws 0 * bspl (tknot kv) (sdeg kv) (nearSide kv par e) (paramAt a b par w r)).

(** [f] describes the coupled function on both sides of the interface, except in knots: the first patch for negative arguments,
    the second for positive ones. *)
Definition joins (f g h : R -> R) (noknot0 noknot1 : R -> Prop) : Prop :=
  (forall y, 0 < y -> noknot0 y -> h (- y) = f y) /\ (forall y, 0 < y -> noknot1 y -> h y = g y).
Definition noKnotAt (kv : sbasis) (a b : R) (par : bool) (w : R) (r : R) : Prop := ~ In (paramAt a b par w r) (sknots kv).
(** no knot of the patch has a distance from the side strictly between 0 and [d] *)
Definition clearUpTo (kv : sbasis) (a b : R) (par : bool) (w d : R) : Prop := forall r, 0 < r < d -> noKnotAt kv a b par w r.
