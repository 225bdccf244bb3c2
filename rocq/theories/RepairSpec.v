(** What the property C38 says. *)
From Verif Require Import Common TopoModel TopoSpec VertexModel VertexSpec.

(** Side [s] of patch [p] is joined to side [s'] of patch [q], reversed when [fl]. *)
Definition joined_sides (t : topo) (p : nat) (s : side) (q : nat) (s' : side) (fl : bool) : Prop :=
  exists f, In f (tif t) /\ ifflip f = fl /\ ((if1 f = (p, s) /\ if2 f = (q, s')) \/ (if2 f = (p, s) /\ if1 f = (q, s'))).
(** direction of the knots along a side *)
Definition along (s : side) : nat := 1 - side_dir s.

(** Open knot vectors with simple interior knots on [0, L p dir] of degree [D p dir]; lengths and degrees agree along the interfaces. *)
Definition shaped (t : topo) (L : nat -> nat -> Z) (D : nat -> nat -> nat) (B : list vbase) : Prop :=
  length B = tnp t /\
  (forall p b, nth_error B p = Some b -> forall dir, dir < 2 -> degree b dir = D p dir /\ exists mid, simple_open (D p dir) (L p dir) mid (knots b dir)) /\
  (forall p s q s' fl, joined_sides t p s q s' fl -> L p (along s) = L q (along s') /\ D p (along s) = D q (along s')).

(** [x] is a knot of patch [p] in direction [dir] *)
Definition has_knot (B : list vbase) (p dir : nat) (x : Z) : Prop := exists b, nth_error B p = Some b /\ In x (knots b dir).

(** Knots that must be present: the given ones, and what is carried over interfaces. *)
Inductive carried (t : topo) (L : nat -> nat -> Z) (B : list vbase) : nat -> nat -> Z -> Prop :=
| car_own p dir x : has_knot B p dir x -> carried t L B p dir x
| car_step p s q s' fl x : joined_sides t p s q s' fl -> carried t L B p (along s) x ->
    carried t L B q (along s') (if fl then L p (along s) - x else x)%Z.

(** interfaces that do not touch patch [p] *)
Definition away_from (p : nat) (f : iface) : Prop := fst (if1 f) <> p /\ fst (if2 f) <> p.
