(** What the property C40 says. *)
From Verif Require Import Common SplineModel SplineSpec GluingModel.
Open Scope R_scope.

(** the point with parameter [s] along an edge and distance [c] from it; the edge runs in direction [m] *)
Definition near_edge (m : nat) (s c : R) : R * R := match m with O => (s, c) | _ => (c, s) end.

(** At parameter [s] of the edge, [f] has the value [v], the derivative [a] along the edge and the derivative [d] across it. *)
Definition edge_jet (f : R * R -> res R) (m : nat) (s v a d : R) : Prop :=
  exists g h, (forall s, f (near_edge m s 0) = Ok (g s)) /\ (forall c, f (near_edge m s c) = Ok (h c)) /\
    g s = v /\ rderiv g s a /\ rderiv h 0 d.

(** ** Gradients in the physical domain *)
(** [g] is the gradient of a function whose parameter derivatives along and across the edge are [a] and [d] *)
Definition gradient2 (J : J2) (m : nat) (a d : R) (g : R * R) : Prop :=
  match m with
  | O => fst g * xu J + snd g * yu J = a /\ fst g * xv J + snd g * yv J = d
  | _ => fst g * xv J + snd g * yv J = a /\ fst g * xu J + snd g * yu J = d
  end.
Definition dot3 (a b : R * R * R) : R := let '(a1, a2, a3) := a in let '(b1, b2, b3) := b in a1 * b1 + a2 * b2 + a3 * b3.
Definition Fu (J : J3) : R * R * R := (Xu J, Yu J, Zu J).
Definition Fv (J : J3) : R * R * R := (Xv J, Yv J, Zv J).
(** on a surface the gradient lies in the tangent plane *)
Definition gradient3 (J : J3) (m : nat) (a d : R) (g : R * R * R) : Prop :=
  match m with
  | O => dot3 g (Fu J) = a /\ dot3 g (Fv J) = d
  | _ => dot3 g (Fv J) = a /\ dot3 g (Fu J) = d
  end /\ forall n, dot3 n (Fu J) = 0 -> dot3 n (Fv J) = 0 -> dot3 g n = 0.

(** at parameter [s] of the edge, [f] has the value [v] and the gradient [g] *)
Definition smooth2 (jac : R * R -> J2) (m : nat) (f : R * R -> res R) (s v : R) (g : R * R) : Prop :=
  exists a d, edge_jet f m s v a d /\ gradient2 (jac (near_edge m s 0)) m a d g.
Definition smooth3 (jac : R * R -> J3) (m : nat) (f : R * R -> res R) (s v : R) (g : R * R * R) : Prop :=
  exists a d, edge_jet f m s v a d /\ gradient3 (jac (near_edge m s 0)) m a d g.

(** the tangent of the edge *)
Definition tangent2 (J : J2) (m : nat) : R * R := match m with O => (xu J, yu J) | _ => (xv J, yv J) end.
Definition tangent3 (J : J3) (m : nat) : R * R * R := match m with O => Fu J | _ => Fv J end.
(** the unit normal of a surface *)
Definition unit_normal (J : J3) (n : R * R * R) : Prop :=
  dot3 n (Fu J) = 0 /\ dot3 n (Fv J) = 0 /\ dot3 n n = 1 /\ 0 < det3 (Fu J) (Fv J) n.
