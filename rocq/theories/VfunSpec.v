(** What the property C54 says. *)
From Verif Require Import Common SplineModel SplineSpec GluingModel GluingSpec VfunModel.
Open Scope R_scope.

(** value, first and second derivatives of a function of the plane at a point *)
Record jet2 := mkJ { jv : R; jx : R; jy : R; jxx : R; jxy : R; jyy : R }.
(** the function [b] of 1, sigma x, sigma y, sigma^2 x^2 / 2, sigma^2 x y, sigma^2 y^2 / 2 at the origin *)
Definition monomial (sigma : R) (b : nat) : jet2 :=
  match b with
  | 0%nat => mkJ 1 0 0 0 0 0
  | 1%nat => mkJ 0 sigma 0 0 0 0
  | 2%nat => mkJ 0 0 sigma 0 0 0
  | 3%nat => mkJ 0 0 0 (sigma * sigma) 0 0
  | 4%nat => mkJ 0 0 0 0 (sigma * sigma) 0
  | _ => mkJ 0 0 0 0 0 (sigma * sigma)
  end.

(** derivatives of a composition with a geometry, whose first derivatives are [p], [w] and whose second derivative is [e] *)
Definition along1 (J : jet2) (w : nat -> R) : R := jx J * w 0%nat + jy J * w 1%nat.
Definition along2 (J : jet2) (p w e : nat -> R) : R :=
  jxx J * p 0%nat * w 0%nat + jxy J * (p 0%nat * w 1%nat + p 1%nat * w 0%nat) + jyy J * p 1%nat * w 1%nat + along1 J e.

(** [f] is a combination of the first [n + 1] functions of the basis *)
Definition first_functions (b : sbasis) (n : nat) (f : R -> R) : Prop :=
  exists (l : nat -> R) (N : nat -> R -> R), (forall k s, (k <= n)%nat -> evalSingle b k s = Ok (N k s)) /\
    forall s, f s = sum_f_R0 (fun k => l k * N k s) n.

(** [f] has the given value and derivatives at the corner of the parameter domain; the mixed derivative is the derivative of
    the cross derivative along either edge *)
Definition corner_jet (f : R * R -> res R) (v fu fv fuu fuv fvv : R) : Prop :=
  exists v0 a0 d0 v1 a1 d1,
    (forall s, edge_jet f 0 s (v0 s) (a0 s) (d0 s)) /\ (forall s, edge_jet f 1 s (v1 s) (a1 s) (d1 s)) /\
    v0 0 = v /\ a0 0 = fu /\ d0 0 = fv /\ rderiv a0 0 fuu /\ rderiv d0 0 fuv /\
    v1 0 = v /\ a1 0 = fv /\ d1 0 = fu /\ rderiv a1 0 fvv /\ rderiv d1 0 fuv.

(** ** The hypotheses *)
(** the data at the two edges: gluing data with [kind], otherwise 1 and 0 *)
Definition edge_alpha (glue : nat -> gdata) (kind : nat -> bool) (m : nat) (s : R) : R := if kind m then galpha (glue m) s else 1.
Definition edge_beta (glue : nat -> gdata) (kind : nat -> bool) (m : nat) (s : R) : R := if kind m then gbeta (glue m) s else 0.

Definition good_bases (comp plus minus : nat -> sbasis) : Prop :=
  forall i, (i < 2)%nat -> open_basis (comp i) 2 /\ (1 <= sdeg (comp i))%nat /\ open_basis (plus i) 3 /\ (2 <= sdeg (plus i))%nat /\
    open_basis (minus i) 2 /\ (1 <= sdeg (minus i))%nat.
Definition good_glue (glue : nat -> gdata) (kind : nat -> bool) : Prop :=
  forall i, (i < 2)%nat -> kind i = true -> galpha (glue i) 0 <> 0 /\
    rderiv (galpha (glue i)) 0 (galpha' (glue i) 0) /\ rderiv (gbeta (glue i)) 0 (gbeta' (glue i) 0).

(** derivatives of the geometry at the vertex, along and across edge [m] *)
Definition tangent (G : vgeo) (m r : nat) : R := gjac G r m.
Definition across (G : vgeo) (m r : nat) : R := gjac G r (1 - m).
Definition tangent' (G : vgeo) (m r : nat) : R := gder2 G (3 * r + m).
Definition across' (G : vgeo) (r : nat) : R := gder2 G (3 * r + 2).

(** the sign of the normal derivative functions *)
Definition sign (m : nat) : R := match m with O => - (1) | _ => 1 end.

(** [dd] is the transversal vector at the vertex: the derivative across the edge is [- beta] times the tangent plus
    [sign * alpha] times it; [dd'] is its derivative along the edge *)
Definition transversal (glue : nat -> gdata) (kind : nat -> bool) (G : vgeo) (m : nat) (dd dd' : nat -> R) : Prop :=
  forall a b, rderiv (edge_alpha glue kind m) 0 a -> rderiv (edge_beta glue kind m) 0 b -> forall r, (r < 2)%nat ->
    across G m r = - edge_beta glue kind m 0 * tangent G m r + sign m * edge_alpha glue kind m 0 * dd r /\
    across' G r = - (b * tangent G m r + edge_beta glue kind m 0 * tangent' G m r) + sign m * (a * dd r + edge_alpha glue kind m 0 * dd' r).

(** [G] contains the derivatives at the vertex of a planar geometry with the derivatives [jac], as far as edge [m] is concerned *)
Definition derivatives_at (jac : R * R -> J2) (G : vgeo) (m : nat) : Prop :=
  (gjac G 0 0 = xu (jac (0, 0)) /\ gjac G 1 0 = yu (jac (0, 0)) /\ gjac G 0 1 = xv (jac (0, 0)) /\ gjac G 1 1 = yv (jac (0, 0))) /\
  rderiv (fun s => fst (tangent2 (jac (near_edge m s 0)) m)) 0 (tangent' G m 0) /\
  rderiv (fun s => snd (tangent2 (jac (near_edge m s 0)) m)) 0 (tangent' G m 1) /\
  rderiv (fun s => fst (tangent2 (jac (near_edge m s 0)) (1 - m))) 0 (across' G 0) /\
  rderiv (fun s => snd (tangent2 (jac (near_edge m s 0)) (1 - m))) 0 (across' G 1).
(** the gluing data at edge [m] are the exact ones *)
Definition exact_glue (jac : R * R -> J2) (glue : nat -> gdata) (kind : nat -> bool) (m : nat) : Prop :=
  kind m = true /\ (forall s, galpha (glue m) s = alphaPlanar jac m s) /\ (forall s, gbeta (glue m) s = betaPlanar jac m s).
