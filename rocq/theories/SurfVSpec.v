(** What the property C59 says. *)
From Verif Require Import Common SplineModel SplineSpec GluingModel GluingSpec VfunModel VfunSpec SurfGDModel SurfGDSpec.
Open Scope R_scope.

(** the linear functions in the matrix of gluing data: rows 0 and 1 are the values of alpha at 0 and 1, rows 2 and 3 those of beta *)
Definition dataAlpha (gd : nat -> nat -> R) (m : nat) (s : R) : R := lin (gd 0%nat m) (gd 1%nat m) s.
Definition dataBeta (gd : nat -> nat -> R) (m : nat) (s : R) : R := lin (gd 2%nat m) (gd 3%nat m) s.

(** [dd] is the transversal vector at the vertex for edge [m] and [dd'] its derivative along the edge *)
Definition data_transversal (gd : nat -> nat -> R) (G : vgeo) (m : nat) (dd dd' : nat -> R) : Prop := forall r, (r < 2)%nat ->
  across G m r = - dataBeta gd m 0 * tangent G m r + sign m * dataAlpha gd m 0 * dd r /\
  across' G r = - ((gd 3%nat m - gd 2%nat m) * tangent G m r + dataBeta gd m 0 * tangent' G m r)
                + sign m * ((gd 1%nat m - gd 0%nat m) * dd r + dataAlpha gd m 0 * dd' r).

(** [G] contains the derivatives at the vertex of a geometry with the derivatives [jac] after the linear map with the rows [M], as
    far as edge [m] is concerned *)
Definition mapped_derivatives (M : nat -> R * R * R) (jac : R * R -> J3) (G : vgeo) (m : nat) : Prop := forall r, (r < 2)%nat ->
  gjac G r 0 = dot3 (M r) (Fu (jac (0, 0))) /\ gjac G r 1 = dot3 (M r) (Fv (jac (0, 0))) /\
  rderiv (fun s => dot3 (M r) (tangent3 (jac (near_edge m s 0)) m)) 0 (tangent' G m r) /\
  rderiv (fun s => dot3 (M r) (tangent3 (jac (near_edge m s 0)) (1 - m))) 0 (across' G r).

(** column 1 of the matrix of the right patch and column 0 of the matrix of the left patch contain the data of the interface *)
Definition interface_data (sol solB : nat -> R) (gdR gdL : nat -> nat -> R) : Prop :=
  (gdR 0%nat 1%nat = sol 0%nat /\ gdR 1%nat 1%nat = sol 1%nat /\ gdR 2%nat 1%nat = solB 0%nat /\ gdR 3%nat 1%nat = solB 1%nat) /\
  (gdL 0%nat 0%nat = sol 2%nat /\ gdL 1%nat 0%nat = sol 3%nat /\ gdL 2%nat 0%nat = solB 2%nat /\ gdL 3%nat 0%nat = solB 3%nat).
