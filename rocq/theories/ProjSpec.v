(** What the projections are meant to do (C86). *)
From Verif Require Import Common SplineModel GluingModel SurfGDSpec AsmModel BihModel BihSpec EdgeModel EdgeSpec ProjModel.
Open Scope R_scope.

(** the solver solves the systems with the matrix of the projection *)
Definition free_solver (solver : nat -> (nat -> nat -> R) -> (nat -> R) -> nat -> R) (n : nat) (els : list qelem) : Prop :=
  forall X, assembleJobs (freeMapper n) (fun _ => 0) (map (fun e => JMat (massElem e)) els) = Ok X ->
  forall b, solves (mfree (freeMapper n)) (smat X) b (solver (mfree (freeMapper n)) (smat X) b).
(** the nodes tell splines apart *)
Definition sees_all (n : nat) (els : list qelem) : Prop := forall c, (forall k, In k (nodes els) -> comb (fst k) (qv (snd k)) c = 0) -> forall i, (i < n)%nat -> c i = 0.
(** [f] has the value [g] in the nodes *)
Definition has_values (els : list qelem) (f : R * R -> res R) (g : R * R -> R) : Prop := forall k, In k (nodes els) -> f (qx (snd k)) = Ok (g (qx (snd k))).
(** [c] is closest to [g] among all splines *)
Definition closest (els : list qelem) (g : R * R -> R) (c : list R) : Prop := forall d, distance2 els g (fun i => nth i c 0) <= distance2 els g d.
(** in the nodes [g] is the spline with the coefficients [d] *)
Definition is_spline (els : list qelem) (g : R * R -> R) (d : nat -> R) : Prop := forall k, In k (nodes els) -> g (qx (snd k)) = comb (fst k) (qv (snd k)) d.
Definition coefs_are (n : nat) (c : list R) (d : nat -> R) : Prop := length c = n /\ forall i, (i < n)%nat -> nth i c 0 = d i.
