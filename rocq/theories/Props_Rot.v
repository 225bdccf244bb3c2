(** Property C41: the rotation of surface patches around a vertex. *)
From Coq Require Import Lra.
From Verif Require Import Common SplineModel GluingModel GluingSpec RotModel RotSpec RotProofs.
Open Scope R_scope.

(** When the horizontal part of the normal has length 1, the matrix is a rotation and turns the normal upright. *)
Theorem C41_rotation : forall n, flat2 n = 1 -> rotation (rotMatrix n) /\ mul3 (rotMatrix n) n = (0, 0, norm3 n).
Proof. exact rotation_pf. Qed.
Print Assumptions C41_rotation.

(** It is orthogonal for no other normals but the vertical ones: the rotation axis is not normalised. *)
Theorem C41_orthogonal_iff : forall n, n <> (0, 0, 0) -> orthogonal (rotMatrix n) <-> flat2 n = 1 \/ flat2 n = 0.
Proof. exact orthogonal_iff_pf. Qed.
Print Assumptions C41_orthogonal_iff.

Theorem C41_upright : forall n2, 0 < n2 -> rotMatrix (0, 0, n2) = ((1, 0, 0), (0, 1, 0), (0, 0, 1)).
Proof. exact upright_pf. Qed.
Print Assumptions C41_upright.

(** For a normal that points down it is a point reflection. *)
Theorem C41_upside_down_refuted : forall n2, n2 < 0 -> rotMatrix (0, 0, n2) = ((-1, 0, 0), (0, -1, 0), (0, 0, -1)).
Proof. exact upside_down_pf. Qed.
Print Assumptions C41_upside_down_refuted.

(** A regular surface point where the matrix is not orthogonal and does not turn the normal upright. *)
Theorem C41_rotation_refuted : exists J, normalN J = (3, 0, 4) /\ ~ orthogonal (vertexRotation J) /\
  exists x y z, mul3 (vertexRotation J) (3, 0, 4) = (x, y, z) /\ x <> 0.
Proof. exact refuted_pf. Qed.
Print Assumptions C41_rotation_refuted.

(** The first coefficient stays; with an orthogonal matrix all distances are kept. *)
Theorem C41_coefs : forall M c0 cs, exists ds, rotateCoefs M (c0 :: cs) = Ok (c0 :: ds) /\ length ds = length cs /\
  (orthogonal M -> forall i j a b a' b', nth_error (c0 :: cs) i = Some a -> nth_error (c0 :: cs) j = Some b -> nth_error (c0 :: ds) i = Some a' -> nth_error (c0 :: ds) j = Some b' -> dist2 a' b' = dist2 a b).
Proof. exact coefs_pf. Qed.
Print Assumptions C41_coefs.

Example C41_nonvacuous : flat2 (3 / 5, 4 / 5, 2) = 1 /\ flat2 (3, 0, 4) = 9 /\ exists J, normalN J = (3 / 5, 4 / 5, 2).
Proof.
  split; [cbn [flat2]; lra|]. split; [cbn [flat2]; lra|]. exists (mkJ3 2 0 0 1 (- (3 / 5)) (- (2 / 5))). unfold normalN. cbn. f_equal; [f_equal|]; lra.
Qed.
