(** Property C45: re-parameterisation does not change the surface. *)
From Verif Require Import Common TopoModel ReparamModel ReparamSpec SurfaceSpec SurfaceProofs.
Open Scope Q_scope.

(** C45, gsPatchReparameterized: after any sequence of operations the patch describes the same
    surface; a parameter is moved by the corresponding rotations and reflections of the
    parameter rectangle. *)
Theorem C45_surface_unchanged : forall {A} (coord : A -> Q) h (p : patch A) ng a xy,
  full p -> spline_comp (pU p) -> spline_comp (pV p) ->
  off_knots (pU p) (fst xy) -> off_knots (pV p) (snd xy) -> run h (newAux p ng) = Ok a ->
  surface coord (geo a) (moves h (span (pU p), span (pV p)) xy) == surface coord p xy.
Proof. exact @surf_history. Qed.
Print Assumptions C45_surface_unchanged.

(** C45 for the tables of the edge and vertex constructions. *)
Theorem C45_tables_keep_the_surface : forall {A} (coord : A -> Q) (p : patch A) ng ix first a,
  full p -> spline_comp (pU p) -> spline_comp (pV p) ->
  reparametrizeSingle ix (newAux p ng) = Ok a \/ reparametrizeInterface first ix (newAux p ng) = Ok a \/
  reparametrizeVertex ix (newAux p ng) = Ok a ->
  exists h, forall xy, off_knots (pU p) (fst xy) -> off_knots (pV p) (snd xy) ->
    surface coord (geo a) (moves h (span (pU p), span (pV p)) xy) == surface coord p xy.
Proof. exact @surf_tables. Qed.
Print Assumptions C45_tables_keep_the_surface.

(** C45 for gsG1AuxiliaryPatch, which does not reverse knots: true for symmetric knot vectors ... *)
Theorem C45_surface_unchanged_G1_symmetric : forall {A} (coord : A -> Q) h (p : patch A) ng a xy,
  full p -> spline_comp (pU p) -> spline_comp (pV p) -> symmetric (pU p) -> symmetric (pV p) ->
  off_knots (pU p) (fst xy) -> off_knots (pV p) (snd xy) -> run_1 h (newAux1 p ng) = Ok a ->
  surface coord (geo1 a) (moves h (span (pU p), span (pV p)) xy) == surface coord p xy.
Proof. exact @surf_history1. Qed.
Print Assumptions C45_surface_unchanged_G1_symmetric.

Theorem C45_swap_G1 : forall {A} (coord : A -> Q) (p : patch A) ng a xy,
  full p -> spline_comp (pU p) -> spline_comp (pV p) ->
  off_knots (pU p) (fst xy) -> off_knots (pV p) (snd xy) -> run_1 [OSwap] (newAux1 p ng) = Ok a ->
  surface coord (geo1 a) (snd xy, fst xy) == surface coord p xy.
Proof. exact @surf_swap1. Qed.
Print Assumptions C45_swap_G1.

(** ... and false in general. *)
Theorem C45_surface_unchanged_G1_refuted : exists a, run_1 [OTwice] (newAux1 skewedQ false) = Ok a /\
  ~ surface (fun x => x) (geo1 a) (move OTwice (span (pU skewedQ), span (pV skewedQ)) (1 # 2, 1 # 2))
    == surface (fun x => x) skewedQ (1 # 2, 1 # 2).
Proof. exact surf_G1_fails. Qed.
Print Assumptions C45_surface_unchanged_G1_refuted.

Example C45_nonvacuous : exists a, run [OSwap; OClock] (newAux skewedQ true) = Ok a /\
  moves [OSwap; OClock] (span (pU skewedQ), span (pV skewedQ)) (1 # 3, 1 # 4) = (2 # 3, 1 # 4) /\
  surface (fun x => x) (geo a) (2 # 3, 1 # 4) == 427 # 36 /\
  surface (fun x => x) skewedQ (1 # 3, 1 # 4) == 427 # 36 /\ off_knots (pU skewedQ) (1 # 3).
Proof.
  eexists. split; [vm_compute; reflexivity|]. repeat split; try (vm_compute; reflexivity).
  repeat constructor; vm_compute; discriminate.
Qed.
