(** Properties C19, C20: triangles and rotations of gsAlmostC1. *)
From Coq Require Import Reals List.
From Verif Require Import Common PiSpec TriangleModel TriangleSpec TriangleProofs.
Import ListNotations.
Open Scope R_scope.

(** C20 *)
Theorem C20_rotation_of_directions : forall a b, unit_vec a -> unit_vec b -> b <> vopp a ->
  exists M, getRotationMatrix a b = Ok M /\ is_rotation M /\ mapply M a = b.
Proof. exact rotation_ok. Qed.
Print Assumptions C20_rotation_of_directions.

(** The special case: for opposite directions the matrix is minus the identity, which maps the
    first onto the second but is not a rotation. *)
Theorem C20_opposite_directions_refuted : forall a, unit_vec a ->
  exists M, getRotationMatrix a (vopp a) = Ok M /\ mapply M a = vopp a /\ isometry M /\ mdet M = -1.
Proof. exact rotation_antiparallel. Qed.
Print Assumptions C20_opposite_directions_refuted.

Example C20_nonvacuous : exists M, getRotationMatrix (V3 1 0 0) (V3 0 1 0) = Ok M /\
  mapply M (V3 0 1 0) = V3 (-1) 0 0 /\ mapply M (V3 0 0 1) = V3 0 0 1.
Proof. exact rotation_example. Qed.

(** C19, planar domains: unless all control points coincide with the vertex, the weights of
    every control point are convex and reproduce the point from the corners of the triangle. *)
Theorem C19_planar_triangle : forall um us normals, (exists u, In u us /\ dropz u <> dropz um) ->
  exists c0 c1 c2 ub, makeTriangle 2 um us normals = Ok ([c0; c1; c2], ub) /\
    Forall2 (fun u l => convex_weights l /\ combination c0 c1 c2 l = dropz u) us ub.
Proof. exact triangle_planar. Qed.
Print Assumptions C19_planar_triangle.

(** C19, surfaces: the weights are convex and reproduce the perpendicular foot of every control
    point on the plane through the vertex with the mean normal. *)
Theorem C19_surface_triangle : forall um us normals n, normals <> [] -> Forall unit_vec normals ->
  mean_direction normals n -> (exists u, In u us /\ foot um n u <> um) ->
  exists c0 c1 c2 ub, makeTriangle 3 um us normals = Ok ([c0; c1; c2], ub) /\
    Forall2 (fun u l => convex_weights l /\ combination c0 c1 c2 l = foot um n u) us ub.
Proof. exact triangle_surface. Qed.
Print Assumptions C19_surface_triangle.

Theorem C19_degenerate_is_an_error : forall um us normals, (forall u, In u us -> dropz u = dropz um) ->
  makeTriangle 2 um us normals = Err.
Proof. exact triangle_degenerate. Qed.
Print Assumptions C19_degenerate_is_an_error.

(** Geometries that are neither planar nor surfaces in space are refused. *)
Theorem C19_other_dimensions_refused : forall tdim um us normals, tdim <> 2%nat -> tdim <> 3%nat ->
  makeTriangle tdim um us normals = Err.
Proof. exact triangle_dimension. Qed.
Print Assumptions C19_other_dimensions_refused.

Example C19_nonvacuous : exists c0 c1 c2 ub,
  makeTriangle 2 (V3 1 1 0) [V3 1 1 0; V3 3 1 0; V3 1 4 0] [] = Ok ([c0; c1; c2], ub) /\
  Forall2 (fun u l => convex_weights l /\ combination c0 c1 c2 l = dropz u) [V3 1 1 0; V3 3 1 0; V3 1 4 0] ub.
Proof. exact triangle_example. Qed.

(** Writing convex weights into the matrix: the columns of the points receive exactly these
    weights, all other columns stay, and column sums of one stay one. *)
Theorem C19_weights_written : forall M r0 r1 r2 rest uind ub,
  NoDup [r0; r1; r2] -> NoDup uind -> length uind = length ub ->
  exists M', triangleStep M (r0 :: r1 :: r2 :: rest) uind ub = Ok M' /\
    (forall r c, ~ In c uind -> M' r c = M r c) /\
    (forall k c l, nth_error uind k = Some c -> nth_error ub k = Some l ->
       M' r0 c = vx l /\ M' r1 c = vy l /\ M' r2 c = vz l /\ forall r, ~ In r [r0; r1; r2] -> M' r c = 0).
Proof. exact step_entries. Qed.
Print Assumptions C19_weights_written.

Theorem C19_partition_of_unity_kept : forall M r0 r1 r2 rest uind ub n,
  NoDup [r0; r1; r2] -> NoDup uind -> length uind = length ub -> Forall convex_weights ub ->
  (r0 < n)%nat -> (r1 < n)%nat -> (r2 < n)%nat ->
  exists M', triangleStep M (r0 :: r1 :: r2 :: rest) uind ub = Ok M' /\
    (forall c, rsum n (fun r => M r c) = 1 -> rsum n (fun r => M' r c) = 1) /\
    (forall c, In c uind -> rsum n (fun r => M' r c) = 1 /\ forall r, 0 <= M' r c).
Proof. exact step_columns. Qed.
Print Assumptions C19_partition_of_unity_kept.
