(** Properties C01-C06: the construction of gsSmoothInterfaces. *)
From Verif Require Import Common TopoModel BaseModel IndexSpec TopoSpec SmoothSpec SmoothSpec2
  SmoothExamples MapperProofs CountProofs SmoothProofs GeometryProofs.

(** C01: the predicted number of functions is the number of free dofs. *)
Theorem C01_predicted_size_is_free_size : forall I, well_formed I ->
  exists m, computeMapper I = Ok m /\ countDoFs I = Ok (Z.of_nat (freeSize m)).
Proof. exact predicted_size. Qed.
Print Assumptions C01_predicted_size_is_free_size.

Example C01_nonvacuous : well_formed two_patches /\ countDoFs two_patches = Ok 28%Z.
Proof. split; [exact two_patches_wf | vm_compute; reflexivity]. Qed.

Example C01_nonvacuous_inner_vertex : well_formed three_patches /\ countDoFs three_patches = Ok 48%Z.
Proof. split; [exact three_patches_wf | vm_compute; reflexivity]. Qed.

(** C02: the construction never fails: [compute] ends with every completeness check passed
    (an unhandled side, corner or row would make it an error), every row of the matrix is
    filled, and the column of a kept local function belongs to that function alone. *)
Theorem C02_everything_handled : forall I, well_formed I ->
  exists m R, computeMapper I = Ok m /\ compute I = Ok R /\ rRows R = freeSize m /\
  (forall r, r < rRows R -> exists c, c < rCols R /\ entry_of R r c = 1%Q) /\
  (forall p k, p < length (ibases I) -> k < tsize (nth p (ibases I) (0, 0)) -> is_free m k p = true ->
     exists r, mindex m k p = Ok r /\ r < rRows R /\
       forall r', r' < rRows R -> entry_of R r' (sumN (map tsize (firstn p (ibases I))) + k) = if r' =? r then 1%Q else 0%Q).
Proof. exact all_handled. Qed.
Print Assumptions C02_everything_handled.

Example C02_nonvacuous : well_formed four_patches /\ (exists R, compute four_patches = Ok R /\ rRows R = 64).
Proof. split; [exact four_patches_wf | eexists; split; vm_compute; reflexivity]. Qed.

(** C03: partition of unity. *)
Theorem C03_columns_sum_to_one : forall I R, well_formed I -> compute I = Ok R ->
  forall c, c < rCols R -> (colSum R c == 1)%Q.
Proof. exact partition_of_unity. Qed.
Print Assumptions C03_columns_sum_to_one.

Example C03_nonvacuous : well_formed three_patches /\ (exists R, compute three_patches = Ok R /\ rCols R = 75).
Proof. split; [exact three_patches_wf | eexists; split; vm_compute; reflexivity]. Qed.

(** C04: non-negativity and linear independence. *)
Theorem C04_entries_between_zero_and_one : forall I R, well_formed I -> compute I = Ok R ->
  forall r c, r < rRows R -> c < rCols R -> (0 <= entry_of R r c <= 1)%Q.
Proof. exact entries_in_unit_interval. Qed.
Print Assumptions C04_entries_between_zero_and_one.

Theorem C04_smooth_functions_independent : forall I R coef, well_formed I -> compute I = Ok R ->
  (forall c, c < rCols R -> (control R coef c == 0)%Q) -> forall r, r < rRows R -> (coef r == 0)%Q.
Proof. exact functions_independent. Qed.
Print Assumptions C04_smooth_functions_independent.

Example C04_nonvacuous : well_formed three_patches /\
  (exists R r c, compute three_patches = Ok R /\ r < rRows R /\ c < rCols R /\ (entry_of R r c == 1 # 3)%Q).
Proof.
  split; [exact three_patches_wf|]. eexists. exists 16, 0. split; [vm_compute; reflexivity|].
  vm_compute. repeat split; lia.
Qed.

(** C05: the control points on an interface coincide and are the midpoints of the
    neighbouring rows.  Everywhere strictly between the two ends of the interface ... *)
Theorem C05_C1_between_the_ends : forall I R coef f u, well_formed I -> compute I = Ok R ->
  In f (tif (itopo I)) -> 1 <= u -> u + 2 <= side_length (ibases I) (if1 f) ->
  let P1 o := control R coef (side_column (ibases I) (if1 f) o u) in
  let P2 o := control R coef (side_column (ibases I) (if2 f) o (matching (ibases I) f u)) in
  (P1 0%nat == P2 0%nat)%Q /\ (P1 0%nat == (1 # 2) * (P1 1%nat + P2 1%nat))%Q.
Proof. exact smooth_inside. Qed.
Print Assumptions C05_C1_between_the_ends.

(** ... and at an end that is a smooth boundary vertex of valence 2 or an interior
    vertex of valence 4. *)
Theorem C05_C1_at_the_ends : forall I R coef f last, well_formed I -> compute I = Ok R ->
  In f (tif (itopo I)) ->
  smooth_boundary_pair I (end_corner (if1 f) last) \/
    (interior_vertex (itopo I) (end_corner (if1 f) last) /\ has_valence (itopo I) (end_corner (if1 f) last) 4) ->
  let u := end_position (ibases I) (if1 f) last in
  let P1 o := control R coef (side_column (ibases I) (if1 f) o u) in
  let P2 o := control R coef (side_column (ibases I) (if2 f) o (matching (ibases I) f u)) in
  (P1 0%nat == P2 0%nat)%Q /\ (P1 0%nat == (1 # 2) * (P1 1%nat + P2 1%nat))%Q.
Proof. exact smooth_ends. Qed.
Print Assumptions C05_C1_at_the_ends.

Example C05_nonvacuous : well_formed two_patches /\ In (mkI (0, East) (1, West) false) (tif (itopo two_patches)) /\
  side_length (ibases two_patches) (0, East) = 4.
Proof. split; [exact two_patches_wf|]. split; [left; reflexivity|reflexivity]. Qed.

Example C05_nonvacuous_ends :
  (well_formed two_patches /\ smooth_boundary_pair two_patches (end_corner (0, East) true)) /\
  (well_formed four_patches /\ interior_vertex (itopo four_patches) (end_corner (0, West) false) /\
   has_valence (itopo four_patches) (end_corner (0, West) false) 4).
Proof. exact smooth_end_examples. Qed.

(** C06: at interior vertices and at smooth boundary vertices of valence 2 all patches
    have the same corner point. *)
Theorem C06_continuous_at_smooth_vertices : forall I R coef a b, well_formed I -> compute I = Ok R ->
  fst a < length (ibases I) -> same_vertex (itopo I) a b ->
  interior_vertex (itopo I) a \/ smooth_boundary_pair I a ->
  (control R coef (corner_column (ibases I) a) == control R coef (corner_column (ibases I) b))%Q.
Proof. exact continuous_at_vertices. Qed.
Print Assumptions C06_continuous_at_smooth_vertices.

(** At sharp vertices and at boundary vertices of valence 3 the property is false: the
    exported patches come apart. *)
Theorem C06_continuous_at_sharp_vertices_refuted : exists I R coef a b, well_formed I /\ compute I = Ok R /\
  same_vertex (itopo I) a b /\ sharp I a /\
  ~ (control R coef (corner_column (ibases I) a) == control R coef (corner_column (ibases I) b))%Q.
Proof. exact sharp_discontinuous. Qed.
Print Assumptions C06_continuous_at_sharp_vertices_refuted.

Theorem C06_continuous_at_irregular_boundary_vertices_refuted : exists I R coef a b, well_formed I /\ compute I = Ok R /\
  same_vertex (itopo I) a b /\ has_valence (itopo I) a 3 /\ (forall c, ~ sharp I c) /\
  ~ (control R coef (corner_column (ibases I) a) == control R coef (corner_column (ibases I) b))%Q.
Proof. exact fan_discontinuous. Qed.
Print Assumptions C06_continuous_at_irregular_boundary_vertices_refuted.
