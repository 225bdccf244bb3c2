(** Properties C17, C18: predicted and actual number of functions of gsDPatch and gsAlmostC1. *)
From Verif Require Import Common TopoModel BaseModel IndexSpec TopoSpec SmoothSpec SmoothSpec2 SmoothExamples
  RingModel RingSpec RingProofs3 RingInstance RingExamples.

(** C17: if no boundary vertex has a valence above 3, the mapper is built and the predicted
    size is its number of free functions. *)
Theorem C17_predicted_size_is_free_size : forall I, ring_input I -> supported SchemeDPatch (ritopo I) ->
  exists m, rMapper SchemeDPatch I = Ok m /\ rcountDoFs SchemeDPatch I = Ok (Z.of_nat (cfreeSize m)).
Proof. exact (fun I RI => ring_count I RI SchemeDPatch). Qed.
Print Assumptions C17_predicted_size_is_free_size.

(** ... otherwise an error is raised. *)
Theorem C17_unsupported_vertex_is_an_error : forall I, ring_input I -> ~ supported SchemeDPatch (ritopo I) ->
  rMapper SchemeDPatch I = Err.
Proof. exact (fun I RI => ring_unsupported I RI SchemeDPatch). Qed.
Print Assumptions C17_unsupported_vertex_is_an_error.

(** The restriction cannot be relaxed to smooth boundary vertices: a sharp boundary vertex of
    valence 4 is an error as well. *)
Theorem C17_sharp_vertices_refuted : exists I, ring_input I /\
  (forall c v, fst c < tnp (ritopo I) -> has_valence (ritopo I) c v -> ~ interior_vertex (ritopo I) c ->
     nth_error (riC0 I) (vertIndex c) = Some false -> v <= 3) /\
  rMapper SchemeDPatch I = Err.
Proof. exact sharp_valence_four. Qed.
Print Assumptions C17_sharp_vertices_refuted.

Example C17_nonvacuous : ring_input (ring_input_of fan) /\ supported SchemeDPatch (itopo fan) /\
  rcountDoFs SchemeDPatch (ring_input_of fan) = Ok 55%Z.
Proof. exact fan_dpatch. Qed.
Example C17_nonvacuous_interior : ring_input (ring_input_of three_patches) /\ supported SchemeDPatch (itopo three_patches) /\
  rcountDoFs SchemeDPatch (ring_input_of three_patches) = Ok 48%Z.
Proof. exact three_dpatch. Qed.

(** C18: the same for gsAlmostC1, whose interior vertices must have valence at least 3. *)
Theorem C18_predicted_size_is_free_size : forall I, ring_input I -> supported SchemeAlmostC1 (ritopo I) ->
  exists m, rMapper SchemeAlmostC1 I = Ok m /\ rcountDoFs SchemeAlmostC1 I = Ok (Z.of_nat (cfreeSize m)).
Proof. exact (fun I RI => ring_count I RI SchemeAlmostC1). Qed.
Print Assumptions C18_predicted_size_is_free_size.

Theorem C18_unsupported_vertex_is_an_error : forall I, ring_input I -> ~ supported SchemeAlmostC1 (ritopo I) ->
  rMapper SchemeAlmostC1 I = Err.
Proof. exact (fun I RI => ring_unsupported I RI SchemeAlmostC1). Qed.
Print Assumptions C18_unsupported_vertex_is_an_error.

(** For interior vertices of valence 1 or 2 there is no prediction to compare with: the property
    fails for two patches glued along two pairs of sides. *)
Theorem C18_interior_valence_two_refuted : exists I, ring_input I /\ rMapper SchemeAlmostC1 I = Err.
Proof. exact interior_valence_two. Qed.
Print Assumptions C18_interior_valence_two_refuted.

Example C18_nonvacuous : ring_input (ring_input_of fan) /\ supported SchemeAlmostC1 (itopo fan) /\
  rcountDoFs SchemeAlmostC1 (ring_input_of fan) = Ok 59%Z.
Proof. exact fan_almost. Qed.
Example C18_nonvacuous_interior : ring_input (ring_input_of three_patches) /\ supported SchemeAlmostC1 (itopo three_patches) /\
  rcountDoFs SchemeAlmostC1 (ring_input_of three_patches) = Ok 51%Z.
Proof. exact three_almost. Qed.

(** Tensor-product bases with at least 4 functions per direction are admissible. *)
Theorem C17_tensor_bases_admissible : forall I, well_formed I -> ring_input (ring_input_of I).
Proof. exact ring_input_of_ok. Qed.
Print Assumptions C17_tensor_bases_admissible.
