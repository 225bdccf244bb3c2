(** Property C21: refinement around extraordinary vertices. *)
From Verif Require Import Common TopoModel BaseModel TopoSpec SmoothSpec SmoothSpec2 RefModel RefSpec RefProofs RefProofs2 SmoothExamples RefExamples.

(** C21 for gsDPatch: the propagation ends, refines exactly the corners it must, every one
    once, and writes for each of them the box of the requested size at that corner; all boxes
    lie inside their patch. *)
Theorem C21_refinement_dpatch : forall RL I start, ref_input I ->
  (forall l c, In l start -> In c l -> fst c < tnp (rftopo I)) ->
  enough_elements I (rfnel (dpatchRef RL)) start ->
  forall fuel, length start + 8 * length (rfdirs I) < fuel ->
  exists don boxes, refBoxes fuel (dpatchRef RL) I start = Ok boxes /\ NoDup don /\
    (forall c, In c don <-> must_refine I (rfnel (dpatchRef RL)) start c) /\
    length boxes = length (rfdirs I) /\
    (forall p, p < length (rfdirs I) ->
       nth_error boxes p = Some (flat_map (box_of I (rfnel (dpatchRef RL))) (filter (fun c => fst c =? p) don))) /\
    (forall c K0 K1, In c don -> nth_error (rfdirs I) (fst c) = Some (K0, K1) ->
       box_inside (Z.of_nat (knel K0)) (Z.of_nat (knel K1)) (box_of I (rfnel (dpatchRef RL)) c)).
Proof. exact refine_dpatch. Qed.
Print Assumptions C21_refinement_dpatch.

(** C21 for gsAlmostC1: one element at every corner, no assertion needed. *)
Theorem C21_refinement_almost : forall I start, ref_input I ->
  (forall l c, In l start -> In c l -> fst c < tnp (rftopo I)) ->
  (forall d, In d (rfdirs I) -> 0 < knel (fst d) /\ 0 < knel (snd d)) ->
  forall fuel, length start + 8 * length (rfdirs I) < fuel ->
  exists don boxes, refBoxes fuel almostRef I start = Ok boxes /\ NoDup don /\
    (forall c, In c don <-> must_refine I (rfnel almostRef) start c) /\
    length boxes = length (rfdirs I) /\
    (forall p, p < length (rfdirs I) ->
       nth_error boxes p = Some (flat_map (box_of I (rfnel almostRef)) (filter (fun c => fst c =? p) don))) /\
    (forall c K0 K1, In c don -> nth_error (rfdirs I) (fst c) = Some (K0, K1) ->
       box_inside (Z.of_nat (knel K0)) (Z.of_nat (knel K1)) (box_of I (rfnel almostRef) c)).
Proof. exact refine_almost. Qed.
Print Assumptions C21_refinement_almost.

(** The fuel is no part of the result. *)
Theorem C21_fuel_does_not_matter : forall S I start f g, f <= g ->
  forall b, refBoxes f S I start = Ok b -> refBoxes g S I start = Ok b.
Proof. exact refBoxes_fuel. Qed.
Print Assumptions C21_fuel_does_not_matter.

(** Numbers of elements: two for degrees below four, else one, times two to the power RefLevel. *)
Theorem C21_number_of_elements : forall RL d,
  (d < 4 -> rfnel (dpatchRef RL) d = 2 * 2 ^ RL) /\ (4 <= d -> rfnel (dpatchRef RL) d = 2 ^ RL) /\ rfnel almostRef d = 1.
Proof. exact nel_values. Qed.
Print Assumptions C21_number_of_elements.

(** Too few elements at an extraordinary vertex stop gsDPatch (assertion). *)
Theorem C21_too_few_elements_rejected : forall RL I c rest d dim fuel, dim < 2 -> fst c < length (rfdirs I) ->
  nth_error (rfdirs I) (fst c) = Some d ->
  knel (match dim with 0 => fst d | _ => snd d end) <
    rfnel (dpatchRef RL) (kdeg (match dim with 0 => fst d | _ => snd d end)) ->
  refBoxes fuel (dpatchRef RL) I ((c :: fst rest) :: snd rest) = Err.
Proof. exact short_first_list. Qed.
Print Assumptions C21_too_few_elements_rejected.

(** Without the assertion (it is compiled out of release builds) the box leaves the patch. *)
Theorem C21_release_build_refuted : exists boxes b,
  refBoxes 100 (mkRS (rfnel (dpatchRef 1)) false) ref_three ref_start = Ok boxes /\
  nth_error boxes 0 = Some b /\ (exists rest, b = [0; 0; 0; 4; 4]%Z ++ rest) /\
  ~ box_inside 4 2 [0; 0; 0; 4; 4]%Z.
Proof. exact release_boxes. Qed.
Print Assumptions C21_release_build_refuted.

Example C21_nonvacuous : ref_input ref_three /\
  refBoxes 26 (dpatchRef 0) ref_three ref_start = Ok [[0; 0; 0; 2; 2; 0; 0; 0; 2; 2]; [0; 0; 0; 2; 2; 0; 2; 0; 4; 2; 0; 0; 2; 2; 4]; [0; 0; 0; 2; 2; 0; 0; 0; 2; 2]]%Z /\
  must_refine ref_three (rfnel (dpatchRef 0)) ref_start (0, NW).
Proof.
  split; [exact ref_three_ok|]. split; [vm_compute; reflexivity|].
  eapply mr_edge with (c := (0, SW)) (dim := 1) (K := mkK 2 2).
  - eapply mr_start; [left; reflexivity|]. left. reflexivity.
  - auto.
  - eexists. split; reflexivity.
  - reflexivity.
  - apply sv_refl.
Qed.

(** The starting lists of gsAlmostC1: the lists are the vertices that are interior with
    valence other than four, or on the boundary with valence above two, or above one if C0. *)
Theorem C21_special_vertices : forall t C0s, consistent t -> length C0s = 4 * tnp t ->
  (forall a b, glued_corners t a b -> nth_error C0s (vertIndex a) = nth_error C0s (vertIndex b)) ->
  exists lists, getSpecialCornerLists t C0s = Ok lists /\
    (forall l c, In l lists -> In c l -> special_vertex t C0s c /\ forall b, In b l <-> same_vertex t c b) /\
    (forall c, special_vertex t C0s c -> exists l, In l lists /\ In c l).
Proof. exact special_ok. Qed.
Print Assumptions C21_special_vertices.

(** Every vertex is listed once if no patch has two corners at one vertex. *)
Theorem C21_special_vertices_once : forall t C0s, consistent t -> length C0s = 4 * tnp t ->
  (forall a b, same_vertex t a b -> fst a < tnp t -> fst a = fst b -> a = b) ->
  exists lists, getSpecialCornerLists t C0s = Ok lists /\ NoDup (concat lists).
Proof. exact special_once. Qed.
Print Assumptions C21_special_vertices_once.

Example C21_special_nonvacuous : getSpecialCornerLists fan4_topo (repeat false 16) = Ok [[(0, SW); (1, SW); (2, SW); (3, SW)]] /\
  getSpecialCornerLists four_patches_topo (repeat false 16) = Ok [].
Proof. split; vm_compute; reflexivity. Qed.
