(** Concrete inputs for the constructions on hierarchical bases. *)
From Verif Require Import Common TopoModel BaseModel IndexSpec TopoSpec SmoothSpec SmoothSpec2 SmoothExamples
  IndexProofs TopoProofs GeometryProofs RingModel RingSpec RingProofs RingProofs2 RingProofs3 RingInstance.
From Coq Require Import ZifyBool.

Lemma sup_check I sc : well_formed I ->
  forallb (sup (ring_input_of I) sc) (all_corners (length (ibases I))) = true -> supported sc (itopo I).
Proof.
  intros W H. apply (supported_sup (ring_input_of I) (ring_input_of_ok I W) sc).
  intros c Hc. rewrite forallb_forall in H. apply H, in_all_corners. simpl in Hc. rewrite map_length in Hc. exact Hc.
Qed.

Lemma fan_dpatch : ring_input (ring_input_of fan) /\ supported SchemeDPatch (itopo fan) /\
  rcountDoFs SchemeDPatch (ring_input_of fan) = Ok 55%Z.
Proof. split; [apply ring_input_of_ok, fan_wf|]. split; [apply (sup_check fan _ fan_wf)|]; vm_compute; reflexivity. Qed.
Lemma three_dpatch : ring_input (ring_input_of three_patches) /\ supported SchemeDPatch (itopo three_patches) /\
  rcountDoFs SchemeDPatch (ring_input_of three_patches) = Ok 48%Z.
Proof. split; [apply ring_input_of_ok, three_patches_wf|]. split; [apply (sup_check three_patches _ three_patches_wf)|]; vm_compute; reflexivity. Qed.
Lemma fan_almost : ring_input (ring_input_of fan) /\ supported SchemeAlmostC1 (itopo fan) /\
  rcountDoFs SchemeAlmostC1 (ring_input_of fan) = Ok 59%Z.
Proof. split; [apply ring_input_of_ok, fan_wf|]. split; [apply (sup_check fan _ fan_wf)|]; vm_compute; reflexivity. Qed.
Lemma three_almost : ring_input (ring_input_of three_patches) /\ supported SchemeAlmostC1 (itopo three_patches) /\
  rcountDoFs SchemeAlmostC1 (ring_input_of three_patches) = Ok 51%Z.
Proof. split; [apply ring_input_of_ok, three_patches_wf|]. split; [apply (sup_check three_patches _ three_patches_wf)|]; vm_compute; reflexivity. Qed.

Lemma sharp_valence_four : exists I, ring_input I /\
  (forall c v, fst c < tnp (ritopo I) -> has_valence (ritopo I) c v -> ~ interior_vertex (ritopo I) c ->
     nth_error (riC0 I) (vertIndex c) = Some false -> v <= 3) /\
  rMapper SchemeDPatch I = Err.
Proof.
  exists (ring_input_of fan4_sharp). split; [apply ring_input_of_ok, fan4_sharp_wf|]. split; [|vm_compute; reflexivity].
  intros c v Hc Hv _ Hs. pose proof (wf_topo _ fan4_sharp_wf) as Hcons.
  apply (has_valence_iff _ Hcons) in Hv; [|exact Hc]. subst v.
  assert (forallb (fun c => (valence fan4_topo c <=? 3) || nth (vertIndex c) (iC0 fan4_sharp) false) (all_corners 4) = true) as H
    by (vm_compute; reflexivity).
  rewrite forallb_forall in H. specialize (H c (proj2 (in_all_corners 4 c) Hc)). apply orb_prop in H.
  destruct H as [H|H]; [apply Nat.leb_le; exact H|]. apply nth_error_nth with (d := false) in Hs. simpl riC0 in Hs. simpl iC0 in H. congruence.
Qed.

Lemma interior_valence_two : exists I, ring_input I /\ rMapper SchemeAlmostC1 I = Err.
Proof. exists (ring_input_of pair_patches). split; [apply ring_input_of_ok, pair_patches_wf|vm_compute; reflexivity]. Qed.
