(** Tensor-product bases satisfy the hypotheses of C66; two concrete multipatches. *)
From Verif Require Import Common TopoModel BaseModel IndexSpec TopoSpec SmoothSpec SmoothSpec2 SmoothExamples RingModel RingSpec DpModel DpSpec
  IndexProofs ListLemmas TopoProofs PointProofs GeometryProofs RingInstance RingExamples DpProofs4.
From Coq Require Import ZifyBool.

Lemma dtensor_ring I : well_formed I -> ring_input (dring (dtensor I)).
Proof. exact (ring_input_of_ok I). Qed.

Lemma dtensor_rows I : well_formed I -> rows_match (dtensor I).
Proof.
  intros W f o Hf Ho. cbn [dtensor dring ritopo] in Hf.
  assert (fst (if1 f) < length (ibases I) /\ fst (if2 f) < length (ibases I)) as [Q1 Q2].
  { rewrite <- (wf_np I W). split; apply (sides_valid _ (wf_topo I W)); left; apply in_flat_map; exists f; simpl; auto. }
  destruct (nth_error (ibases I) (fst (if1 f))) as [b1|] eqn:E1; [|apply nth_error_None in E1; lia].
  destruct (nth_error (ibases I) (fst (if2 f))) as [b2|] eqn:E2; [|apply nth_error_None in E2; lia].
  assert (length (boundaryOffset b1 (snd (if1 f)) o) = length (boundaryOffset b2 (snd (if2 f)) o)) as L.
  { rewrite !boundaryOffset_length. pose proof (wf_match I W f b1 b2 Hf E1 E2). assumption. }
  assert (forall p b, nth_error (ibases I) p = Some b -> basis_at (dtensor I) p = ring_of b) as K.
  { intros p b E. unfold basis_at. cbn [dtensor dring ribases]. apply nth_error_nth. rewrite nth_error_map, E. reflexivity. }
  exists (boundaryOffset b1 (snd (if1 f)) o), (if ifflip f then rev (boundaryOffset b2 (snd (if2 f)) o) else boundaryOffset b2 (snd (if2 f)) o).
  split; [|split; [|split]].
  - cbn [dtensor dmatch]. unfold basisOf, vget. rewrite E1, E2. cbn [bind]. unfold matchWith. rewrite L, Nat.eqb_refl. reflexivity.
  - destruct (ifflip f); rewrite ?rev_length; exact L.
  - rewrite (K _ _ E1). reflexivity.
  - rewrite (K _ _ E2). destruct (ifflip f); [symmetry; apply Permutation_rev|reflexivity].
Qed.

Lemma tensor_pf : forall I, well_formed I -> supported SchemeDPatch (itopo I) -> dp_input (dtensor I).
Proof. intros I W H. constructor; [apply dtensor_ring, W|apply dtensor_rows, W|exact H]. Qed.

Definition dcol_of (I : input) (c : nat) : list (nat * Q) :=
  match dCompute (dtensor I) with
  | Ok R => filter (fun x => negb (Qeq_bool (snd x) 0)) (map (fun r => (r, dentry R r c)) (seq 0 (drRows R)))
  | Err => []
  end.
Definition dsize_of (I : input) : nat * nat := match dCompute (dtensor I) with Ok R => (drRows R, drCols R) | Err => (0, 0) end.

Lemma dp_nonvacuous_pf :
  (well_formed fan /\ supported SchemeDPatch (itopo fan) /\ dsize_of fan = (55, 75) /\
   dcol_of fan 0 = [(3, (1 # 4)%Q); (19, (1 # 4)%Q); (35, (1 # 4)%Q); (54, (1 # 4)%Q)] /\
   dcol_of fan 1 = [(3, (1 # 2)%Q); (54, (1 # 2)%Q)] /\
   dcol_of fan 10 = [(7, (1 # 2)%Q); (20, (1 # 2)%Q)] /\ dcol_of fan 12 = [(8, 1%Q)]) /\
  (well_formed three_patches /\ supported SchemeDPatch (itopo three_patches) /\ dsize_of three_patches = (48, 75) /\
   dcol_of three_patches 0 = [(0, (1 # 3)%Q); (16, (1 # 3)%Q); (32, (1 # 3)%Q)] /\
   dcol_of three_patches 1 = [(0, (1 # 2)%Q); (32, (1 # 2)%Q)]).
Proof.
  split; [split; [exact fan_wf|split; [apply fan_dpatch|]]|split; [exact three_patches_wf|split; [apply three_dpatch|]]]; vm_compute; auto 10.
Qed.
