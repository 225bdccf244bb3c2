(** Tensor-product bases are ring-like. *)
From Verif Require Import Common TopoModel BaseModel IndexSpec TopoSpec SmoothSpec SmoothSpec2 BaseModel2
  IndexProofs ListLemmas TopoProofs PointProofs RingModel RingSpec.
From Coq Require Import ZifyBool.

Lemma grid_inj n i j i' j' : i < n -> i' < n -> i + n * j = i' + n * j' -> i = i' /\ j = j'.
Proof. intros H H' E. assert (j = j') by nia. subst. lia. Qed.

Section T.
Variables n0 n1 : nat.
Hypotheses (H0 : 4 <= n0) (H1 : 4 <= n1).
Let b : tbasis := (n0, n1).

Lemma in_boundaryOffset s o x : o < 2 ->
  In x (boundaryOffset b s o) <-> exists i j, i < n0 /\ j < n1 /\ x = i + n0 * j /\ rows_inward s n0 n1 i j = o.
Proof.
  intros Ho. unfold boundaryOffset, tindex, b, rows_inward. simpl fst. simpl snd.
  destruct s; rewrite in_map_iff; (split; [intros (y & <- & Hy); apply in_seq in Hy|intros (i & j & Hi & Hj & -> & E)]).
  - exists o, y. lia.
  - exists j. split; [lia|apply in_seq; lia].
  - exists (n0 - 1 - o), y. lia.
  - exists j. split; [nia|apply in_seq; lia].
  - exists y, o. lia.
  - exists i. split; [lia|apply in_seq; lia].
  - exists y, (n1 - 1 - o). lia.
  - exists i. split; [nia|apply in_seq; lia].
Qed.

Lemma in_bo_grid s o i j : o < 2 -> i < n0 -> j < n1 ->
  In (i + n0 * j) (boundaryOffset b s o) <-> rows_inward s n0 n1 i j = o.
Proof.
  intros Ho Hi Hj. rewrite in_boundaryOffset by exact Ho. split.
  - intros (i' & j' & Hi' & Hj' & E & R). apply grid_inj in E; auto. destruct E as [-> ->]. exact R.
  - intros R. exists i, j. auto.
Qed.

Lemma boundaryOffset_nodup s o : o < 2 -> NoDup (boundaryOffset b s o).
Proof.
  intros Ho. unfold boundaryOffset, tindex, b. simpl fst. simpl snd.
  destruct s; apply FinFun.Injective_map_NoDup; try apply seq_NoDup; intros x y E; nia.
Qed.

Lemma ring_of_like : ring_like (ring_of b).
Proof.
  constructor; simpl.
  - intros s o. apply boundaryOffset_nodup.
  - intros s o x Ho Hx. apply in_boundaryOffset in Hx; auto. destruct Hx as (i & j & Hi & Hj & -> & _).
    unfold tsize, b. simpl. nia.
  - intros s. rewrite !boundaryOffset_length. reflexivity.
  - intros s o s' o' x Ho Ho' Hd Hn Hx Hx'. apply in_boundaryOffset in Hx; auto. destruct Hx as (i & j & Hi & Hj & -> & R).
    apply in_bo_grid in Hx'; auto. apply Hn. destruct s, s'; simpl in *; try discriminate; f_equal; lia.
  - intros c s s' k o x Ht Ht' Hs Hk Ho.
    assert (k < along s n0 n1) as K by (destruct s; simpl; lia).
    assert (o < across s n0 n1) as O by (destruct s; simpl; lia).
    destruct (indexFromVert_position n0 n1 c s k o Ht K O) as (i & j & Hi & Hj & E & R & S). unfold b. rewrite E. fold b.
    split.
    + intros [Hx Hx']. apply in_boundaryOffset in Hx; auto. destruct Hx as (i' & j' & Hi' & Hj' & -> & R').
      apply in_bo_grid in Hx'; auto.
      assert (i' = i /\ j' = j) as [-> ->]; [|reflexivity].
      destruct c, s, s'; simpl in *; try contradiction; try congruence; lia.
    + intros ->. rewrite !in_bo_grid by auto. split; [exact R|].
      destruct c, s, s'; simpl in *; try contradiction; try congruence; lia.
  - intros c s Ht. unfold indexFromVert. simpl. reflexivity.
Qed.
End T.

(** the input of SmoothSpec, with its bases seen through the four functions *)
Definition ring_input_of (I : input) : rinput := mkRI (itopo I) (map ring_of (ibases I)) (iC0 I).

Lemma ring_input_of_ok I : well_formed I -> ring_input (ring_input_of I).
Proof.
  intros W. constructor; simpl; rewrite ?map_length.
  - apply W.
  - apply W.
  - intros b Hb. apply in_map_iff in Hb. destruct Hb as (b' & <- & Hb'). destruct b' as [n0 n1].
    destruct (wf_big I W _ Hb'). apply ring_of_like; auto.
  - apply W.
  - apply W.
  - rewrite map_map. apply (wf_fits I W).
Qed.
