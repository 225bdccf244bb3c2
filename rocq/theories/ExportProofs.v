(** Proofs for C43: exporting is a projection. *)
From Verif Require Import Common TopoModel BaseModel BaseModel2 IndexSpec TopoSpec SmoothSpec SmoothSpec2 BaseSpec2
  ListLemmas IndexProofs TopoProofs PointProofs MapperProofs CountProofs ResultProofs GeometryProofs BaseProofs2.
From Coq Require Import ZifyBool.

Lemma upd_app {A} (l l' : list A) x y : upd (l ++ x :: l') (length l) y = l ++ y :: l'.
Proof. induction l; simpl; congruence. Qed.

Definition at_dof {A} (d : A) (P : list (list A)) (x : dof) : A := nth (snd x) (nth (fst x) P []) d.

(** the rows of the free functions, in order *)
Lemma preCoefficients_ok {A} (d : A) (m : mapper) (P : list (list A)) : NoDup (all_dofs m) -> map (@length A) P = msizes m ->
  (forall x, In x (all_dofs m) -> valid_dof m x = true) ->
  preCoefficients m P = Ok (map (at_dof d P) (free_list m)).
Proof.
  intros HN HP HV. unfold preCoefficients.
  match goal with |- context [foldM ?f ?l ?s] =>
    destruct (foldM_inv (fun pre (v : list (option A)) =>
      v = map (fun x => Some (at_dof d P x)) (filter (is_free_dof m) pre) ++ repeat None (freeSize m - length (filter (is_free_dof m) pre))) f l s) as (v & E & Hv) end.
  - simpl. rewrite Nat.sub_0_r. reflexivity.
  - intros pre [p k] post v E Hv.
    assert (valid_dof m (p, k) = true) as Hk by (apply HV; rewrite E; apply in_elt).
    rewrite filter_app. unfold is_free. cbn [filter]. destruct (is_free_dof m (p, k)) eqn:F.
    + unfold mindex, is_free. rewrite Hk, F. cbn [bind].
      assert (pos_in (p, k) (free_list m) = length (filter (is_free_dof m) pre)) as Ep.
      { unfold free_list. rewrite E, filter_app. cbn [filter]. rewrite F.
        rewrite pos_in_app_r; [|intros G; apply filter_In in G; rewrite E in HN; apply NoDup_remove_2 in HN; apply HN, in_app_iff; left; tauto].
        simpl. unfold dof_eqb. simpl. rewrite !Nat.eqb_refl. simpl. lia. }
      rewrite Ep.
      assert (length (filter (is_free_dof m) pre) < freeSize m) as Hlt.
      { unfold freeSize, free_list. rewrite E, filter_app, app_length. cbn [filter]. rewrite F. simpl. lia. }
      unfold valid_dof in Hk. simpl in Hk. destruct (nth_error (msizes m) p) as [n|] eqn:En; [|discriminate].
      rewrite <- HP, nth_error_map in En. destruct (nth_error P p) as [cs|] eqn:Ec; [|discriminate]. simpl in En. injection En as En.
      unfold vget. rewrite Ec. cbn [bind]. destruct (nth_error cs k) as [row|] eqn:Er; [|apply nth_error_None in Er; lia].
      cbn [bind]. eexists. split; [apply vset_ok; subst v; rewrite app_length, map_length, repeat_length; lia|].
      subst v. rewrite map_app. rewrite <- app_assoc.
      destruct (freeSize m - length (filter (is_free_dof m) pre)) as [|q] eqn:Eq; [lia|]. simpl repeat.
      rewrite <- (map_length (fun x => Some (at_dof d P x)) (filter (is_free_dof m) pre)), upd_app.
      rewrite app_length. f_equal. simpl. rewrite ?map_length.
      assert (freeSize m - (length (filter (is_free_dof m) pre) + 1) = q) as -> by lia. f_equal.
      unfold at_dof. simpl. rewrite (nth_error_nth P p [] Ec), (nth_error_nth cs k d Er). reflexivity.
    + exists v. split; auto. rewrite app_nil_r. auto.
  - rewrite E. cbn [bind]. subst v. fold (free_list m). fold (freeSize m). rewrite Nat.sub_diag. simpl repeat. rewrite app_nil_r.
    induction (free_list m) as [|x l IH]; [reflexivity|]. simpl. simpl in IH. rewrite IH. reflexivity.
Qed.

Lemma combine_seq_nth (v : list Q) n : n = length v -> combine (seq 0 n) v = map (fun r => (r, nth r v 0%Q)) (seq 0 n).
Proof.
  intros ->. assert (forall a w, combine (seq a (length w)) w = map (fun r => (r, nth (r - a) w 0%Q)) (seq a (length w))) as X.
  { intros a w. revert a. induction w as [|x w IH]; intros a; simpl; auto. rewrite Nat.sub_diag. f_equal. rewrite IH.
    apply map_ext_in. intros r Hr. apply in_seq in Hr. f_equal. destruct (r - a) as [|q] eqn:E; [lia|]. simpl. f_equal. lia. }
  rewrite X. apply map_ext. intros r. rewrite Nat.sub_0_r. auto.
Qed.

Lemma transposeTimes_control R v : length v = rRows R ->
  transposeTimes R v = map (control R (fun r => nth r v 0%Q)) (seq 0 (rCols R)).
Proof.
  intros L. unfold transposeTimes. apply map_ext. intros c. unfold control. rewrite combine_seq_nth, map_map by auto. reflexivity.
Qed.

Lemma control_ext R f g c : (forall r, r < rRows R -> (f r == g r)%Q) -> (control R f c == control R g c)%Q.
Proof. intros H. unfold control. apply sumQ_map_ext. intros r Hr. apply in_seq in Hr. rewrite H by lia. reflexivity. Qed.

Lemma concat_nth {A} (d : A) (bl : list (list A)) p k : p < length bl -> k < length (nth p bl []) ->
  nth (sumN (firstn p (map (@length A) bl)) + k) (concat bl) d = nth k (nth p bl []) d.
Proof.
  revert p. induction bl as [|b bl IH]; intros p Hp Hk; simpl in *; [lia|].
  destruct p as [|p]; simpl.
  - apply app_nth1. auto.
  - rewrite app_nth2 by lia. replace _ with (sumN (firstn p (map (@length A) bl)) + k) by lia. apply IH; auto. lia.
Qed.

Lemma Forall2_length {A B} (P : A -> B -> Prop) l l' : Forall2 P l l' -> length l = length l'.
Proof. induction 1; simpl; auto. Qed.

Lemma same_values_blocks a b sizes : same_values a b -> length a = sumN sizes ->
  forall ba bb, concat ba = a -> concat bb = b -> map (@length Q) ba = sizes -> map (@length Q) bb = sizes ->
  Forall2 same_values ba bb.
Proof.
  intros H L ba. revert a b sizes H L. induction ba as [|x ba IH]; intros a b sizes H L bb Ea Eb La Lb; subst; simpl in *.
  - destruct bb; [constructor|discriminate].
  - destruct bb as [|y bb]; [discriminate|]. simpl in *. injection Lb as L1 L2.
    apply Forall2_app_inv_l in H. destruct H as (l1 & l2 & H1 & H2 & E).
    assert (length l1 = length x) as L3 by (symmetry; eapply Forall2_length; eauto).
    assert (y = l1 /\ concat bb = l2) as [-> <-].
    { assert (length y = length l1) as L4 by congruence. clear - E L4. revert l1 E L4. induction y as [|a y IH]; intros [|c l1] E L4; simpl in *; try discriminate; auto.
      injection E as -> E. destruct (IH l1 E) as [-> ->]; [lia|]. auto. }
    constructor; auto. eapply IH; [exact H2| | | | |]; eauto. rewrite app_length in L. lia.
Qed.

Section Project.
Variable I : input.
Variable WF : well_formed I.
Variables (m : mapper) (R : result).
Hypothesis Em : computeMapper I = Ok m.
Hypothesis E : compute I = Ok R.
Notation bs := (ibases I).
Notation sizes := (map tsize bs).

Lemma R_facts : rMap R = m /\ msizes m = sizes /\ rRows R = freeSize m /\ rCols R = sumN sizes.
Proof.
  destruct (compute_ok I WF) as (m' & R' & Em' & E' & HR). rewrite Em in Em'. rewrite E in E'.
  injection Em' as <-. injection E' as <-. destruct (computeMapper_ok I WF) as (m2 & E2 & S2 & _).
  rewrite Em in E2. injection E2 as <-.
  destruct HR as (H1 & H2 & H3 & _). split; auto. split; auto. split; auto. rewrite H2.
  unfold freeSize, free_list. rewrite filter_all by reflexivity. apply dofs_from_length.
Qed.

Lemma exported_ok P : map (@length Q) P = sizes ->
  exported R P = Ok (transposeTimes R (map (at_dof 0%Q P) (free_list m))).
Proof.
  intros HP. unfold exported. destruct R_facts as (-> & Hm & _). rewrite (preCoefficients_ok 0%Q); auto.
  - apply (all_dofs_nodup I m); auto.
  - congruence.
  - intros x Hx. apply (valid_dof_iff I m x Hm). apply (in_all_dofs I WF m x Hm); auto.
Qed.

Lemma own_value v p k : length v = rRows R -> In (p, k) (free_list m) ->
  (nth (sumN (map tsize (firstn p bs)) + k) (transposeTimes R v) 0 == nth (pos_in (p, k) (free_list m)) v 0)%Q.
Proof.
  intros L H. destruct R_facts as (Hmap & Hm & HR & HC).
  unfold free_list in H. apply filter_In in H. destruct H as [H1 H2].
  apply (in_all_dofs I WF m _ Hm) in H1. destruct H1 as [H1 H3]. simpl in H1, H3.
  destruct (all_handled I WF) as (m' & R' & Em' & E' & _ & _ & H). rewrite Em in Em'. rewrite E in E'.
  injection Em' as <-. injection E' as <-.
  destruct (H p k H1 H3 H2) as (r & Er & Hr & Hd).
  assert (r = pos_in (p, k) (free_list m)) as <-.
  { unfold mindex in Er. unfold is_free in *. rewrite H2 in Er. destruct (valid_dof m (p, k)); [|discriminate]. congruence. }
  rewrite transposeTimes_control by auto. set (c := sumN _ + k) in *.
  assert (c < rCols R) as Hc.
  { rewrite HC. unfold c. clear - H1 H3. unfold bas in H3. revert p H1 H3. induction (ibases I) as [|b l IH]; intros p H1 H3; simpl in *; [lia|].
    destruct p as [|p]; simpl; [lia|]. specialize (IH p). lia. }
  rewrite (nth_indep _ 0%Q (control R (fun r => nth r v 0%Q) 0)) by (rewrite map_length, seq_length; auto).
  rewrite map_nth, seq_nth by auto. simpl. unfold control.
  rewrite (sumQ_single _ _ r); [rewrite Hd, Nat.eqb_refl by auto; ring|apply seq_NoDup|apply in_seq; lia|].
  intros r' Hr' Hne. apply in_seq in Hr'. rewrite Hd by lia. assert (r' =? r = false) as -> by lia. ring.
Qed.

Lemma free_nth i : i < freeSize m -> exists p k, nth_error (free_list m) i = Some (p, k) /\ pos_in (p, k) (free_list m) = i.
Proof.
  intros Hi. destruct (nth_error (free_list m) i) as [[p k]|] eqn:En; [|apply nth_error_None in En; unfold freeSize in Hi; lia].
  exists p, k. split; auto. assert (NoDup (free_list m)) as N by (apply NoDup_filter, (all_dofs_nodup I m), R_facts).
  revert i Hi En N. generalize (free_list m). induction l as [|x l IH]; intros [|i] Hi En N; simpl in *; try discriminate.
  - injection En as ->. unfold dof_eqb. simpl. rewrite !Nat.eqb_refl. reflexivity.
  - inversion N; subst. unfold dof_eqb. destruct x as [a b]. simpl.
    destruct ((p =? a) && (k =? b)) eqn:F.
    + assert (p = a /\ k = b) as [-> ->] by lia. apply nth_error_In in En. contradiction.
    + f_equal. apply (IH i); auto. lia.
Qed.

(** coefficients read back from exported patches are those exported *)
Lemma read_back v P : length v = rRows R -> concat P = transposeTimes R v -> map (@length Q) P = sizes ->
  same_values (map (at_dof 0%Q P) (free_list m)) v.
Proof.
  intros L HP HL. destruct R_facts as (Hmap & Hm & HR & HC).
  assert (forall i, i < freeSize m -> (nth i (map (at_dof 0%Q P) (free_list m)) 0 == nth i v 0)%Q) as X.
  { intros i Hi. destruct (free_nth i Hi) as (p & k & En & Ep).
    assert (In (p, k) (free_list m)) as Hin by (eapply nth_error_In; eauto).
    pose proof (own_value v p k L Hin) as G. rewrite Ep in G. rewrite <- G.
    rewrite (nth_indep _ 0%Q (at_dof 0%Q P (0, 0))) by (rewrite map_length; auto). rewrite map_nth.
    rewrite (nth_error_nth _ _ _ En). unfold at_dof. simpl fst; simpl snd.
    unfold free_list in Hin. apply filter_In in Hin. destruct Hin as [H1 _]. apply (in_all_dofs I WF m _ Hm) in H1. destruct H1 as [H1 H3]. simpl in H1, H3.
    rewrite <- HP, <- firstn_map, <- HL, concat_nth; [reflexivity| |].
    - apply (f_equal (@length nat)) in HL. rewrite !map_length in HL. unfold dof in *. lia.
    - assert (nth p (map (@length Q) P) (length (@nil Q)) = tsize (bas bs p)) as G2.
      { rewrite HL. unfold bas. rewrite (nth_indep _ _ (tsize (0, 0))) by (rewrite map_length; auto). apply map_nth. }
      rewrite map_nth in G2. rewrite G2. auto. }
  assert (length (map (at_dof 0%Q P) (free_list m)) = length v) as L2 by (rewrite map_length; fold (freeSize m); lia).
  assert (forall a b : list Q, length a = length b -> (forall i, i < length a -> (nth i a 0 == nth i b 0)%Q) -> same_values a b) as Y.
  { clear. induction a as [|x a IH]; intros [|y b] L H; try discriminate; constructor.
    - apply (H 0%nat). simpl; lia.
    - apply IH; [simpl in L; lia|]. intros i Hi. apply (H (S i)). simpl; lia. }
  apply Y; auto. intros i Hi. apply X. rewrite map_length in Hi. exact Hi.
Qed.

Lemma transposeTimes_ext v w : length v = rRows R -> same_values v w -> same_values (transposeTimes R v) (transposeTimes R w).
Proof.
  intros L H. assert (length w = rRows R) as L2 by (rewrite <- L; symmetry; eapply Forall2_length; eauto).
  rewrite !transposeTimes_control by auto.
  assert (forall r, (nth r v 0 == nth r w 0)%Q) as X.
  { clear - H. induction H; intros [|r]; simpl; auto; reflexivity. }
  induction (seq 0 (rCols R)); constructor; auto. apply control_ext. auto.
Qed.

Lemma transposeTimes_length v : length (transposeTimes R v) = sumN sizes.
Proof. destruct R_facts as (_ & _ & _ & HC). unfold transposeTimes. rewrite map_length, seq_length. auto. Qed.

Lemma export_nonempty v : bs <> [] -> transposeTimes R v <> [].
Proof.
  intros Hb G. apply (f_equal (@length Q)) in G. rewrite transposeTimes_length in G. simpl in G.
  pose proof (wf_big I WF) as Big. destruct bs as [|b l]; [congruence|]. destruct (Big b (or_introl eq_refl)).
  simpl in G. unfold tsize in G. nia.
Qed.

(** exporting a smooth function reproduces it *)
Lemma export_reproduces v P : bs <> [] -> length v = rRows R -> concat P = transposeTimes R v -> map (@length Q) P = sizes ->
  forall fresh c, exists P' c', exportToPatches fresh (exported R P) sizes c = Ok (P', c') /\ Forall2 same_values P' P.
Proof.
  intros Hb L HP HL fresh c. rewrite exported_ok by auto.
  pose proof (read_back v P L HP HL) as H. destruct R_facts as (_ & _ & HR & _).
  assert (length (map (at_dof 0%Q P) (free_list m)) = rRows R) as L2 by (rewrite map_length; fold (freeSize m); auto).
  pose proof (transposeTimes_ext _ _ L2 H) as X.
  destruct (export_all fresh sizes (transposeTimes R (map (at_dof 0%Q P) (free_list m))) c) as (bl & Eb & C & Lb).
  - apply export_nonempty; auto.
  - apply transposeTimes_length.
  - exists bl. eexists. split; [exact Eb|]. eapply same_values_blocks; [exact X|apply transposeTimes_length| | | |]; auto.
Qed.

Lemma export_projects P : bs <> [] -> map (@length Q) P = sizes ->
  forall fresh c c2, exists P1 c1 P2 c2', exportToPatches fresh (exported R P) sizes c = Ok (P1, c1) /\
    exportToPatches fresh (exported R P1) sizes c2 = Ok (P2, c2') /\ Forall2 same_values P2 P1.
Proof.
  intros Hb HL fresh c c2. destruct R_facts as (_ & _ & HR & _).
  destruct (export_all fresh sizes (transposeTimes R (map (at_dof 0%Q P) (free_list m))) c) as (bl & Eb & C & Lb).
  - apply export_nonempty; auto.
  - apply transposeTimes_length.
  - destruct (export_reproduces (map (at_dof 0%Q P) (free_list m)) bl Hb) with (fresh := fresh) (c := c2) as (P2 & c3 & E2 & H2); auto.
    { rewrite map_length; fold (freeSize m); auto. }
    exists bl. eexists. exists P2, c3. split; [rewrite exported_ok by auto; exact Eb|]. split; auto.
Qed.
End Project.
