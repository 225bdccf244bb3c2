(** The smoothing matrix of gsSmoothInterfaces: its entries are exactly those
    described by [parents]. *)
From Verif Require Import Common TopoModel BaseModel IndexSpec TopoSpec SmoothSpec
  IndexProofs IndexTopoProofs ListLemmas TopoProofs PointProofs MapperProofs CountProofs.
From Coq Require Import ZifyBool.

(** ** pos_in *)
Lemma pos_in_nth x l : In x l -> nth_error l (pos_in x l) = Some x.
Proof.
  induction l as [|a l IH]; intros H; [contradiction|]. simpl. destruct (dof_eqb x a) eqn:E.
  - apply dof_eqb_eq in E. subst. reflexivity.
  - simpl. apply IH. destruct H as [->|H]; auto.
    rewrite (proj2 (dof_eqb_eq x x) eq_refl) in E. discriminate.
Qed.
Lemma pos_in_lt x l : In x l -> pos_in x l < length l.
Proof. intros H. apply nth_error_Some. rewrite (pos_in_nth x l H). discriminate. Qed.
Lemma pos_in_inj x y l : In x l -> In y l -> pos_in x l = pos_in y l -> x = y.
Proof. intros Hx Hy E. apply pos_in_nth in Hx, Hy. congruence. Qed.
Lemma pos_in_onto r l : r < length l -> NoDup l -> exists x, In x l /\ pos_in x l = r.
Proof.
  revert r. induction l as [|a l IH]; intros r H Hnd; simpl in H; [lia|].
  apply NoDup_cons_iff in Hnd. destruct Hnd as [Ha Hnd]. destruct r as [|r].
  - exists a. split; [left; auto|]. simpl. rewrite (proj2 (dof_eqb_eq a a) eq_refl). reflexivity.
  - destruct (IH r) as (x & Hx & E); try lia; auto. exists x. split; [right; auto|]. simpl.
    destruct (dof_eqb x a) eqn:F; [|congruence]. apply dof_eqb_eq in F. subst. contradiction.
Qed.

Lemma rev_seq a l : rev (seq a l) = map (fun i => 2 * a + l - 1 - i) (seq a l).
Proof.
  induction l as [|l IH]; [reflexivity|].
  rewrite seq_S at 1. rewrite rev_app_distr, IH. cbn [rev app seq map]. f_equal; [lia|].
  rewrite <- seq_shift, map_map. apply map_ext. intros i. lia.
Qed.

(** abstract entries: row point, column point, weight *)
Definition aentry := (pt * pt * Q)%type.
Definition self (x : pt) : aentry := (x, x, 1%Q).

Section X.
Variable I : input.
Hypothesis WF : well_formed I.
Notation t := (itopo I).
Notation bs := (ibases I).
Notation np := (length (ibases I)).
Notation bas := (bas bs).
Notation loc := (loc bs).
Notation pvalid := (pvalid bs).
Notation decode := (decode bs).
Notation elim := (elim I).
Notation rule := (rule I).
Notation c0 := (c0 I).
Notation valence := (valence t).
Notation inner := (inner t).
Notation ifl := (ifl t).
Let Hcons : consistent t := Hcons I WF.
Let Hnp : tnp t = np := Hnp I WF.
Let Hbig : big bs := Hbig I WF.

(** ** Specification of the columns *)
Definition along_ps (ps : pside) : nat := alongb (bas (fst ps)) (snd ps).
Definition across_pos (ps : pside) (fl : bool) (u : nat) : nat :=
  if fl then along_ps ps - 1 - u else u.

Definition cdir (pc : pcorner) (a e : nat) : nat :=
  if (a =? 0) && ifl pc 0 && rule pc e then 0 else 1.

Definition parents (y : pt) : list (pt * Q) :=
  if negb (elim y) then [(y, 1%Q)] else
  match y with
  | PI _ _ _ => []
  | PE ps o u =>
      match glue t ps with
      | Some (ps', fl) => [(PE ps 1 u, half); (PE ps' 1 (across_pos ps fl u), half)]
      | None => []
      end
  | PC pc a e =>
      if inner pc && (a =? 0) && (e =? 0) then
        map (fun c => (PC c 1 1, (1 # Pos.of_nat (valence pc))%Q)) (cls t pc)
      else
        let d := cdir pc a e in
        let k := if d =? 0 then e else a in
        match dnext t (pc, d) with
        | Some (pc', d') => [(dpt pc d k 1, half); (dpt pc' d' k 1, half)]
        | None => []
        end
  end.

Lemma parents_free y : elim y = false -> parents y = [(y, 1%Q)].
Proof. intros H. unfold parents. rewrite H. reflexivity. Qed.

Lemma free_dpt pc d k : d < 2 -> elim (dpt pc d k 1) = (k =? 0) && ifl pc (1 - d) && rule pc 1.
Proof. intros H. destruct d as [|[|]]; simpl; try lia; rewrite ?orb_false_r; reflexivity. Qed.

Lemma free_11 pc : elim (PC pc 1 1) = false.
Proof. reflexivity. Qed.

Lemma rule1 pc : rule pc 1 = true.
Proof. unfold MapperProofs.rule. simpl. rewrite orb_true_r. reflexivity. Qed.

Lemma dnext_cls pc d pc' d' : d < 2 -> dnext t (pc, d) = Some (pc', d') -> In pc' (cls t pc).
Proof.
  intros Hd H. apply (cn_cls t Hcons); [|apply in_cn; eauto].
  apply (dnext_valid t Hcons) in H. tauto.
Qed.
Lemma rule_cls pc pc' k : validc t pc -> In pc' (cls t pc) -> rule pc' k = rule pc k.
Proof.
  intros Hv H. unfold MapperProofs.rule. rewrite (inner_cls t Hcons pc pc' Hv H), (valence_cls t Hcons pc pc' Hv H).
  rewrite (c0_cls I WF pc pc' Hv H). reflexivity.
Qed.
Lemma ifl_next pc d : ifl pc d = true <-> exists pc' d', dnext t (pc, d) = Some (pc', d').
Proof.
  unfold TopoProofs.ifl. rewrite dnext_iface. split; [intros ([c d'] & H); eauto|intros (c & d' & H); eauto].
Qed.

(** smooth side rule holds at (0,0) without being interior: valence-2 smooth vertex *)
Lemma rule0_other pc d : validc t pc -> d < 2 -> inner pc = false -> rule pc 0 = true -> ifl pc d = true ->
  ifl pc (1 - d) = false.
Proof.
  intros Hv Hd Hi Hr Hf. unfold MapperProofs.rule in Hr. rewrite Hi in Hr. simpl in Hr.
  apply andb_prop in Hr. destruct Hr as [Hr _]. apply Nat.eqb_eq in Hr.
  pose proof (val2_boundary t Hcons pc Hv Hi Hr) as H.
  destruct d as [|[|]]; try lia; simpl in *; rewrite Hf in H; destruct (ifl pc 0), (ifl pc 1); simpl in *; congruence.
Qed.

Lemma parents_dart pc d k pc' d' : validc t pc -> d < 2 -> k < 2 ->
  dnext t (pc, d) = Some (pc', d') -> rule pc k = true -> (k = 1 \/ inner pc = false) ->
  parents (dpt pc d k 0) = [(dpt pc d k 1, half); (dpt pc' d' k 1, half)].
Proof.
  intros Hv Hd Hk Hn Hr Hc.
  assert (ifl pc d = true) as Hf by (apply ifl_next; eauto).
  assert (elim (dpt pc d k 0) = true) as He.
  { apply elim_dpt; auto. left. rewrite Hf, Hr. reflexivity. }
  assert (inner pc && (k =? 0) = false) as Hik.
  { destruct Hc as [->| ->]; [apply andb_false_r|reflexivity]. }
  unfold parents. rewrite He. cbn [negb].
  destruct d as [|[|]]; try lia; cbn [dpt].
  - rewrite andb_true_r. rewrite Hik. unfold cdir. cbn [Nat.eqb]. rewrite Hf, Hr. cbn [andb Nat.eqb].
    rewrite Hn. reflexivity.
  - replace (inner pc && (k =? 0) && (0 =? 0)) with false by (rewrite Hik; reflexivity).
    assert (cdir pc k 0 = 1) as ->.
    { unfold cdir. destruct k as [|k]; [|reflexivity]. cbn [Nat.eqb andb].
      destruct Hc as [Hc|Hc]; [discriminate|].
      pose proof (rule0_other pc 1 Hv ltac:(lia) Hc Hr Hf) as G. simpl in G. rewrite G. reflexivity. }
    cbn [Nat.eqb]. rewrite Hn. reflexivity.
Qed.

Lemma parents_00 pc : validc t pc -> inner pc = true ->
  parents (PC pc 0 0) = map (fun c => (PC c 1 1, (1 # Pos.of_nat (valence pc))%Q)) (cls t pc).
Proof.
  intros Hv Hi. assert (elim (PC pc 0 0) = true) as He.
  { simpl. unfold TopoProofs.ifl, MapperProofs.rule. rewrite (inner_iface t Hcons pc 0 Hv Hi), Hi. reflexivity. }
  unfold parents. rewrite He, Hi. reflexivity.
Qed.

Lemma parents_strip ps u ps' fl : glue t ps = Some (ps', fl) ->
  parents (PE ps 0 u) = [(PE ps 1 u, half); (PE ps' 1 (across_pos ps fl u), half)].
Proof.
  intros H. unfold parents. assert (elim (PE ps 0 u) = true) as ->.
  { simpl. apply (isInterface_glue t). eauto. }
  cbn [negb]. rewrite H. reflexivity.
Qed.

(** every eliminated point of a corner block is of one of the two kinds *)
Lemma elim_corner_cases pc a e : validc t pc -> a < 2 -> e < 2 -> elim (PC pc a e) = true ->
  (inner pc = true /\ a = 0 /\ e = 0) \/
  exists d k pc' d', d < 2 /\ k < 2 /\ PC pc a e = dpt pc d k 0 /\ dnext t (pc, d) = Some (pc', d') /\
    rule pc k = true /\ (k = 1 \/ inner pc = false).
Proof.
  intros Hv Ha He H.
  assert (forall d k, d < 2 -> k < 2 -> PC pc a e = dpt pc d k 0 -> ifl pc d = true -> rule pc k = true ->
    (inner pc = true /\ a = 0 /\ e = 0) \/
    exists d k pc' d', d < 2 /\ k < 2 /\ PC pc a e = dpt pc d k 0 /\ dnext t (pc, d) = Some (pc', d') /\
      rule pc k = true /\ (k = 1 \/ inner pc = false)) as K.
  { intros d k Hd Hk E Hf Hr. apply ifl_next in Hf. destruct Hf as (pc' & d' & Hn).
    destruct (inner pc) eqn:Hi.
    - destruct k as [|k].
      + left. destruct d as [|[|]]; simpl in E; injection E; auto; lia.
      + right. exists d, (S k), pc', d'. repeat split; auto. left. lia.
    - right. exists d, k, pc', d'. auto 10. }
  simpl in H. apply orb_prop in H. destruct H as [H|H]; apply andb_prop in H; destruct H as [H H2];
    apply andb_prop in H; destruct H as [H0 H1]; apply Nat.eqb_eq in H0; subst.
  - apply (K 0 e); auto; lia.
  - apply (K 1 a); auto; lia.
Qed.

Lemma across_pos_bounds ps u fl : 2 <= u < along_ps ps - 2 -> 2 <= across_pos ps fl u < along_ps ps - 2.
Proof. intros H. unfold across_pos. destruct fl; lia. Qed.

Lemma glue_along ps ps' fl : glue t ps = Some (ps', fl) -> along_ps ps = along_ps ps'.
Proof.
  intros H. pose proof (glue_valid t Hcons _ _ _ H) as [V V']. rewrite Hnp in V, V'.
  apply (glue_some t Hcons) in H. destruct H as (f & Hf & _ & E). unfold along_ps, alongb.
  assert (forall p, p < np -> nth_error bs p = Some (bas p)) as N.
  { intros p Hp. unfold PointProofs.bas. apply nth_error_nth'. exact Hp. }
  destruct E as [[<- <-]|[<- <-]]; [|symmetry]; apply (wf_match I WF f); auto.
Qed.

(** points appearing as parents are valid and free *)
Lemma parents_ok y x w : pvalid y -> In (x, w) (parents y) -> pvalid x /\ elim x = false.
Proof.
  intros Hy Hx. destruct (elim y) eqn:He.
  2:{ rewrite parents_free in Hx by exact He. destruct Hx as [[= <- <-]|[]]. auto. }
  destruct y as [p i j|ps o u|pc a e]; [discriminate| |].
  - simpl in He. apply andb_prop in He. destruct He as [Ho Hif]. apply Nat.eqb_eq in Ho. subst o.
    apply (isInterface_glue t) in Hif. destruct Hif as (ps' & fl & G).
    rewrite (parents_strip ps u ps' fl G) in Hx.
    pose proof (glue_valid t Hcons _ _ _ G) as [V V']. rewrite Hnp in V, V'.
    simpl in Hy. destruct Hy as (Hp & _ & Hu). fold (along_ps ps) in Hu.
    destruct Hx as [[= <- <-]|[[= <- <-]|[]]]; simpl; (split; [|reflexivity]).
    + fold (along_ps ps). repeat split; auto; lia.
    + fold (along_ps ps'). rewrite <- (glue_along _ _ _ G).
      pose proof (across_pos_bounds ps u fl Hu). repeat split; auto; lia.
  - destruct Hy as (Hp & Ha & He'). assert (validc t pc) as Hv by (apply (validc_np I WF); exact Hp).
    destruct (elim_corner_cases pc a e Hv Ha He' He) as [(Hi & -> & ->)|(d & k & pc' & d' & Hd & Hk & Ed & Hn & Hr & Hc)].
    + rewrite parents_00 in Hx by auto. apply in_map_iff in Hx. destruct Hx as (c & [= <- <-] & Hc).
      split; [|reflexivity]. simpl. repeat split; try lia. apply (validc_np I WF). apply (cls_valid t Hcons pc c Hv Hc).
    + rewrite Ed, (parents_dart pc d k pc' d') in Hx by auto.
      assert (validc t pc' /\ d' < 2) as [Hv' Hd'].
      { split; [apply (dnext_valid t Hcons) in Hn; tauto|eapply dnext_dir; eauto]. }
      assert (forall q z, validc t q -> z < 2 -> In q (cls t pc) -> ifl q z = true -> elim (dpt q z k 1) = false) as F.
      { intros q z Hq Hz Hcl Hfl. rewrite free_dpt by auto. destruct k as [|[|]]; [|reflexivity|lia].
        destruct Hc as [Hc|Hc]; [discriminate|].
        rewrite (rule0_other q z); auto.
        - rewrite (inner_cls t Hcons pc q); auto.
        - rewrite (rule_cls pc q 0); auto. }
      destruct Hx as [[= <- <-]|[[= <- <-]|[]]]; (split; [apply dpt_valid; auto; apply (validc_np I WF); auto|apply F; auto]).
      * apply (cls_self t Hcons); auto.
      * apply ifl_next; eauto.
      * apply (dnext_cls pc d pc' d'); auto.
      * apply ifl_next. exists pc, d. apply (dnext_sym t Hcons); auto.
Qed.

Lemma parents_nodup y : pvalid y -> NoDup (map fst (parents y)).
Proof.
  intros Hy. destruct (elim y) eqn:He.
  2:{ rewrite parents_free by exact He. simpl. constructor; [intros []|constructor]. }
  destruct y as [p i j|ps o u|pc a e]; [discriminate| |].
  - simpl in He. apply andb_prop in He. destruct He as [Ho Hif]. apply Nat.eqb_eq in Ho. subst o.
    apply (isInterface_glue t) in Hif. destruct Hif as (ps' & fl & G).
    rewrite (parents_strip ps u ps' fl G). simpl. pose proof (glue_neq t Hcons _ _ _ G) as N.
    constructor; [|constructor; [intros []|constructor]]. intros [[= E _]|[]]. congruence.
  - destruct Hy as (Hp & Ha & He'). assert (validc t pc) as Hv by (apply (validc_np I WF); exact Hp).
    destruct (elim_corner_cases pc a e Hv Ha He' He) as [(Hi & -> & ->)|(d & k & pc' & d' & Hd & Hk & Ed & Hn & Hr & Hc)].
    + rewrite parents_00 by auto. rewrite map_map. simpl.
      apply FinFun.Injective_map_NoDup; [intros x y [= ->]; reflexivity|]. apply (cls_nodup t Hcons); auto.
    + rewrite Ed, (parents_dart pc d k pc' d') by auto. simpl.
      pose proof (dnext_neq t Hcons _ _ _ _ Hd Hn) as N.
      constructor; [|constructor; [intros []|constructor]]. intros [E|[]]. apply N.
      destruct d, d'; simpl in E; injection E; congruence.
Qed.

Lemma parents_sum y : pvalid y -> (sumQ (map snd (parents y)) == 1)%Q.
Proof.
  intros Hy. destruct (elim y) eqn:He.
  2:{ rewrite parents_free by exact He. reflexivity. }
  destruct y as [p i j|ps o u|pc a e]; [discriminate| |].
  - simpl in He. apply andb_prop in He. destruct He as [Ho Hif]. apply Nat.eqb_eq in Ho. subst o.
    apply (isInterface_glue t) in Hif. destruct Hif as (ps' & fl & G).
    rewrite (parents_strip ps u ps' fl G). reflexivity.
  - destruct Hy as (Hp & Ha & He'). assert (validc t pc) as Hv by (apply (validc_np I WF); exact Hp).
    destruct (elim_corner_cases pc a e Hv Ha He' He) as [(Hi & -> & ->)|(d & k & pc' & d' & Hd & Hk & Ed & Hn & Hr & Hc)].
    + rewrite parents_00 by auto. rewrite map_map. simpl.
      assert (1 <= valence pc) as V1.
      { unfold TopoProofs.valence. pose proof (cls_self t Hcons pc Hv). destruct (cls t pc); [contradiction|simpl; lia]. }
      assert (forall (q : Q) (l : list pcorner), (sumQ (map (fun _ => q) l) == inject_Z (Z.of_nat (length l)) * q)%Q) as S.
      { intros q l. induction l as [|z l IH]; cbn [map sumQ length]; [ring|]. rewrite IH, Nat2Z.inj_succ.
        unfold Z.succ. rewrite inject_Z_plus. ring. }
      rewrite S. change (length (cls t pc)) with (valence pc).
      assert (Z.of_nat (valence pc) = Z.pos (Pos.of_nat (valence pc))) as ->.
      { rewrite <- positive_nat_Z, Nat2Pos.id by lia. reflexivity. }
      unfold Qeq. simpl. lia.
    + rewrite Ed, (parents_dart pc d k pc' d') by auto. reflexivity.
Qed.

Lemma parents_weight y x w : pvalid y -> In (x, w) (parents y) -> (0 <= w <= 1)%Q.
Proof.
  intros Hy Hx. destruct (elim y) eqn:He.
  2:{ rewrite parents_free in Hx by exact He. destruct Hx as [[= <- <-]|[]]. split; discriminate. }
  assert (0 <= half <= 1)%Q as Hh by (split; discriminate).
  destruct y as [p i j|ps o u|pc a e]; [discriminate| |].
  - simpl in He. apply andb_prop in He. destruct He as [Ho Hif]. apply Nat.eqb_eq in Ho. subst o.
    apply (isInterface_glue t) in Hif. destruct Hif as (ps' & fl & G).
    rewrite (parents_strip ps u ps' fl G) in Hx. destruct Hx as [[= <- <-]|[[= <- <-]|[]]]; exact Hh.
  - destruct Hy as (Hp & Ha & He'). assert (validc t pc) as Hv by (apply (validc_np I WF); exact Hp).
    destruct (elim_corner_cases pc a e Hv Ha He' He) as [(Hi & -> & ->)|(d & k & pc' & d' & Hd & Hk & Ed & Hn & Hr & Hc)].
    + rewrite parents_00 in Hx by auto. apply in_map_iff in Hx. destruct Hx as (c & [= <- <-] & _).
      unfold Qle; simpl. lia.
    + rewrite Ed, (parents_dart pc d k pc' d') in Hx by auto. destruct Hx as [[= <- <-]|[[= <- <-]|[]]]; exact Hh.
Qed.

End X.
