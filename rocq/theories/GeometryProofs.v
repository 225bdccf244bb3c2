(** Smoothness of the exported geometry: statements C05 and C06. *)
From Verif Require Import Common TopoModel BaseModel IndexSpec TopoSpec SmoothSpec SmoothSpec2
  IndexProofs IndexTopoProofs ListLemmas TopoProofs PointProofs MapperProofs CountProofs MatrixProofs HandlerProofs ResultProofs SmoothExamples.
From Coq Require Import ZifyBool.

Section V.
Variable t : topo.
Hypothesis Hcons : consistent t.

Lemma dnext_corner_at ps ps' fl b : glue t ps = Some (ps', fl) ->
  dnext t ((fst ps, corner_at (snd ps) b), side_dir (snd ps)) =
  Some ((fst ps', corner_at (snd ps') (xorb fl b)), side_dir (snd ps')).
Proof.
  intros G. unfold dnext. rewrite (cside_of_on _ _ (on_side_corner_at (snd ps) b)).
  replace (fst ps, snd ps) with ps by (destruct ps; reflexivity). rewrite G.
  unfold mapc. rewrite pos_on_corner_at. reflexivity.
Qed.

Lemma glued_cn a b : glued_corners t a b -> In b (cn t a).
Proof.
  intros (f & u & Hf & -> & ->). apply in_cn. exists (side_dir (snd (if1 f))), (side_dir (snd (if2 f))).
  split; [apply side_dir_lt|]. apply dnext_corner_at. apply (glue_some t Hcons). exists f. auto.
Qed.

Lemma cn_glued' c c' : In c' (cn t c) -> glued_corners t c c' \/ glued_corners t c' c.
Proof.
  intros H. apply in_cn in H. destruct H as (d & d' & Hd & E). destruct c as [p c].
  apply dnext_spec in E. destruct E as (ps' & fl & G & -> & -> & _).
  apply (glue_some t Hcons) in G. destruct G as (f & Hf & <- & [[E1 E2]|[E1 E2]]).
  - left. exists f, (pos_on (cside c d) c). rewrite E1, E2. simpl.
    rewrite corner_at_pos_on by apply on_side_cside. auto.
  - right. exists f, (xorb (ifflip f) (pos_on (cside c d) c)). rewrite E1, E2. simpl.
    rewrite <- xorb_assoc, xorb_nilpotent, xorb_false_l.
    rewrite corner_at_pos_on by apply on_side_cside. auto.
Qed.

Lemma same_vertex_cls a b : validc t a -> same_vertex t a b <-> In b (cls t a).
Proof.
  intros Hv. rewrite (in_cls t Hcons a b Hv). split; intros H.
  - induction H as [|b c H IH [G|G]]; [constructor| |]; (eapply reach_step; [exact IH|]).
    + apply glued_cn; auto.
    + apply (cn_sym t Hcons), glued_cn; auto.
  - clear Hv. induction H as [|a b c H IH G]; [constructor|]. eapply sv_step; [exact IH|]. apply cn_glued'. exact G.
Qed.

Lemma has_valence_iff a v : validc t a -> has_valence t a v <-> valence t a = v.
Proof.
  intros Hv. split.
  - intros (l & Hn & Hl & <-). unfold valence. apply Permutation_length. apply NoDup_Permutation; auto.
    + apply (cls_nodup t Hcons); auto.
    + intros x. rewrite Hl. symmetry. apply same_vertex_cls. exact Hv.
  - intros <-. exists (cls t a). split; [apply (cls_nodup t Hcons); auto|]. split; auto.
    intros b. symmetry. apply same_vertex_cls. exact Hv.
Qed.

Lemma touches_on c s : touches c s <-> on_side c s = true.
Proof. destruct c, s; simpl; split; intros; auto; try discriminate; contradiction. Qed.

Lemma interior_vertex_iff a : validc t a -> interior_vertex t a <-> inner t a = true.
Proof.
  intros Hv. unfold inner, vertex_inner. rewrite forallb_forall. split.
  - intros H b Hb. rewrite forallb_forall. intros s Hs. apply isInterface_in, in_iface_sides.
    apply H; [apply same_vertex_cls; auto|]. apply touches_on. apply on_side_iff_cside.
    destruct Hs as [<-|[<-|[]]]; auto.
  - intros H b s Hb Hs. apply same_vertex_cls in Hb; auto. specialize (H b Hb). rewrite forallb_forall in H.
    apply in_iface_sides, isInterface_in, H. apply touches_on, on_side_iff_cside in Hs.
    unfold containing_sides. destruct Hs as [->| ->]; simpl; auto.
Qed.

(** a set of corners closed under the interfaces contains the whole vertex *)
Lemma cls_within a (S : list pcorner) : validc t a -> In a S -> (forall b, In b S -> incl (cn t b) S) -> incl (cls t a) S.
Proof.
  intros Hv Ha Hc b Hb. apply (in_cls t Hcons) in Hb; auto. clear Hv. induction Hb; auto. eapply Hc; [apply IHHb; exact Ha|]. assumption.
Qed.

Lemma cn_two c d c1 d1 c2 d2 : d < 2 -> dnext t (c, d) = Some (c1, d1) -> dnext t (c, 1 - d) = Some (c2, d2) ->
  incl (cn t c) [c1; c2].
Proof.
  intros Hd E1 E2 x Hx. apply in_cn in Hx. destruct Hx as (z & z' & Hz & E).
  destruct (Nat.eq_dec z d) as [->|N].
  - rewrite E1 in E. injection E as <- _. left; auto.
  - assert (z = 1 - d) as -> by lia. rewrite E2 in E. injection E as <- _. right; left; auto.
Qed.

(** the four corners around an interior vertex of valence 4 *)
Lemma four_around c d c' d' c2 d2 c3 d3 : validc t c -> valence t c = 4 -> inner t c = true -> d < 2 ->
  dnext t (c, d) = Some (c', d') -> dnext t (c, 1 - d) = Some (c2, d2) -> dnext t (c', 1 - d') = Some (c3, d3) ->
  NoDup [c; c'; c2; c3] /\ Permutation (cls t c) [c; c'; c2; c3].
Proof.
  intros Hv H4 Hin Hd E1 E2 E3.
  pose proof (dnext_dir t _ _ _ E1) as Hd'.
  pose proof (dnext_dir t _ _ _ E2) as Hd2. pose proof (dnext_dir t _ _ _ E3) as Hd3.
  pose proof (dnext_sym t Hcons _ _ _ _ Hd E1) as S1.
  assert (1 - d < 2 /\ 1 - d' < 2) as [L1 L2] by lia.
  pose proof (dnext_sym t Hcons _ _ _ _ L1 E2) as S2.
  pose proof (dnext_sym t Hcons _ _ _ _ L2 E3) as S3.
  assert (forall S, In c S -> (forall b, In b S -> incl (cn t b) S) -> 4 <= length S) as Big.
  { intros S Hc HS. rewrite <- H4. apply NoDup_incl_length; [apply (cls_nodup t Hcons); auto|]. apply cls_within; auto. }
  pose proof (cn_two c d c' d' c2 d2 Hd E1 E2) as Nc.
  pose proof (cn_two c' d' c d c3 d3 Hd' S1 E3) as Nc'.
  assert (c <> c') as A1 by (apply (dnext_neq t Hcons c d c' d'); auto).
  assert (c <> c2) as A2 by (apply (dnext_neq t Hcons c (1 - d) c2 d2); auto; lia).
  assert (c' <> c3) as A3 by (apply (dnext_neq t Hcons c' (1 - d') c3 d3); auto; lia).
  assert (c' <> c2) as A4.
  { intros <-. assert (d2 = 1 - d') as ->.
    { destruct (Nat.eq_dec d2 d') as [->|]; [|lia]. rewrite S1 in S2. assert (d = 1 - d) by congruence; lia. }
    assert (c3 = c) as -> by congruence.
    assert (4 <= length [c; c']); [|simpl in *; lia]. apply Big; [left; auto|].
    intros b [<-|[<-|[]]] x Hx; [apply Nc in Hx|apply Nc' in Hx]; simpl in *; tauto. }
  assert (c <> c3) as A5.
  { intros <-. assert (d3 = 1 - d) as ->.
    { destruct (Nat.eq_dec d3 d) as [->|]; [|lia]. rewrite E1 in S3. assert (d' = 1 - d') by congruence; lia. }
    congruence. }
  assert (c2 <> c3) as A6.
  { intros <-. assert (d3 = 1 - d2) as ->.
    { destruct (Nat.eq_dec d3 d2) as [->|]; [|lia]. rewrite S2 in S3. congruence. }
    assert (incl (cn t c2) [c; c']) as Nc2 by (exact (cn_two c2 d2 c (1 - d) c' (1 - d') Hd2 S2 S3)).
    assert (4 <= length [c; c'; c2]); [|simpl in *; lia]. apply Big; [left; auto|].
    intros b [<-|[<-|[<-|[]]]] x Hx; [apply Nc in Hx|apply Nc' in Hx|apply Nc2 in Hx]; simpl in *; tauto. }
  assert (NoDup [c; c'; c2; c3]) as N.
  { repeat constructor; simpl; intuition congruence. }
  split; auto. symmetry. apply NoDup_Permutation_bis; auto.
  - unfold valence in H4. rewrite H4. simpl. lia.
  - assert (In c' (cls t c)) as I1 by (apply (cn_cls t Hcons); auto; apply in_cn; eauto).
    assert (In c2 (cls t c)) as I2 by (apply (cn_cls t Hcons); auto; apply in_cn; exists (1 - d), d2; split; auto; lia).
    assert (In c3 (cls t c)) as I3.
    { apply (cls_closed t Hcons c c' Hv I1). apply in_cn. exists (1 - d'), d3; split; auto; lia. }
    intros x [<-|[<-|[<-|[<-|[]]]]]; auto. apply (cls_self t Hcons); auto.
Qed.
End V.

Section G.
Variable I : input.
Hypothesis WF : well_formed I.
Notation t := (itopo I).
Notation bs := (ibases I).
Notation np := (length (ibases I)).
Notation bas := (bas bs).
Notation loc := (loc bs).
Notation pvalid := (pvalid bs).
Notation elim := (elim I).
Notation rule := (rule I).
Notation c0 := (c0 I).
Notation valence := (valence t).
Notation inner := (inner t).
Notation ifl := (ifl t).
Notation parents := (parents I).
Notation cidx := (cidx I).
Let Hcons : consistent t := Hcons I WF.
Let Hnp : tnp t = np := Hnp I WF.
Let Hbig : big bs := Hbig I WF.
Variable m : mapper.
Variable R : result.
Hypothesis HR : is_result I m R.
Variable coef : nat -> Q.
Notation ctl y := (control R coef (cidx y)).

Lemma sharp_iff a : fst a < np -> sharp I a <-> c0 a = true.
Proof.
  intros H. unfold sharp. pose proof (c0_vget I WF a H) as E. unfold vget in E.
  destruct (nth_error (iC0 I) (vertIndex a)); [|discriminate]. injection E as ->. split; [congruence|intros ->; auto].
Qed.

(** point at position [u] along a side, [o] < 2 rows inward *)
Definition spoint (ps : pside) (o u : nat) : pt :=
  let n := along_ps I ps in
  if u <? 2 then dpt (end_corner ps false) (side_dir (snd ps)) u o
  else if n - 2 <=? u then dpt (end_corner ps true) (side_dir (snd ps)) (n - 1 - u) o
  else PE ps o u.

Lemma spt_grid p s o u : tindex (bas p) (fst (grid_point s (fst (bas p)) (snd (bas p)) o u))
    (snd (grid_point s (fst (bas p)) (snd (bas p)) o u)) = spt (bas p) s o u.
Proof. destruct s; reflexivity. Qed.

Lemma spoint_ok ps o u : fst ps < np -> o < 2 -> u < along_ps I ps ->
  pvalid (spoint ps o u) /\ cidx (spoint ps o u) = side_column bs ps o u.
Proof.
  intros Hp Ho Hu. destruct ps as [p s]. simpl fst in *.
  assert (forall x, pvalid x -> loc x = (p, spt (bas p) s o u) -> pvalid x /\ cidx x = side_column bs (p, s) o u) as K.
  { intros x V L. split; auto. rewrite (cidx_grid I WF x p (fst (grid_point s (fst (bas p)) (snd (bas p)) o u))
      (snd (grid_point s (fst (bas p)) (snd (bas p)) o u)) V).
    - reflexivity.
    - rewrite spt_grid. exact L. }
  pose proof (bas_along bs Hbig p s Hp) as [B _]. unfold along_ps in *. cbn [fst snd] in *.
  unfold spoint, end_corner, along_ps. cbn [fst snd].
  destruct (u <? 2) eqn:E1; [|destruct (alongb (bas p) s - 2 <=? u) eqn:E2].
  - apply K; [apply dpt_valid; auto; lia|]. rewrite spt_of_dpt by (auto; lia). reflexivity.
  - apply K; [apply dpt_valid; auto; lia|]. rewrite spt_of_dpt by (auto; lia). do 2 f_equal. lia.
  - apply K; [|reflexivity]. simpl. split; auto. split; auto. lia.
Qed.

Lemma pair_mid y y' z z' : pvalid y -> pvalid y' ->
  parents y = [(z, half); (z', half)] -> parents y' = [(z', half); (z, half)] ->
  (ctl y == ctl y')%Q /\ (ctl y == half * (ctl z + ctl z'))%Q.
Proof.
  intros V V' P P'.
  assert (In (z, half) (parents y)) as I1 by (rewrite P; left; auto).
  assert (In (z', half) (parents y)) as I2 by (rewrite P; right; left; auto).
  destruct (parents_ok I WF _ _ _ V I1) as [Vz Fz]. destruct (parents_ok I WF _ _ _ V I2) as [Vz' Fz'].
  rewrite !(control_spec I WF m R HR) by auto. unfold psum. rewrite P, P', !parents_free by auto. simpl. split; ring.
Qed.

Definition C1_pair (y y' z z' : pt) : Prop := (ctl y == ctl y')%Q /\ (ctl y == half * (ctl z + ctl z'))%Q.

Lemma strip_mid ps ps' fl u : glue t ps = Some (ps', fl) -> 2 <= u < along_ps I ps - 2 ->
  C1_pair (PE ps 0 u) (PE ps' 0 (across_pos I ps fl u)) (PE ps 1 u) (PE ps' 1 (across_pos I ps fl u)).
Proof.
  intros G Hu. pose proof (glue_valid t Hcons _ _ _ G) as [V V']. rewrite Hnp in V, V'.
  pose proof (glue_along I WF _ _ _ G) as EL. pose proof (across_pos_bounds I WF ps u fl Hu) as Hb.
  apply pair_mid.
  - simpl. fold (along_ps I ps). auto.
  - simpl. fold (along_ps I ps'). rewrite <- EL. auto.
  - apply parents_strip. exact G.
  - rewrite (parents_strip I ps' _ ps fl (glue_sym t Hcons _ _ _ G)). do 4 f_equal.
    unfold across_pos at 1. rewrite <- EL. apply (across_pos_invol I WF). exact Hu.
Qed.

Lemma dart_mid pc d k pc' d' : d < 2 -> k < 2 -> dnext t (pc, d) = Some (pc', d') ->
  rule pc k = true -> (k = 1 \/ inner pc = false) ->
  C1_pair (dpt pc d k 0) (dpt pc' d' k 0) (dpt pc d k 1) (dpt pc' d' k 1).
Proof.
  intros Hd Hk Hn Hr Hc.
  pose proof (dnext_dir t _ _ _ Hn) as Hd'. pose proof (dnext_valid t Hcons _ _ _ _ Hn) as [Hv Hv'].
  pose proof (dnext_cls I WF _ _ _ _ Hd Hn) as Hcl. pose proof (dnext_sym t Hcons _ _ _ _ Hd Hn) as Hn'.
  apply pair_mid.
  - apply dpt_valid; auto. apply (validc_np I WF); auto.
  - apply dpt_valid; auto. apply (validc_np I WF); auto.
  - apply (parents_dart I WF); auto.
  - apply (parents_dart I WF); auto.
    + rewrite (rule_cls I WF pc pc'); auto.
    + rewrite (inner_cls t Hcons pc pc'); auto.
Qed.

(** value at an interior vertex *)
Lemma inner_value c : validc t c -> inner c = true ->
  (ctl (PC c 0 0) == (1 # Pos.of_nat (valence c)) * sumQ (map (fun b => ctl (PC b 1 1)) (cls t c)))%Q.
Proof.
  intros Hv Hi. assert (fst c < np) as Hp by (apply (validc_np I WF); auto).
  rewrite (control_spec I WF m R HR) by (simpl; auto). unfold psum. rewrite (parents_00 I WF) by auto.
  rewrite map_map. cbn [fst snd]. rewrite <- sumQ_map_scale. apply sumQ_map_ext. intros b Hb.
  rewrite (control_free I WF m R HR); [reflexivity| |reflexivity].
  simpl. repeat split; try lia. apply (validc_np I WF). apply (cls_valid t Hcons c); auto.
Qed.

Lemma inner_coincide c c' : validc t c -> inner c = true -> In c' (cls t c) -> (ctl (PC c 0 0) == ctl (PC c' 0 0))%Q.
Proof.
  intros Hv Hi Hc. assert (validc t c') as Hv' by (apply (cls_valid t Hcons c); auto).
  rewrite (inner_value c), (inner_value c'); auto.
  2:{ rewrite (inner_cls t Hcons c c'); auto. }
  rewrite (valence_cls t Hcons c c') by auto.
  rewrite (sumQ_perm _ _ (Permutation_map (fun b => ctl (PC b 1 1)) (cls_perm t Hcons c c' Hv Hc))). reflexivity.
Qed.

Lemma inner4_mid c d c' d' : d < 2 -> dnext t (c, d) = Some (c', d') -> inner c = true -> valence c = 4 ->
  C1_pair (dpt c d 0 0) (dpt c' d' 0 0) (dpt c d 0 1) (dpt c' d' 0 1).
Proof.
  intros Hd Hn Hi H4.
  pose proof (dnext_dir t _ _ _ Hn) as Hd'. pose proof (dnext_valid t Hcons _ _ _ _ Hn) as [Hv Hv'].
  pose proof (dnext_cls I WF _ _ _ _ Hd Hn) as Hcl. pose proof (dnext_sym t Hcons _ _ _ _ Hd Hn) as Hn'.
  assert (inner c' = true) as Hi' by (rewrite (inner_cls t Hcons c c'); auto).
  assert (ifl c (1 - d) = true) as F2 by (apply (inner_iface t Hcons); auto).
  assert (ifl c' (1 - d') = true) as F3 by (apply (inner_iface t Hcons); auto).
  apply (ifl_next I) in F2. destruct F2 as (c2 & d2 & E2). apply (ifl_next I) in F3. destruct F3 as (c3 & d3 & E3).
  destruct (four_around t Hcons c d c' d' c2 d2 c3 d3) as [N P]; auto.
  assert (forall x d x' d', d < 2 -> inner x = true -> dnext t (x, d) = Some (x', d') ->
     (ctl (dpt x (1 - d) 0 1) == half * (ctl (PC x 1 1) + ctl (PC x' 1 1)))%Q) as K.
  { intros x z x' z' Hz Hix E. destruct (dart_mid x z 1 x' z') as [_ M]; auto. { apply rule1. }
    rewrite !dpt11 in M. rewrite <- M. destruct z as [|[|]]; simpl; try lia; reflexivity. }
  unfold C1_pair. rewrite !dpt00. split; [apply inner_coincide; auto|].
  pose proof (K c (1 - d) c2 d2 ltac:(lia) Hi E2) as K1. replace (1 - (1 - d)) with d in K1 by lia.
  pose proof (K c' (1 - d') c3 d3 ltac:(lia) Hi' E3) as K2. replace (1 - (1 - d')) with d' in K2 by lia.
  rewrite K1, K2, (inner_value c Hv Hi), H4.
  rewrite (sumQ_perm _ _ (Permutation_map (fun b => ctl (PC b 1 1)) P)). cbn [map sumQ].
  change (1 # Pos.of_nat 4)%Q with (1 # 4)%Q. unfold half. field.
Qed.

Definition C1_at (f : iface) (u : nat) : Prop :=
  let P1 o := control R coef (side_column bs (if1 f) o u) in
  let P2 o := control R coef (side_column bs (if2 f) o (matching bs f u)) in
  (P1 0%nat == P2 0%nat)%Q /\ (P1 0%nat == (1 # 2) * (P1 1%nat + P2 1%nat))%Q.

Lemma iface_glue f : In f (tif t) -> glue t (if1 f) = Some (if2 f, ifflip f).
Proof. intros Hf. apply (glue_some t Hcons). exists f. auto. Qed.

Lemma matching_across f u : In f (tif t) -> matching bs f u = across_pos I (if1 f) (ifflip f) u.
Proof.
  intros Hf. unfold matching, across_pos. rewrite (glue_along I WF _ _ _ (iface_glue f Hf)). reflexivity.
Qed.

Lemma C1_from_points f u : In f (tif t) -> u < side_length bs (if1 f) ->
  C1_pair (spoint (if1 f) 0 u) (spoint (if2 f) 0 (matching bs f u)) (spoint (if1 f) 1 u) (spoint (if2 f) 1 (matching bs f u)) ->
  C1_at f u.
Proof.
  intros Hf Hu. destruct (iface_ends_np I WF f Hf) as [Q1 Q2].
  pose proof (glue_along I WF _ _ _ (iface_glue f Hf)) as EL.
  assert (matching bs f u < along_ps I (if2 f)) as Hm.
  { rewrite matching_across by auto. unfold across_pos. rewrite <- EL.
    change (side_length bs (if1 f)) with (along_ps I (if1 f)) in Hu. destruct (ifflip f); lia. }
  unfold C1_pair, C1_at.
  rewrite (proj2 (spoint_ok (if1 f) 0 _ Q1 Nat.lt_0_2 Hu)).
  rewrite (proj2 (spoint_ok (if2 f) 0 _ Q2 Nat.lt_0_2 Hm)).
  rewrite (proj2 (spoint_ok (if1 f) 1 _ Q1 Nat.lt_1_2 Hu)).
  rewrite (proj2 (spoint_ok (if2 f) 1 _ Q2 Nat.lt_1_2 Hm)). auto.
Qed.

(** points near the end of a side, as seen from the corner *)
Lemma spoint_end ps (last : bool) k o : fst ps < np -> k < 2 ->
  spoint ps o (if last then along_ps I ps - 1 - k else k) = dpt (end_corner ps last) (side_dir (snd ps)) k o.
Proof.
  intros Hp Hk. pose proof (bas_along bs Hbig (fst ps) (snd ps) Hp) as [B _]. fold (along_ps I ps) in B.
  unfold spoint. destruct last.
  - destruct (along_ps I ps - 1 - k <? 2) eqn:E1; [lia|].
    destruct (along_ps I ps - 2 <=? along_ps I ps - 1 - k) eqn:E2; [|lia]. f_equal. lia.
  - destruct (k <? 2) eqn:E1; [reflexivity|lia].
Qed.

Lemma matching_end f (last : bool) k : In f (tif t) -> k < 2 ->
  matching bs f (if last then along_ps I (if1 f) - 1 - k else k) =
  (if xorb (ifflip f) last then along_ps I (if2 f) - 1 - k else k).
Proof.
  intros Hf Hk. rewrite matching_across by auto. rewrite <- (glue_along I WF _ _ _ (iface_glue f Hf)).
  destruct (iface_ends_np I WF f Hf) as [Q1 Q2].
  pose proof (bas_along bs Hbig _ (snd (if1 f)) Q1) as [B _]. fold (along_ps I (if1 f)) in B.
  unfold across_pos. destruct (ifflip f), last; simpl; lia.
Qed.

Lemma end_dnext f (last : bool) : In f (tif t) ->
  dnext t (end_corner (if1 f) last, side_dir (snd (if1 f))) =
  Some (end_corner (if2 f) (xorb (ifflip f) last), side_dir (snd (if2 f))).
Proof. intros Hf. apply dnext_corner_at. apply iface_glue. exact Hf. Qed.

Lemma C1_end f (last : bool) k : In f (tif t) -> k < 2 ->
  (let pc := end_corner (if1 f) last in
    rule pc k = true /\ (k = 1 \/ inner pc = false) \/ (k = 0 /\ inner pc = true /\ valence pc = 4)) ->
  C1_at f (if last then along_ps I (if1 f) - 1 - k else k).
Proof.
  intros Hf Hk Hc. destruct (iface_ends_np I WF f Hf) as [Q1 Q2].
  pose proof (bas_along bs Hbig _ (snd (if1 f)) Q1) as [B _]. fold (along_ps I (if1 f)) in B.
  apply C1_from_points; auto.
  { change (side_length bs (if1 f)) with (along_ps I (if1 f)). destruct last; lia. }
  rewrite matching_end by auto. rewrite !spoint_end by auto.
  destruct Hc as [[Hr Hc]|(-> & Hi & H4)].
  - apply dart_mid; auto using side_dir_lt, end_dnext.
  - apply inner4_mid; auto using side_dir_lt, end_dnext.
Qed.

Lemma C1_inside f u : In f (tif t) -> 1 <= u -> u + 2 <= side_length bs (if1 f) -> C1_at f u.
Proof.
  intros Hf H1 H2. change (side_length bs (if1 f)) with (along_ps I (if1 f)) in *.
  destruct (Nat.eq_dec u 1) as [->|N1].
  { apply (C1_end f false 1); auto. left. split; [apply rule1|auto]. }
  destruct (Nat.eq_dec u (along_ps I (if1 f) - 2)) as [E|N2].
  { replace u with (along_ps I (if1 f) - 1 - 1) by lia. apply (C1_end f true 1); auto. left. split; [apply rule1|auto]. }
  apply C1_from_points; auto. { change (side_length bs (if1 f)) with (along_ps I (if1 f)). lia. }
  pose proof (glue_along I WF _ _ _ (iface_glue f Hf)) as EL.
  assert (2 <= u < along_ps I (if1 f) - 2) as Hu by lia.
  rewrite matching_across by auto. pose proof (across_pos_bounds I WF (if1 f) u (ifflip f) Hu) as Hb.
  unfold spoint. rewrite <- EL.
  destruct (u <? 2) eqn:E1; [lia|]. destruct (along_ps I (if1 f) - 2 <=? u) eqn:E2; [lia|].
  destruct (across_pos I (if1 f) (ifflip f) u <? 2) eqn:E3; [lia|].
  destruct (along_ps I (if1 f) - 2 <=? across_pos I (if1 f) (ifflip f) u) eqn:E4; [lia|].
  apply strip_mid; auto using iface_glue.
Qed.

Lemma end_valid f (last : bool) : In f (tif t) -> validc t (end_corner (if1 f) last).
Proof. intros Hf. apply (validc_np I WF). apply (iface_ends_np I WF f Hf). Qed.

Lemma smooth_pair_rule a : validc t a -> smooth_boundary_pair I a -> rule a 0 = true /\ inner a = false.
Proof.
  intros Hv (H1 & H2 & H3). assert (fst a < np) as Hp by (apply (validc_np I WF); auto).
  apply (has_valence_iff t Hcons) in H2; auto.
  assert (inner a = false) as Hi.
  { destruct (inner a) eqn:E; auto. destruct H1. apply (interior_vertex_iff t Hcons); auto. }
  split; auto. unfold MapperProofs.rule. rewrite Hi, H2. simpl.
  destruct (c0 a) eqn:E; auto. destruct H3. apply sharp_iff; auto.
Qed.

Lemma C1_at_end f (last : bool) : In f (tif t) ->
  smooth_boundary_pair I (end_corner (if1 f) last) \/
    (interior_vertex t (end_corner (if1 f) last) /\ has_valence t (end_corner (if1 f) last) 4) ->
  C1_at f (end_position bs (if1 f) last).
Proof.
  intros Hf H. pose proof (end_valid f last Hf) as Hv.
  replace (end_position bs (if1 f) last) with (if last then along_ps I (if1 f) - 1 - 0 else 0)
    by (unfold end_position; destruct last; auto; rewrite Nat.sub_0_r; reflexivity).
  apply C1_end; auto. destruct H as [H|[H1 H2]].
  - left. destruct (smooth_pair_rule _ Hv H). auto.
  - right. split; auto. split; [apply (interior_vertex_iff t Hcons); auto|apply (has_valence_iff t Hcons); auto].
Qed.

Lemma corner_column_ok a : fst a < np -> pvalid (PC a 0 0) /\ cidx (PC a 0 0) = corner_column bs a.
Proof.
  intros Hp. assert (pvalid (PC a 0 0)) as V by (simpl; auto). split; auto. destruct a as [p c]. simpl in Hp.
  unfold corner_column. cbn [fst snd].
  destruct c; apply (cidx_grid I WF _ p _ _ V); simpl; unfold cpt, PointProofs.bas; simpl; rewrite ?Nat.sub_0_r; reflexivity.
Qed.

Lemma vertex_continuous a b : fst a < np -> same_vertex t a b ->
  interior_vertex t a \/ smooth_boundary_pair I a ->
  (control R coef (corner_column bs a) == control R coef (corner_column bs b))%Q.
Proof.
  intros Hp Hs H. assert (validc t a) as Hv by (apply (validc_np I WF); auto).
  apply (same_vertex_cls t Hcons) in Hs; auto.
  assert (validc t b) as Hvb by (apply (cls_valid t Hcons a); auto).
  assert (fst b < np) as Hpb by (apply (validc_np I WF); auto).
  rewrite <- (proj2 (corner_column_ok a Hp)), <- (proj2 (corner_column_ok b Hpb)).
  destruct H as [H|H].
  - apply inner_coincide; auto. apply (interior_vertex_iff t Hcons); auto.
  - destruct (smooth_pair_rule a Hv H) as [Hr Hi]. destruct H as (_ & H2 & _).
    apply (has_valence_iff t Hcons) in H2; auto.
    destruct (idir_next I WF a Hv ltac:(lia)) as (c' & d' & En & Hd).
    assert (In b [a; c']) as Hb.
    { assert (NoDup [a; c']) as N.
      { constructor; [|constructor; [intros []|constructor]]. intros [E|[]].
        apply (dnext_neq t Hcons _ _ _ _ Hd En). auto. }
      assert (incl [a; c'] (cls t a)) as Hin.
      { intros x [<-|[<-|[]]]; [apply (cls_self t Hcons); auto|apply (dnext_cls I WF _ _ _ _ Hd En)]. }
      assert (Permutation [a; c'] (cls t a)) as P.
      { apply NoDup_Permutation_bis; auto. unfold TopoProofs.valence in H2. simpl length in *. clear - H2. unfold pcorner in *. lia. }
      eapply Permutation_in; [symmetry; exact P|exact Hs]. }
    destruct Hb as [<-|[<-|[]]]; [reflexivity|].
    destruct (dart_mid a (idir I a) 0 c' d') as [M _]; auto.
    rewrite !dpt00 in M. exact M.
Qed.

End G.

(** Statements in terms of [compute] only. *)
Lemma compute_is_result I R : well_formed I -> compute I = Ok R -> exists m, computeMapper I = Ok m /\ is_result I m R.
Proof.
  intros WF E. destruct (compute_ok I WF) as (m & R' & Em & E' & H). exists m. split; auto.
  rewrite E' in E. injection E as <-. exact H.
Qed.

Lemma same_vertex_glued t a b : glued_corners t a b -> same_vertex t a b.
Proof. intros H. eapply sv_step; [constructor|]. auto. Qed.

Lemma sharp_discontinuous : exists I R coef a b, well_formed I /\ compute I = Ok R /\
  same_vertex (itopo I) a b /\ sharp I a /\ ~ (control R coef (corner_column (ibases I) a) == control R coef (corner_column (ibases I) b))%Q.
Proof.
  exists two_patches_sharp.
  destruct (compute_ok _ two_patches_sharp_wf) as (m & R & _ & E & _).
  exists R, (fun r => Z.of_nat r # 1)%Q, (0, SE), (1, SW). split; [exact two_patches_sharp_wf|].
  split; auto. split.
  { apply same_vertex_glued. exists (mkI (0, East) (1, West) false), false. split; [left; reflexivity|]. split; reflexivity. }
  split; [reflexivity|]. intros H. apply Qeq_bool_iff in H.
  assert (match compute two_patches_sharp with Ok R => Qeq_bool (control R (fun r => Z.of_nat r # 1) (corner_column (ibases two_patches_sharp) (0, SE)))
     (control R (fun r => Z.of_nat r # 1) (corner_column (ibases two_patches_sharp) (1, SW))) | _ => true end = false) as F by (vm_compute; reflexivity).
  rewrite E in F. congruence.
Qed.

Lemma fan_discontinuous : exists I R coef a b, well_formed I /\ compute I = Ok R /\
  same_vertex (itopo I) a b /\ has_valence (itopo I) a 3 /\ (forall c, ~ sharp I c) /\
  ~ (control R coef (corner_column (ibases I) a) == control R coef (corner_column (ibases I) b))%Q.
Proof.
  exists fan.
  destruct (compute_ok _ fan_wf) as (m & R & _ & E & _).
  exists R, (fun r => Z.of_nat r # 1)%Q, (0, SW), (1, SW). split; [exact fan_wf|].
  split; auto. split.
  { apply same_vertex_glued. exists (mkI (0, West) (1, South) false), false. split; [left; reflexivity|]. split; reflexivity. }
  split.
  { apply has_valence_iff; [apply (MapperProofs.Hcons _ fan_wf)| |vm_compute; reflexivity].
    apply (validc_np _ fan_wf). simpl. lia. }
  split.
  { intros c Hc. unfold sharp in Hc. apply nth_error_In in Hc. simpl in Hc. intuition discriminate. }
  intros H. apply Qeq_bool_iff in H.
  assert (match compute fan with Ok R => Qeq_bool (control R (fun r => Z.of_nat r # 1) (corner_column (ibases fan) (0, SW)))
     (control R (fun r => Z.of_nat r # 1) (corner_column (ibases fan) (1, SW))) | _ => true end = false) as F by (vm_compute; reflexivity).
  rewrite E in F. congruence.
Qed.

(** C02 *)
Lemma all_handled I : well_formed I -> exists m R, computeMapper I = Ok m /\ compute I = Ok R /\ rRows R = freeSize m /\
  (forall r, r < rRows R -> exists c, c < rCols R /\ entry_of R r c = 1%Q) /\
  (forall p k, p < length (ibases I) -> k < tsize (nth p (ibases I) (0, 0)) -> is_free m k p = true ->
     exists r, mindex m k p = Ok r /\ r < rRows R /\
       forall r', r' < rRows R -> entry_of R r' (sumN (map tsize (firstn p (ibases I))) + k) = if r' =? r then 1%Q else 0%Q).
Proof.
  intros WF. destruct (compute_ok I WF) as (m & R & Em & E & HR). exists m, R.
  split; auto. split; auto. split; [apply HR|]. split.
  - apply (rows_nonempty I m R HR).
  - apply (own_column I WF m R HR).
Qed.
Lemma partition_of_unity I R : well_formed I -> compute I = Ok R -> forall c, c < rCols R -> (colSum R c == 1)%Q.
Proof. intros WF E. destruct (compute_is_result I R WF E) as (m & _ & H). exact (column_sum I WF m R H). Qed.
Lemma entries_in_unit_interval I R : well_formed I -> compute I = Ok R ->
  forall r c, r < rRows R -> c < rCols R -> (0 <= entry_of R r c <= 1)%Q.
Proof. intros WF E. destruct (compute_is_result I R WF E) as (m & _ & H). exact (entry_range I WF m R H). Qed.
Lemma functions_independent I R coef : well_formed I -> compute I = Ok R ->
  (forall c, c < rCols R -> (control R coef c == 0)%Q) -> forall r, r < rRows R -> (coef r == 0)%Q.
Proof. intros WF E. destruct (compute_is_result I R WF E) as (m & _ & H). exact (rows_independent I WF m R H coef). Qed.
Lemma smooth_inside I R coef f u : well_formed I -> compute I = Ok R -> In f (tif (itopo I)) ->
  1 <= u -> u + 2 <= side_length (ibases I) (if1 f) -> C1_at I R coef f u.
Proof. intros WF E. destruct (compute_is_result I R WF E) as (m & _ & H). exact (C1_inside I WF m R H coef f u). Qed.
Lemma smooth_ends I R coef f last : well_formed I -> compute I = Ok R -> In f (tif (itopo I)) ->
  smooth_boundary_pair I (end_corner (if1 f) last) \/
    (interior_vertex (itopo I) (end_corner (if1 f) last) /\ has_valence (itopo I) (end_corner (if1 f) last) 4) ->
  C1_at I R coef f (end_position (ibases I) (if1 f) last).
Proof. intros WF E. destruct (compute_is_result I R WF E) as (m & _ & H). exact (C1_at_end I WF m R H coef f last). Qed.
Lemma continuous_at_vertices I R coef a b : well_formed I -> compute I = Ok R -> fst a < length (ibases I) ->
  same_vertex (itopo I) a b -> interior_vertex (itopo I) a \/ smooth_boundary_pair I a ->
  (control R coef (corner_column (ibases I) a) == control R coef (corner_column (ibases I) b))%Q.
Proof. intros WF E. destruct (compute_is_result I R WF E) as (m & _ & H). exact (vertex_continuous I WF m R H coef a b). Qed.

Lemma smooth_end_examples :
  (well_formed two_patches /\ smooth_boundary_pair two_patches (end_corner (0, East) true)) /\
  (well_formed four_patches /\ interior_vertex (itopo four_patches) (end_corner (0, West) false) /\
   has_valence (itopo four_patches) (end_corner (0, West) false) 4).
Proof.
  assert (validc (itopo two_patches) (end_corner (0, East) true)) as V2
    by (apply (validc_np _ two_patches_wf); simpl; lia).
  assert (validc (itopo four_patches) (end_corner (0, West) false)) as V4
    by (apply (validc_np _ four_patches_wf); simpl; lia).
  split; (split; [first [exact two_patches_wf|exact four_patches_wf]|]).
  - split; [|split].
    + rewrite (interior_vertex_iff _ (MapperProofs.Hcons _ two_patches_wf) _ V2). vm_compute. discriminate.
    + apply (has_valence_iff _ (MapperProofs.Hcons _ two_patches_wf) _ _ V2). vm_compute. reflexivity.
    + unfold sharp. vm_compute. discriminate.
  - split.
    + apply (interior_vertex_iff _ (MapperProofs.Hcons _ four_patches_wf) _ V4). vm_compute. reflexivity.
    + apply (has_valence_iff _ (MapperProofs.Hcons _ four_patches_wf) _ _ V4). vm_compute. reflexivity.
Qed.
