From Verif Require Import Common TopoModel BaseModel IndexSpec TopoSpec SmoothSpec SmoothSpec2
  IndexProofs ListLemmas TopoProofs GeometryProofs RefModel RefSpec.

Lemma otherCorner_eq c dim : dim < 2 -> otherCorner c dim = opposite_in dim c.
Proof. intros H. destruct dim as [|[|]]; [| |lia]; destruct c; reflexivity. Qed.

Lemma boxRow_eq par e n : boxRow par (Z.of_nat e + 1) n = interval_at par (Z.of_nat e) n.
Proof.
  unfold boxRow, interval_at. destruct par; f_equal; lia.
Qed.

Lemma vertIndex_lt c n : fst c < n -> vertIndex c < 4 * n.
Proof. unfold vertIndex. destruct (snd c); simpl; lia. Qed.

Lemma nth_error_upd {A} (l : list A) i j v : i < length l ->
  nth_error (upd l i v) j = if j =? i then Some v else nth_error l j.
Proof.
  revert i j. induction l as [|a l IH]; intros i j H; simpl in H; [lia|].
  destruct i, j; simpl; try reflexivity. apply IH. lia.
Qed.

Section R.
Variables (S : rfscheme) (I : rfinput) (start : list (list pcorner)).
Hypothesis RI : ref_input I.
Notation t := (rftopo I).
Notation np := (length (rfdirs I)).
Notation nel := (rfnel S).
Let Hc : consistent t := rf_topo I RI.
Hypothesis start_valid : forall l c, In l start -> In c l -> fst c < tnp t.
Hypothesis EN : rfassert S = true -> enough_elements I nel start.

Notation must := (must_refine I nel start).

Record rinv (st : rfstate) (don : list pcorner) : Prop := {
  iv_pre : exists pushed, fst (fst st) = start ++ pushed;
  iv_lists : forall l c, In l (fst (fst st)) -> In c l -> fst c < tnp t /\ must c;
  iv_mlen : length (snd (fst st)) = 4 * np;
  iv_mask : forall c, fst c < tnp t -> nth_error (snd (fst st)) (vertIndex c) = Some (existsb (pc_eqb c) don);
  iv_nodup : NoDup don;
  iv_done : forall c, In c don -> fst c < tnp t /\ must c;
  iv_blen : length (snd st) = np;
  iv_boxes : forall p, p < tnp t -> nth_error (snd st) p = Some (flat_map (box_of I nel) (filter (fun c => fst c =? p) don));
  iv_closed : forall c dim K, In c don -> dim < 2 -> dir_of I (fst c) dim K -> knel K = nel (kdeg K) ->
    In (cls t (fst c, opposite_in dim (snd c))) (fst (fst st));
  iv_len : length (fst (fst st)) <= length start + 2 * length don
}.

Lemma np_eq : tnp t = np.
Proof. apply (rf_np I RI). Qed.

Lemma rinv_init : rinv (start, repeat false (4 * np), repeat [] np) [].
Proof.
  constructor; cbn [fst snd].
  - exists []. rewrite app_nil_r. reflexivity.
  - intros l c Hl Hcl. split; [eapply start_valid; eassumption|]. eapply mr_start; eassumption.
  - apply repeat_length.
  - intros c Hv. cbn. apply nth_error_repeat. apply vertIndex_lt. rewrite <- np_eq. assumption.
  - constructor.
  - intros c [].
  - apply repeat_length.
  - intros p Hp. cbn. apply nth_error_repeat. rewrite <- np_eq. assumption.
  - intros c dim K [].
  - lia.
Qed.

Lemma refDim_ok c d dim : fst c < tnp t -> must c -> nth_error (rfdirs I) (fst c) = Some d -> dim < 2 ->
  exists ls, refDim S I c d dim = Ok (interval_at (cparam (snd c) dim) (Z.of_nat (knel (kdim d dim))) (Z.of_nat (nel (kdeg (kdim d dim)))), ls)
    /\ length ls <= 1 /\ (forall l, In l ls -> knel (kdim d dim) = nel (kdeg (kdim d dim)) /\ l = cls t (fst c, opposite_in dim (snd c)))
    /\ (knel (kdim d dim) = nel (kdeg (kdim d dim)) -> In (cls t (fst c, opposite_in dim (snd c))) ls).
Proof.
  intros Hv M Hd Hdim. unfold refDim. set (K := kdim d dim).
  assert (DK : dir_of I (fst c) dim K) by (exists d; split; [assumption|]; unfold K, kdim; destruct dim; reflexivity).
  assert (E : (negb (rfassert S) || (nel (kdeg K) <=? knel K))%bool = true).
  { destruct (rfassert S) eqn:A; [|reflexivity]. cbn. apply Nat.leb_le. eapply EN; eauto. }
  rewrite E. cbn [ensure bind]. rewrite boxRow_eq.
  destruct (Nat.eqb_spec (knel K) (nel (kdeg K))) as [Q|Q].
  - rewrite otherCorner_eq by assumption. rewrite (cornerList_cls t Hc) by exact Hv. cbn [bind].
    eexists. split; [reflexivity|]. split; [simpl; lia|]. split.
    + intros l [<-|[]]. auto.
    + intros _. left. reflexivity.
  - eexists. split; [reflexivity|]. split; [simpl; lia|]. split; [intros l []|]. intros. contradiction.
Qed.

Lemma existsb_pc_app c l x : existsb (pc_eqb c) (l ++ [x]) = existsb (pc_eqb c) l || pc_eqb c x.
Proof. rewrite existsb_app. cbn. rewrite orb_false_r. reflexivity. Qed.

Lemma pc_eqb_spec a b : pc_eqb a b = true <-> a = b.
Proof.
  unfold pc_eqb. rewrite andb_true_iff, Nat.eqb_eq. destruct a as [p c], b as [q d]. cbn.
  split; [intros [-> E]; destruct c, d; try discriminate; reflexivity|].
  intros E. injection E as -> ->. split; [reflexivity|]. destruct d; reflexivity.
Qed.
Lemma exb_in c l : existsb (pc_eqb c) l = true <-> In c l.
Proof.
  rewrite existsb_exists. split.
  - intros (x & Hx & E). apply pc_eqb_spec in E. subst. assumption.
  - intros H. exists c. split; [assumption|]. apply pc_eqb_spec. reflexivity.
Qed.

Lemma must_dir c d dim l c' : fst c < tnp t -> must c -> nth_error (rfdirs I) (fst c) = Some d -> dim < 2 ->
  knel (kdim d dim) = nel (kdeg (kdim d dim)) -> l = cls t (fst c, opposite_in dim (snd c)) -> In c' l ->
  fst c' < tnp t /\ must c'.
Proof.
  intros Hv M Hd Hdim Q -> Hin. split.
  - apply (cls_valid t Hc (fst c, opposite_in dim (snd c)) c'); [exact Hv|assumption].
  - eapply mr_edge with (c := c) (dim := dim) (K := kdim d dim); eauto.
    + exists d. split; [assumption|]. destruct dim; reflexivity.
    + apply (same_vertex_cls t Hc); [exact Hv|assumption].
Qed.

Lemma refCorner_ok st don c : rinv st don -> fst c < tnp t -> must c ->
  exists st' don', refCorner S I st c = Ok st' /\ rinv st' don' /\ In c don' /\ incl don don' /\
    (exists q, fst (fst st') = fst (fst st) ++ q).
Proof.
  destruct st as [[lists mask] boxes]. intros IV Hv M.
  unfold refCorner. cbn [fst snd].
  pose proof (iv_mask _ _ IV c Hv) as HM. cbn [fst snd] in HM.
  unfold vget at 1. rewrite HM. cbn [bind].
  destruct (existsb (pc_eqb c) don) eqn:EX.
  - exists (lists, mask, boxes), don. split; [reflexivity|]. split; [assumption|].
    split; [apply exb_in; assumption|]. split; [apply incl_refl|]. exists []. symmetry. apply app_nil_r.
  - assert (NI : ~ In c don) by (intros H; apply exb_in in H; congruence).
    assert (Hp : fst c < np) by (rewrite <- np_eq; assumption).
    destruct (nth_error (rfdirs I) (fst c)) as [d|] eqn:Hd; [|apply nth_error_None in Hd; lia].
    unfold vget at 1. rewrite Hd. cbn [bind].
    destruct (refDim_ok c d 0 Hv M Hd ltac:(lia)) as (l0 & E0 & L0 & A0 & B0).
    destruct (refDim_ok c d 1 Hv M Hd ltac:(lia)) as (l1 & E1 & L1 & A1 & B1).
    rewrite E0. cbn [bind]. rewrite E1. cbn [bind fst snd].
    pose proof (iv_boxes _ _ IV (fst c) Hv) as HB. cbn [fst snd] in HB.
    unfold vget at 1. rewrite HB. cbn [bind].
    pose proof (iv_blen _ _ IV) as BL. pose proof (iv_mlen _ _ IV) as ML. cbn [fst snd] in BL, ML.
    unfold vset at 1. destruct (Nat.ltb_spec (fst c) (length boxes)); [|lia]. cbn [bind].
    unfold vset. pose proof (vertIndex_lt c np Hp) as VL.
    destruct (Nat.ltb_spec (vertIndex c) (length mask)); [|lia]. cbn [bind].
    eexists. exists (don ++ [c]). split; [reflexivity|].
    split; [|split; [apply in_elt|split; [apply incl_appl, incl_refl|eexists; reflexivity]]].
    assert (BX : [0%Z; fst (interval_at (cparam (snd c) 0) (Z.of_nat (knel (kdim d 0))) (Z.of_nat (nel (kdeg (kdim d 0)))));
       fst (interval_at (cparam (snd c) 1) (Z.of_nat (knel (kdim d 1))) (Z.of_nat (nel (kdeg (kdim d 1)))));
       snd (interval_at (cparam (snd c) 0) (Z.of_nat (knel (kdim d 0))) (Z.of_nat (nel (kdeg (kdim d 0)))));
       snd (interval_at (cparam (snd c) 1) (Z.of_nat (knel (kdim d 1))) (Z.of_nat (nel (kdeg (kdim d 1)))))] = box_of I nel c).
    { unfold box_of. rewrite Hd. destruct d as [K0 K1]. reflexivity. }
    rewrite BX. clear BX.
    constructor; cbn [fst snd].
    + destruct (iv_pre _ _ IV) as (q & Q). cbn in Q. exists (q ++ l0 ++ l1). rewrite Q, <- app_assoc. reflexivity.
    + intros l c' Hl Hcl. rewrite !in_app_iff in Hl. destruct Hl as [Hl|[Hl|Hl]].
      * eapply (iv_lists _ _ IV); eauto.
      * destruct (A0 _ Hl) as (Q & QE). eapply must_dir with (dim := 0); eauto.
      * destruct (A1 _ Hl) as (Q & QE). eapply must_dir with (dim := 1); eauto.
    + rewrite upd_length. assumption.
    + intros c' Hv'. rewrite existsb_pc_app, nth_error_upd by lia.
      destruct (pc_eqb c' c) eqn:Q.
      * apply pc_eqb_spec in Q. subst c'. rewrite orb_true_r, Nat.eqb_refl. reflexivity.
      * rewrite orb_false_r. destruct (Nat.eqb_spec (vertIndex c') (vertIndex c)) as [E|E].
        -- exfalso. apply vertIndex_inj in E. subst. assert (pc_eqb c c = true) by (apply pc_eqb_spec; reflexivity). congruence.
        -- apply (iv_mask _ _ IV c' Hv').
    + apply NoDup_app_iff. split; [apply (iv_nodup _ _ IV)|]. split; [repeat constructor; intros []|].
      intros x Hx [<-|[]]. contradiction.
    + intros x Hx. apply in_app_iff in Hx. destruct Hx as [Hx|[<-|[]]]; [apply (iv_done _ _ IV); assumption|auto].
    + rewrite upd_length. assumption.
    + intros p Hp'. rewrite filter_app, flat_map_app. cbn [filter].
      rewrite nth_error_upd by lia.
      rewrite (Nat.eqb_sym (fst c) p). destruct (Nat.eqb_spec p (fst c)) as [->|NE]; cbn [flat_map]; rewrite app_nil_r.
      * reflexivity.
      * apply (iv_boxes _ _ IV p Hp').
    + intros x dim K Hx Hdim DK Q. apply in_app_iff in Hx. destruct Hx as [Hx|[<-|[]]].
      * apply in_app_iff. left. eapply (iv_closed _ _ IV); eauto.
      * rewrite !in_app_iff. destruct DK as (d' & Hd' & KE). rewrite Hd in Hd'. injection Hd' as <-.
        right. destruct dim as [|[|]]; [left; apply B0|right; apply B1|lia]; unfold kdim; congruence.
    + pose proof (iv_len _ _ IV) as L. cbn [fst snd] in L. rewrite !app_length. cbn [length]. lia.
Qed.

Lemma refList_ok l : forall st don, rinv st don -> (forall c, In c l -> fst c < tnp t /\ must c) ->
  exists st' don', foldM (refCorner S I) l st = Ok st' /\ rinv st' don' /\ incl l don' /\ incl don don' /\
    (exists q, fst (fst st') = fst (fst st) ++ q).
Proof.
  induction l as [|c l IH]; intros st don IV H; simpl.
  - exists st, don. split; [reflexivity|]. split; [assumption|]. split; [intros x []|].
    split; [apply incl_refl|]. exists []. symmetry. apply app_nil_r.
  - destruct (H c (or_introl eq_refl)) as (Hv & M).
    destruct (refCorner_ok st don c IV Hv M) as (st1 & don1 & E1 & IV1 & In1 & Inc1 & q1 & Q1).
    rewrite E1. cbn [bind].
    destruct (IH st1 don1 IV1) as (st2 & don2 & E2 & IV2 & In2 & Inc2 & q2 & Q2); [intros; apply H; right; assumption|].
    exists st2, don2. split; [assumption|]. split; [assumption|].
    split; [intros x [<-|Hx]; [apply Inc2; assumption|apply In2; assumption]|].
    split; [eapply incl_tran; eassumption|]. exists (q1 ++ q2). rewrite Q2, Q1, app_assoc. reflexivity.
Qed.

Lemma done_bound st don : rinv st don -> length don <= 4 * np.
Proof.
  intros IV. rewrite <- np_eq. rewrite <- all_corners_length.
  apply NoDup_incl_length; [apply (iv_nodup _ _ IV)|].
  intros c Hcd. apply in_all_corners. apply (iv_done _ _ IV c Hcd).
Qed.

Lemma refLoop_ok fuel : forall v st don, rinv st don -> v <= length (fst (fst st)) ->
  (forall i l, i < v -> nth_error (fst (fst st)) i = Some l -> incl l don) ->
  length start + 8 * np < fuel + v ->
  exists st' don', refLoop fuel S I v st = Ok st' /\ rinv st' don' /\
    (forall l, In l (fst (fst st')) -> incl l don').
Proof.
  induction fuel as [|fuel IH]; intros v st don IV Hv HD HF; simpl.
  - exfalso. pose proof (iv_len _ _ IV). pose proof (done_bound _ _ IV). lia.
  - destruct (nth_error (fst (fst st)) v) as [l|] eqn:E.
    + assert (Hin : In l (fst (fst st))) by (eapply nth_error_In; eassumption).
      destruct (refList_ok l st don IV) as (st1 & don1 & E1 & IV1 & In1 & Inc1 & q1 & Q1).
      { intros c Hcl. eapply (iv_lists _ _ IV); eassumption. }
      rewrite E1. cbn [bind]. assert (v < length (fst (fst st))) by (apply nth_error_Some; congruence).
      apply IH with (don := don1); [assumption| | |lia].
      * rewrite Q1, app_length. lia.
      * intros i l' Hi Hl'. rewrite Q1, nth_error_app1 in Hl' by lia.
        destruct (Nat.eq_dec i v) as [->|NE].
        -- rewrite E in Hl'. injection Hl' as <-. assumption.
        -- eapply incl_tran; [eapply HD; [|eassumption]; lia|assumption].
    + exists st, don. split; [reflexivity|]. split; [assumption|].
      intros l Hl. apply In_nth_error in Hl. destruct Hl as (i & Hi).
      assert (i < length (fst (fst st))) by (apply nth_error_Some; congruence).
      apply nth_error_None in E. apply (HD i l); [lia|assumption].
Qed.

Lemma all_needed st don : rinv st don -> (forall l, In l (fst (fst st)) -> incl l don) ->
  forall c, must c -> In c don.
Proof.
  intros IV HA c M. induction M as [l c Hl Hcl|c dim K c' M IH Hdim DK Q SV].
  - apply (HA l); [|assumption]. destruct (iv_pre _ _ IV) as (q & ->). apply in_app_iff. left. assumption.
  - pose proof (iv_closed _ _ IV c dim K IH Hdim DK Q) as L. apply (HA _ L).
    apply (same_vertex_cls t Hc); [|assumption]. destruct (iv_done _ _ IV c IH) as (Hv & _). exact Hv.
Qed.

Lemma refBoxes_ok fuel : length start + 8 * np < fuel ->
  exists don boxes, refBoxes fuel S I start = Ok boxes /\ NoDup don /\ (forall c, In c don <-> must c) /\
    length boxes = np /\
    forall p, p < np -> nth_error boxes p = Some (flat_map (box_of I nel) (filter (fun c => fst c =? p) don)).
Proof.
  intros HF. unfold refBoxes.
  destruct (refLoop_ok fuel 0 (start, repeat false (4 * np), repeat [] np) [] rinv_init) as (st & don & E & IV & HA).
  - cbn. lia.
  - intros i l Hi. lia.
  - lia.
  - rewrite E. cbn [bind]. exists don, (snd st). split; [reflexivity|]. split; [apply (iv_nodup _ _ IV)|].
    split; [|split].
    + intros c. split; [intros H; apply (iv_done _ _ IV c H)|apply (all_needed st don IV HA)].
    + apply (iv_blen _ _ IV).
    + intros p Hp. apply (iv_boxes _ _ IV). rewrite np_eq. assumption.
Qed.
End R.

Lemma interval_inside u e n : 0 < n -> n <= e ->
  (0 <= fst (interval_at u (Z.of_nat e) (Z.of_nat n)) < snd (interval_at u (Z.of_nat e) (Z.of_nat n)) /\
   snd (interval_at u (Z.of_nat e) (Z.of_nat n)) <= Z.of_nat e)%Z.
Proof. unfold interval_at. destruct u; cbn; lia. Qed.

Lemma boxes_inside I nel start c K0 K1 : enough_elements I nel start -> (forall d, 0 < nel d) ->
  must_refine I nel start c -> nth_error (rfdirs I) (fst c) = Some (K0, K1) ->
  box_inside (Z.of_nat (knel K0)) (Z.of_nat (knel K1)) (box_of I nel c).
Proof.
  intros EN NP M Hd. unfold box_of. rewrite Hd. unfold box_at.
  assert (E0 : nel (kdeg K0) <= knel K0) by (apply (EN c 0 K0 M); [lia|exists (K0, K1); auto]).
  assert (E1 : nel (kdeg K1) <= knel K1) by (apply (EN c 1 K1 M); [lia|exists (K0, K1); auto]).
  pose proof (interval_inside (cpar0 (snd c)) _ _ (NP (kdeg K0)) E0).
  pose proof (interval_inside (cpar1 (snd c)) _ _ (NP (kdeg K1)) E1).
  do 4 eexists. split; [reflexivity|]. tauto.
Qed.

(** too few elements at a corner that is reached: the assertion fails *)
Lemma refCorner_short S I st c d dim : rfassert S = true -> dim < 2 ->
  nth_error (rfdirs I) (fst c) = Some d -> knel (kdim d dim) < rfnel S (kdeg (kdim d dim)) ->
  nth_error (snd (fst st)) (vertIndex c) = Some false -> refCorner S I st c = Err.
Proof.
  destruct st as [[lists mask] boxes]. cbn [fst snd]. intros A Hd Hn Hs Hm.
  unfold refCorner. unfold vget at 1. rewrite Hm. cbn [bind]. unfold vget at 1. rewrite Hn. cbn [bind].
  assert (X : forall dim, knel (kdim d dim) < rfnel S (kdeg (kdim d dim)) -> refDim S I c d dim = Err).
  { intros k Hk. unfold refDim. rewrite A. destruct (Nat.leb_spec (rfnel S (kdeg (kdim d k))) (knel (kdim d k))); [lia|]. reflexivity. }
  destruct dim as [|[|]]; [| |lia].
  - rewrite X by assumption. reflexivity.
  - destruct (refDim S I c d 0); [|reflexivity]. cbn [bind]. rewrite X by assumption. reflexivity.
Qed.

(** the property of both classes *)
Lemma dpatch_nel_pos RL d : 0 < rfnel (dpatchRef RL) d.
Proof.
  cbn [dpatchRef rfnel]. assert (0 < 2 ^ RL) by (apply Nat.neq_0_lt_0, Nat.pow_nonzero; lia).
  destruct (d <? 4); lia.
Qed.

Lemma refine_dpatch RL I start : ref_input I -> (forall l c, In l start -> In c l -> fst c < tnp (rftopo I)) ->
  enough_elements I (rfnel (dpatchRef RL)) start ->
  forall fuel, length start + 8 * length (rfdirs I) < fuel ->
  exists don boxes, refBoxes fuel (dpatchRef RL) I start = Ok boxes /\ NoDup don /\
    (forall c, In c don <-> must_refine I (rfnel (dpatchRef RL)) start c) /\
    length boxes = length (rfdirs I) /\
    (forall p, p < length (rfdirs I) ->
       nth_error boxes p = Some (flat_map (box_of I (rfnel (dpatchRef RL))) (filter (fun c => fst c =? p) don))) /\
    (forall c K0 K1, In c don -> nth_error (rfdirs I) (fst c) = Some (K0, K1) ->
       box_inside (Z.of_nat (knel K0)) (Z.of_nat (knel K1)) (box_of I (rfnel (dpatchRef RL)) c)).
Proof.
  intros RI SV EN fuel HF.
  destruct (refBoxes_ok (dpatchRef RL) I start RI SV (fun _ => EN) fuel HF) as (don & boxes & E & ND & DM & BL & B).
  exists don, boxes. do 5 (split; [assumption|]). intros c K0 K1 Hin Hd.
  apply (boxes_inside I _ start c K0 K1 EN (dpatch_nel_pos RL)); [apply DM; assumption|assumption].
Qed.

Lemma refine_almost I start : ref_input I -> (forall l c, In l start -> In c l -> fst c < tnp (rftopo I)) ->
  (forall d, In d (rfdirs I) -> 0 < knel (fst d) /\ 0 < knel (snd d)) ->
  forall fuel, length start + 8 * length (rfdirs I) < fuel ->
  exists don boxes, refBoxes fuel almostRef I start = Ok boxes /\ NoDup don /\
    (forall c, In c don <-> must_refine I (rfnel almostRef) start c) /\
    length boxes = length (rfdirs I) /\
    (forall p, p < length (rfdirs I) ->
       nth_error boxes p = Some (flat_map (box_of I (rfnel almostRef)) (filter (fun c => fst c =? p) don))) /\
    (forall c K0 K1, In c don -> nth_error (rfdirs I) (fst c) = Some (K0, K1) ->
       box_inside (Z.of_nat (knel K0)) (Z.of_nat (knel K1)) (box_of I (rfnel almostRef) c)).
Proof.
  intros RI SV POS fuel HF.
  destruct (refBoxes_ok almostRef I start RI SV ltac:(discriminate) fuel HF) as (don & boxes & E & ND & DM & BL & B).
  exists don, boxes. do 5 (split; [assumption|]). intros c K0 K1 Hin Hd.
  apply (boxes_inside I _ start c K0 K1); [|intros; cbn; lia|apply DM; assumption|assumption].
  intros c' dim K M Hdim (d & Hd' & ->). cbn. apply nth_error_In, POS in Hd'. destruct dim; lia.
Qed.

(** special corner lists *)
Section Sp.
Variables (t : topo) (C0s : list bool).
Hypothesis Hc : consistent t.
Hypothesis C0len : length C0s = 4 * tnp t.
Hypothesis C0vert : forall a b, glued_corners t a b -> nth_error C0s (vertIndex a) = nth_error C0s (vertIndex b).

Definition c0 (c : pcorner) : bool := match nth_error C0s (vertIndex c) with Some b => b | None => false end.
Definition spec_b (c : pcorner) : bool :=
  (inner t c && negb (valence t c =? 4)) || (negb (inner t c) && (2 - (if c0 c then 1 else 0) <? valence t c)).
Definition first_b (c : pcorner) : bool := negb (existsb (fun k => fst k <? fst c) (cls t c)).

Lemma c0_some c : fst c < tnp t -> nth_error C0s (vertIndex c) = Some (c0 c).
Proof.
  intros Hv. unfold c0. destruct (nth_error C0s (vertIndex c)) eqn:E; [reflexivity|].
  apply nth_error_None in E. pose proof (vertIndex_lt c (tnp t) Hv). lia.
Qed.

Lemma same_c0 a b : same_vertex t a b -> nth_error C0s (vertIndex a) = nth_error C0s (vertIndex b).
Proof.
  intros H. induction H as [|b c H IH [G|G]]; [reflexivity| |].
  - rewrite IH. apply C0vert. assumption.
  - rewrite IH. symmetry. apply C0vert. assumption.
Qed.

Lemma spec_b_iff c : fst c < tnp t -> spec_b c = true <-> special_vertex t C0s c.
Proof.
  intros Hv. unfold spec_b, special_vertex.
  pose proof (interior_vertex_iff t Hc c Hv) as IV. pose proof (fun v => has_valence_iff t Hc c v Hv) as HV.
  pose proof (c0_some c Hv) as C. split.
  - intros H. split; [assumption|]. exists (valence t c). split; [apply HV; reflexivity|].
    apply orb_true_iff in H. destruct H as [H|H]; apply andb_true_iff in H; destruct H as [A B].
    + left. split; [apply IV; assumption|]. apply negb_true_iff, Nat.eqb_neq in B. assumption.
    + right. apply negb_true_iff in A. apply Nat.ltb_lt in B.
      split; [intros X; apply (proj1 IV) in X; congruence|]. rewrite C. destruct (c0 c); [|left; lia].
      destruct (Nat.eq_dec (valence t c) 2); [right; auto|left; lia].
  - intros (_ & v & Hval & H). apply HV in Hval. subst v.
    apply orb_true_iff. destruct H as [(A & B)|(A & B)].
    + left. apply andb_true_iff. split; [apply IV; assumption|]. apply negb_true_iff, Nat.eqb_neq. assumption.
    + right. apply andb_true_iff. split.
      * apply negb_true_iff. destruct (inner t c) eqn:E; [|reflexivity]. exfalso. apply A. apply (proj2 IV). reflexivity.
      * apply Nat.ltb_lt. destruct B as [B|(B & D)]; [destruct (c0 c); lia|].
        rewrite C in D. injection D as ->. lia.
Qed.

Lemma special_lists : getSpecialCornerLists t C0s
  = Ok (map (cls t) (filter (fun c => spec_b c && first_b c) (all_corners (tnp t)))).
Proof.
  unfold getSpecialCornerLists.
  assert (X : forall l acc, (forall c, In c l -> fst c < tnp t) ->
    foldM (fun acc pc =>
      do C0 <- vget C0s (vertIndex pc);
      do l <- cornerList t pc;
      let isCycle := vertex_inner t l in
      let alreadyReached := existsb (fun k => fst k <? fst pc) l in
      let special := (isCycle && negb (length l =? 4)) || (negb isCycle && (2 - (if C0 then 1 else 0) <? length l)) in
      if special && negb alreadyReached then Ok (acc ++ [l]) else Ok acc) l acc
    = Ok (acc ++ map (cls t) (filter (fun c => spec_b c && first_b c) l))).
  { induction l as [|c l IH]; intros acc H; [simpl; rewrite app_nil_r; reflexivity|].
    pose proof (H c (or_introl eq_refl)) as Hv.
    cbn [foldM]. unfold vget at 1. rewrite c0_some by assumption. cbn [bind].
    rewrite (cornerList_cls t Hc c Hv). cbn [bind]. cbv zeta.
    fold (inner t c). fold (valence t c). fold (spec_b c). fold (first_b c).
    cbn [filter]. destruct (spec_b c && first_b c).
    - cbn [bind]. rewrite IH by (intros; apply H; right; assumption). cbn [map]. rewrite <- app_assoc. reflexivity.
    - cbn [bind]. apply IH. intros; apply H; right; assumption. }
  rewrite X; [reflexivity|]. intros c Hin. apply in_all_corners. assumption.
Qed.

Lemma min_patch (l : list pcorner) : l <> [] -> exists m, In m l /\ forall x, In x l -> fst m <= fst x.
Proof.
  induction l as [|a l IH]; intros NE; [contradiction|]. destruct l as [|b l'].
  - exists a. split; [left; reflexivity|]. intros x [<-|[]]. lia.
  - destruct IH as (m & Hm & HM); [discriminate|]. destruct (le_lt_dec (fst a) (fst m)).
    + exists a. split; [left; reflexivity|]. intros x [<-|Hx]; [lia|]. specialize (HM x Hx). lia.
    + exists m. split; [right; assumption|]. intros x [<-|Hx]; [lia|]. apply HM. assumption.
Qed.

Lemma spec_b_cls a b : fst a < tnp t -> In b (cls t a) -> spec_b b = spec_b a.
Proof.
  intros Hv Hb. unfold spec_b. rewrite (valence_cls t Hc a b Hv Hb), (inner_cls t Hc a b Hv Hb).
  replace (c0 b) with (c0 a); [reflexivity|]. unfold c0. rewrite (same_c0 a b); [reflexivity|].
  apply (same_vertex_cls t Hc a b Hv). assumption.
Qed.

Lemma special_ok : exists lists, getSpecialCornerLists t C0s = Ok lists /\
  (forall l c, In l lists -> In c l -> special_vertex t C0s c /\ forall b, In b l <-> same_vertex t c b) /\
  (forall c, special_vertex t C0s c -> exists l, In l lists /\ In c l).
Proof.
  eexists. split; [apply special_lists|]. split.
  - intros l c Hl Hin. apply in_map_iff in Hl. destruct Hl as (a & <- & Ha). apply filter_In in Ha.
    destruct Ha as (Ha & Hs). apply in_all_corners in Ha. apply andb_true_iff in Hs. destruct Hs as (Hs & _).
    assert (Hv : fst c < tnp t) by (apply (cls_valid t Hc a c Ha Hin)). split.
    + apply spec_b_iff; [assumption|]. rewrite (spec_b_cls a c) by assumption. assumption.
    + intros b. rewrite (same_vertex_cls t Hc c b Hv).
      pose proof (cls_perm t Hc a c Ha Hin) as P. split; intros H.
      * eapply Permutation_in; eassumption.
      * eapply Permutation_in; [apply Permutation_sym; eassumption|assumption].
  - intros c Hs. pose proof Hs as (Hv & _).
    destruct (min_patch (cls t c)) as (m & Hm & HM).
    { intros E. pose proof (cls_self t Hc c Hv) as X. rewrite E in X. destruct X. }
    assert (Hvm : fst m < tnp t) by (apply (cls_valid t Hc c m Hv Hm)).
    exists (cls t m). split.
    + apply in_map_iff. exists m. split; [reflexivity|]. apply filter_In. split; [apply in_all_corners; assumption|].
      apply andb_true_iff. split.
      * rewrite (spec_b_cls c m) by assumption. apply spec_b_iff; assumption.
      * unfold first_b. apply negb_true_iff. apply existsb_false. intros x Hx. apply Nat.ltb_ge. apply HM.
        eapply Permutation_in; [apply Permutation_sym, (cls_perm t Hc c m Hv Hm)|assumption].
    + apply (in_cls_sym t Hc); assumption.
Qed.

(** every special vertex is listed once if no patch meets a vertex twice *)
Lemma special_once : (forall a b, same_vertex t a b -> fst a < tnp t -> fst a = fst b -> a = b) ->
  exists lists, getSpecialCornerLists t C0s = Ok lists /\ NoDup (concat lists).
Proof.
  intros ONE. eexists. split; [apply special_lists|].
  assert (ND : NoDup (filter (fun c => spec_b c && first_b c) (all_corners (tnp t)))).
  { apply NoDup_filter, all_corners_nodup. }
  assert (VF : forall c, In c (filter (fun c => spec_b c && first_b c) (all_corners (tnp t))) -> fst c < tnp t /\ first_b c = true).
  { intros c H. apply filter_In in H. destruct H as (H1 & H2). apply in_all_corners in H1. apply andb_true_iff in H2. tauto. }
  induction (filter _ _) as [|c l IH]; [constructor|]. cbn [map concat].
  inversion ND as [|? ? NI ND']; subst. destruct (VF c (or_introl eq_refl)) as (Hv & HF).
  apply NoDup_app_iff. split; [apply (cls_nodup t Hc c Hv)|]. split.
  - apply IH; [assumption|]. intros; apply VF; right; assumption.
  - intros x Hx Hx2. apply in_concat in Hx2. destruct Hx2 as (k & Hk & Hxk). apply in_map_iff in Hk.
    destruct Hk as (b & <- & Hb). destruct (VF b (or_intror Hb)) as (Hvb & HFb).
    assert (CB : In b (cls t c)).
    { apply (in_cls t Hc c b Hv). apply (in_cls t Hc c x Hv) in Hx. apply (in_cls t Hc b x Hvb) in Hxk.
      eapply reach_trans; [exact Hx|]. apply (reach_sym t Hc). assumption. }
    assert (BC : In c (cls t b)) by (apply (in_cls_sym t Hc); assumption).
    unfold first_b in HF, HFb. apply negb_true_iff in HF, HFb.
    rewrite existsb_false in HF, HFb. specialize (HF b CB). specialize (HFb c BC). apply Nat.ltb_ge in HF, HFb.
    assert (c = b). { apply ONE; [apply (same_vertex_cls t Hc c b Hv); assumption|assumption|lia]. }
    subst b. contradiction.
Qed.
End Sp.

Lemma refLoop_more S I : forall f v st r k, refLoop f S I v st = Ok r -> refLoop (f + k) S I v st = Ok r.
Proof.
  induction f as [|f IH]; intros v st r k H.
  - destruct k; [exact H|]. cbn [refLoop plus] in *. destruct (nth_error (fst (fst st)) v); [discriminate|exact H].
  - cbn [refLoop plus] in *. destruct (nth_error (fst (fst st)) v) as [l|]; [|exact H].
    destruct (foldM (refCorner S I) l st) as [st'|]; [|discriminate]. cbn [bind] in *. apply IH. exact H.
Qed.

Lemma refBoxes_fuel S I start f g : f <= g -> forall b, refBoxes f S I start = Ok b -> refBoxes g S I start = Ok b.
Proof.
  intros L b H. unfold refBoxes in *. replace g with (f + (g - f)) by lia.
  destruct (refLoop f S I 0 _) as [st|] eqn:E; [|discriminate]. rewrite (refLoop_more _ _ _ _ _ _ _ E). exact H.
Qed.

(** if a corner of the first list lacks elements, gsDPatch stops *)
Lemma short_first_list RL I c rest d dim fuel : dim < 2 -> fst c < length (rfdirs I) ->
  nth_error (rfdirs I) (fst c) = Some d -> knel (kdim d dim) < rfnel (dpatchRef RL) (kdeg (kdim d dim)) ->
  refBoxes fuel (dpatchRef RL) I ((c :: fst rest) :: snd rest) = Err.
Proof.
  intros Hd Hc Hn Hs. unfold refBoxes. destruct fuel as [|f]; [reflexivity|].
  cbn [refLoop fst nth_error foldM].
  rewrite (refCorner_short (dpatchRef RL) I _ c d dim); auto. cbn [fst snd].
  apply nth_error_repeat. apply vertIndex_lt. assumption.
Qed.
