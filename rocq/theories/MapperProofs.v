(** The mapper built by gsSmoothInterfaces eliminates exactly the functions
    described by [elim]. *)
From Verif Require Import Common TopoModel BaseModel IndexSpec TopoSpec SmoothSpec
  IndexProofs IndexTopoProofs ListLemmas TopoProofs PointProofs.
From Coq Require Import ZifyBool.

Lemma in_melim_markBoundary m p ks :
  (forall k, In k ks -> valid_dof m (p, k) = true) ->
  exists m', markBoundary m p ks = Ok m' /\ msizes m' = msizes m /\
    forall y, In y (melim m') <-> In y (melim m) \/ exists k, In k ks /\ y = (p, k).
Proof.
  unfold markBoundary. revert m. induction ks as [|k ks IH]; intros m H; simpl.
  - exists m. repeat split; auto. intros [|(k & [] & _)]; auto.
  - unfold eliminateDof at 1. rewrite H by (left; auto). simpl.
    destruct (IH (mkM (msizes m) ((p, k) :: melim m))) as (m' & E & Hs & Hm).
    { intros k' Hk'. apply (H k'). right; auto. }
    exists m'. rewrite E. repeat split; auto.
    + rewrite Hm. simpl. intros [[<-|?]|(k' & ? & ->)]; eauto.
    + rewrite Hm. simpl. intros [?|(k' & [<-|?] & ->)]; eauto.
Qed.

Lemma filter_rev {A} (f : A -> bool) l : filter f (rev l) = rev (filter f l).
Proof.
  induction l as [|a l IH]; [reflexivity|]. simpl. rewrite filter_app, IH. simpl.
  destruct (f a); simpl; [reflexivity|]. apply app_nil_r.
Qed.

Lemma filter_map {A B} (f : B -> bool) (g : A -> B) l : filter f (map g l) = map g (filter (fun x => f (g x)) l).
Proof. induction l; simpl; [reflexivity|]. destruct (f (g a)); simpl; congruence. Qed.

Lemma without_ends (f : nat -> nat) n sel :
  4 <= n -> (forall u v, u < n -> v < n -> f u = f v -> u = v) ->
  (forall x, In x sel <-> x = f 0 \/ x = f 1 \/ x = f (n - 1) \/ x = f (n - 2)) ->
  without (map f (seq 0 n)) sel = map f (seq 2 (n - 4)).
Proof.
  intros Hn Hinj Hsel. unfold without. rewrite filter_map. f_equal.
  replace n with (2 + ((n - 4) + 2)) at 1 by lia.
  rewrite seq_app, filter_app, seq_app, filter_app.
  assert (forall u, u < n -> negb (existsb (Nat.eqb (f u)) sel) = negb ((u <? 2) || (n - 2 <=? u))) as K.
  { intros u Hu. f_equal. apply eq_true_iff_eq. rewrite existsb_exists, orb_true_iff, Nat.ltb_lt, Nat.leb_le. split.
    - intros (x & Hx & E). apply Nat.eqb_eq in E. rewrite Hsel in Hx.
      destruct Hx as [Hx|[Hx|[Hx|Hx]]]; rewrite Hx in E; apply Hinj in E; lia.
    - intros H. exists (f u). split; [|apply Nat.eqb_refl]. apply Hsel.
      assert (u = 0 \/ u = 1 \/ u = n - 1 \/ u = n - 2) as [->|[->|[->| ->]]] by lia; tauto. }
  rewrite (filter_none _ (seq 0 2)).
  2:{ intros u Hu. apply in_seq in Hu. rewrite K by lia. lia. }
  rewrite (filter_none _ (seq _ 2)).
  2:{ intros u Hu. apply in_seq in Hu. rewrite K by lia. lia. }
  rewrite filter_all.
  2:{ intros u Hu. apply in_seq in Hu. rewrite K by lia. lia. }
  rewrite app_nil_r. reflexivity.
Qed.

Section M.
Variable I : input.
Hypothesis WF : well_formed I.
Let t := itopo I.
Let bs := ibases I.
Let np := length bs.

Lemma Hcons : consistent t. Proof. apply (wf_topo I WF). Qed.
Lemma Hnp : tnp t = np. Proof. apply (wf_np I WF). Qed.
Lemma Hbig : big bs. Proof. intros b Hb. apply (wf_big I WF b Hb). Qed.

Notation bas := (bas bs).
Notation loc := (loc bs).
Notation pvalid := (pvalid bs).
Notation decode := (decode bs).

Lemma basisOf_ok p : p < np -> basisOf I p = Ok (bas p).
Proof. intros H. unfold basisOf. apply bas_vget. exact H. Qed.

Lemma ifv_ok pc s k o : fst pc < np -> on_side (snd pc) s = true -> k < 2 -> o < 2 ->
  ifv I k pc s o = Ok (snd (loc (dpt pc (side_dir s) k o))).
Proof.
  intros Hp Hs Hk Ho. unfold ifv. rewrite basisOf_ok by exact Hp. simpl.
  destruct pc as [p c]. simpl in *. apply ifv_dpt; auto. exact Hbig.
Qed.

Lemma near_ok ps o : fst ps < np -> o < 2 ->
  exists sel, near_corner_indices I ps o = Ok sel /\
    forall x, In x sel <->
      let f := spt (bas (fst ps)) (snd ps) o in let n := alongb (bas (fst ps)) (snd ps) in
      x = f 0 \/ x = f 1 \/ x = f (n - 1) \/ x = f (n - 2).
Proof.
  intros Hp Ho. destruct ps as [p s]. simpl fst in *; simpl snd in *. unfold near_corner_indices. simpl fst; simpl snd.
  set (g := fun c => [snd (loc (dpt (p, c) (side_dir s) 0 o)); snd (loc (dpt (p, c) (side_dir s) 1 o))]).
  rewrite (mapM_ok _ g).
  2:{ intros c Hc. apply contained_corners_on in Hc. rewrite !ifv_ok by (auto; simpl; lia). reflexivity. }
  simpl. eexists. split; [reflexivity|]. intros x.
  rewrite contained_corners_at. unfold g. cbn [map concat app In].
  rewrite !spt_of_dpt by (auto; lia). cbn [snd].
  replace (alongb (bas p) s - 1 - 0) with (alongb (bas p) s - 1) by lia.
  replace (alongb (bas p) s - 1 - 1) with (alongb (bas p) s - 2) by lia. intuition.
Qed.

Lemma without_near ps o sel : fst ps < np -> o < 2 -> near_corner_indices I ps o = Ok sel ->
  without (boundaryOffset (bas (fst ps)) (snd ps) o) sel =
  map (spt (bas (fst ps)) (snd ps) o) (seq 2 (alongb (bas (fst ps)) (snd ps) - 4)).
Proof.
  intros Hp Ho E. destruct (near_ok ps o Hp Ho) as (sel' & E' & H). rewrite E in E'. injection E' as <-.
  rewrite boundaryOffset_spt. apply without_ends; auto.
  - apply bas_along; auto. exact Hbig.
  - intros u v Hu Hv. apply spt_inj; auto. exact Hbig.
Qed.

(** ** marks *)
Definition marks {A} (ix : A -> nat) (pt : A -> nat) (l : list bool) (P : A -> Prop) : Prop :=
  length l = 4 * np /\ forall a, pt a < np -> exists b, vget l (ix a) = Ok b /\ (b = true <-> P a).
Notation smarks := (marks sideIndex (@fst nat side)).
Notation vmarks := (marks vertIndex (@fst nat corner)).

Lemma smarks_set l P ps : smarks l P -> fst ps < np ->
  exists l', vset l (sideIndex ps) true = Ok l' /\ smarks l' (fun x => x = ps \/ P x).
Proof.
  intros [H1 H2] Hp. exists (upd l (sideIndex ps) true).
  assert (sideIndex ps < length l) as Hl by (rewrite H1; apply sideIndex_lt; exact Hp).
  split; [apply vset_ok; exact Hl|]. split; [rewrite upd_length; exact H1|].
  intros a Ha. rewrite vget_upd by exact Hl. destruct (sideIndex ps =? sideIndex a) eqn:E.
  - apply Nat.eqb_eq, sideIndex_inj in E. subst. exists true. tauto.
  - destruct (H2 a Ha) as (b & Hb & Hb'). exists b. split; auto. rewrite Hb'. intuition.
    subst. rewrite Nat.eqb_refl in E. discriminate.
Qed.
Lemma vmarks_set l P pc : vmarks l P -> fst pc < np ->
  exists l', vset l (vertIndex pc) true = Ok l' /\ vmarks l' (fun x => x = pc \/ P x).
Proof.
  intros [H1 H2] Hp. exists (upd l (vertIndex pc) true).
  assert (vertIndex pc < length l) as Hl by (rewrite H1; apply vertIndex_lt; exact Hp).
  split; [apply vset_ok; exact Hl|]. split; [rewrite upd_length; exact H1|].
  intros a Ha. rewrite vget_upd by exact Hl. destruct (vertIndex pc =? vertIndex a) eqn:E.
  - apply Nat.eqb_eq, vertIndex_inj in E. subst. exists true. tauto.
  - destruct (H2 a Ha) as (b & Hb & Hb'). exists b. split; auto. rewrite Hb'. intuition.
    subst. rewrite Nat.eqb_refl in E. discriminate.
Qed.
Lemma marks_ext {A} ix (pt : A -> nat) l P Q :
  (forall a, pt a < np -> P a <-> Q a) -> marks ix pt l P -> marks ix pt l Q.
Proof.
  intros H [H1 H2]. split; auto. intros a Ha. destruct (H2 a Ha) as (b & Hb & Hb'). exists b. split; auto.
  rewrite Hb'. apply H. exact Ha.
Qed.
Lemma smarks_init : smarks (repeat false (nSides I)) (fun _ => False).
Proof.
  assert (nSides I = 4 * np) as E.
  { rewrite side_array_length by apply Hcons. fold t. rewrite Hnp. reflexivity. }
  rewrite E. split; [apply repeat_length|]. intros a Ha. exists false. split; [|intuition discriminate].
  apply vget_repeat. apply sideIndex_lt. exact Ha.
Qed.
Lemma vmarks_init : vmarks (repeat false (nVerts I)) (fun _ => False).
Proof.
  unfold nVerts. fold bs np. split; [apply repeat_length|]. intros a Ha. exists false. split; [|intuition discriminate].
  apply vget_repeat. apply vertIndex_lt. exact Ha.
Qed.
Lemma marks_false {A} ix (pt : A -> nat) l P a : marks ix pt l P -> pt a < np -> ~ P a -> vget l (ix a) = Ok false.
Proof. intros [_ H] Ha HP. destruct (H a Ha) as ([] & Hb & Hb'); auto. exfalso. apply HP, Hb'. reflexivity. Qed.

(** ** the eliminated points *)
Notation valence := (valence t).
Notation inner := (inner t).
Notation ifl := (ifl t).

Definition c0 (pc : pcorner) : bool := nth (vertIndex pc) (iC0 I) false.

Lemma c0_vget pc : fst pc < np -> vget (iC0 I) (vertIndex pc) = Ok (c0 pc).
Proof.
  intros H. unfold vget, c0. rewrite (nth_error_nth' _ false); [reflexivity|].
  rewrite (wf_C0_length I WF). apply vertIndex_lt. exact H.
Qed.

Lemma cn_glued c c' : In c' (cn t c) -> glued_corners t c c' \/ glued_corners t c' c.
Proof.
  intros H. apply in_cn in H. destruct H as (d & d' & Hd & E). destruct c as [p c].
  apply dnext_spec in E. destruct E as (ps' & fl & G & -> & -> & _).
  apply (glue_some t Hcons) in G. destruct G as (f & Hf & <- & [[E1 E2]|[E1 E2]]).
  - left. exists f, (pos_on (cside c d) c). rewrite E1, E2. simpl.
    rewrite corner_at_pos_on by apply on_side_cside. auto.
  - right. exists f, (xorb (ifflip f) (pos_on (cside c d) c)). rewrite E1, E2. simpl.
    rewrite <- xorb_assoc, xorb_nilpotent, xorb_false_l.
    rewrite corner_at_pos_on by apply on_side_cside. auto.
Qed.

Lemma validc_np c : validc t c <-> fst c < np.
Proof. unfold validc. rewrite Hnp. tauto. Qed.

Lemma c0_cn c c' : In c' (cn t c) -> c0 c' = c0 c.
Proof.
  intros H. pose proof H as H'. apply cn_glued in H.
  apply in_cn in H'. destruct H' as (d & d' & _ & H'). apply (dnext_valid t Hcons) in H'.
  destruct H' as [V V']. apply validc_np in V, V'.
  assert (nth_error (iC0 I) (vertIndex c) = nth_error (iC0 I) (vertIndex c')) as E.
  { destruct H; [|symmetry]; apply (wf_C0_vertex I WF); auto. }
  pose proof (c0_vget c V) as E1. pose proof (c0_vget c' V') as E2. unfold vget in *. rewrite E in E1.
  destruct (nth_error (iC0 I) (vertIndex c')); congruence.
Qed.

Lemma c0_cls c c' : validc t c -> In c' (cls t c) -> c0 c' = c0 c.
Proof.
  intros Hv H. apply (in_cls t Hcons) in H; [|exact Hv]. induction H; [reflexivity|].
  rewrite (c0_cn b c H0). apply IHreach. exact Hv.
Qed.

Definition rule (pc : pcorner) (k : nat) : bool :=
  inner pc || (k =? 1) || ((valence pc =? 2) && negb (c0 pc)).

Definition elim (x : pt) : bool :=
  match x with
  | PI _ _ _ => false
  | PE ps o _ => (o =? 0) && isInterface t ps
  | PC pc a e => ((a =? 0) && ifl pc 0 && rule pc e) || ((e =? 0) && ifl pc 1 && rule pc a)
  end.

Lemma elim_dpt pc d k : d < 2 -> elim (dpt pc d k 0) = true <->
  (ifl pc d && rule pc k = true) \/ (k = 0 /\ ifl pc (1 - d) && rule pc 0 = true).
Proof.
  intros Hd. destruct d as [|[|]]; try lia; simpl; destruct k as [|k]; simpl;
    rewrite ?orb_false_r, ?orb_true_iff; intuition; try lia.
Qed.

(** ** interface loop *)
Definition strip (ps : pside) (y : dof) : Prop := exists u, pvalid (PE ps 0 u) /\ y = loc (PE ps 0 u).

Lemma valid_dof_iff m y : msizes m = map tsize bs -> valid_dof m y = true <-> dvalid bs y.
Proof.
  intros E. unfold valid_dof, dvalid. rewrite E, nth_error_map. destruct y as [p k]; simpl.
  destruct (nth_error bs p) as [b|] eqn:F; simpl.
  - assert (bas p = b) as -> by (unfold PointProofs.bas; apply nth_error_nth; exact F).
    rewrite Nat.ltb_lt. split; [|tauto]. intros. split; auto. apply nth_error_Some. congruence.
  - apply nth_error_None in F. split; [discriminate|]. intros [H _]. lia.
Qed.

Lemma interfaceMapper_side_ok s ps P :
  smarks (ms_side s) P -> fst ps < np -> ~ P ps -> msizes (ms_map s) = map tsize bs ->
  exists s', interfaceMapper_side I s ps = Ok s' /\ smarks (ms_side s') (fun x => x = ps \/ P x) /\
    ms_vert s' = ms_vert s /\ msizes (ms_map s') = map tsize bs /\
    forall y, In y (melim (ms_map s')) <-> In y (melim (ms_map s)) \/ strip ps y.
Proof.
  intros Hm Hp HP Hs. unfold interfaceMapper_side.
  rewrite (marks_false _ _ _ _ _ Hm Hp HP). simpl. rewrite basisOf_ok by exact Hp. simpl.
  destruct (near_ok ps 0 Hp ltac:(lia)) as (sel & E & _). rewrite E. simpl.
  rewrite (without_near ps 0 sel Hp ltac:(lia) E).
  destruct (in_melim_markBoundary (ms_map s) (fst ps)
     (map (spt (bas (fst ps)) (snd ps) 0) (seq 2 (alongb (bas (fst ps)) (snd ps) - 4)))) as (m' & E' & Hs' & Hm').
  { intros k Hk. apply in_map_iff in Hk. destruct Hk as (u & <- & Hu). apply in_seq in Hu.
    apply valid_dof_iff; [exact Hs|]. apply (loc_valid bs Hbig (PE ps 0 u)). simpl.
    split; [exact Hp|]. lia. }
  rewrite E'. simpl. destruct (smarks_set _ _ ps Hm Hp) as (sc & E2 & Hsc). rewrite E2. simpl.
  eexists. split; [reflexivity|]. simpl. repeat split; auto; try congruence; try apply Hsc.
  - rewrite Hm'. intros [?|(k & Hk & ->)]; auto. right. apply in_map_iff in Hk. destruct Hk as (u & <- & Hu).
    apply in_seq in Hu. exists u. simpl. split; [|reflexivity]. split; [exact Hp|]. lia.
  - rewrite Hm'. intros [?|(u & Hu & ->)]; auto. right. simpl in Hu. eexists. split; [|reflexivity].
    apply in_map. apply in_seq. lia.
Qed.

Definition isides (l : list iface) : list pside := flat_map (fun f => [if1 f; if2 f]) l.

Lemma iface_ends_np f : In f (tif t) -> fst (if1 f) < np /\ fst (if2 f) < np.
Proof.
  intros Hf. rewrite <- Hnp. split; apply (sides_valid t Hcons); left; apply in_iface_sides; exists f; auto.
Qed.

Lemma isides_nodup pre f post : tif t = pre ++ f :: post ->
  ~ In (if1 f) (isides pre) /\ ~ In (if2 f) (isides pre) /\ if1 f <> if2 f.
Proof.
  intros E. pose proof (sides_nodup t Hcons) as H. unfold iface_sides in H. rewrite E in H.
  rewrite flat_map_app in H. fold (isides pre) in H.
  apply NoDup_app_iff in H. destruct H as (H & _ & _). apply NoDup_app_iff in H. destruct H as (_ & H1 & H2).
  split; [|split].
  - intros G. apply (H2 _ G). left; auto.
  - intros G. apply (H2 _ G). right; left; auto.
  - apply (iface_ends_differ t Hcons). rewrite E. apply in_elt.
Qed.

Lemma interface_loop s0 : smarks (ms_side s0) (fun _ => False) -> msizes (ms_map s0) = map tsize bs ->
  exists s, foldM (computeInterfaceMapper I) (tif t) s0 = Ok s /\
    smarks (ms_side s) (fun ps => In ps (iface_sides t)) /\ ms_vert s = ms_vert s0 /\
    msizes (ms_map s) = map tsize bs /\
    forall y, In y (melim (ms_map s)) <-> In y (melim (ms_map s0)) \/ exists ps, In ps (iface_sides t) /\ strip ps y.
Proof.
  intros Hm0 Hs0.
  apply (foldM_inv (fun pre s => smarks (ms_side s) (fun ps => In ps (isides pre)) /\ ms_vert s = ms_vert s0 /\
    msizes (ms_map s) = map tsize bs /\
    forall y, In y (melim (ms_map s)) <-> In y (melim (ms_map s0)) \/ exists ps, In ps (isides pre) /\ strip ps y)).
  { repeat split; auto; try apply Hm0. intros [?|(ps & [] & _)]; auto. }
  intros pre f post s E (Hm & Hv & Hs & Hy).
  assert (In f (tif t)) as Hf by (rewrite E; apply in_elt).
  destruct (iface_ends_np f Hf) as [P1 P2]. destruct (isides_nodup pre f post E) as (N1 & N2 & N3).
  unfold computeInterfaceMapper. rewrite (marks_false _ _ _ _ _ Hm P2 N2). cbn [bind foldM].
  destruct (interfaceMapper_side_ok s (if1 f) _ Hm P1 N1 Hs) as (s1 & E1 & Hm1 & Hv1 & Hs1 & Hy1).
  rewrite E1. simpl.
  destruct (interfaceMapper_side_ok s1 (if2 f) _ Hm1 P2) as (s2 & E2 & Hm2 & Hv2 & Hs2 & Hy2); auto.
  { intros [G|G]; [congruence|contradiction]. }
  rewrite E2. simpl. exists s2. split; [reflexivity|]. split; [|split; [congruence|split; [exact Hs2|intros y; split]]].
  - revert Hm2. apply marks_ext. intros a _. unfold isides. rewrite flat_map_app, in_app_iff. simpl.
    split; [intros [->|[->|?]]|intros [?|[<-|[<-|[]]]]]; auto.
  - rewrite Hy2, Hy1, Hy. unfold isides. rewrite flat_map_app.
    intros [[[?|(ps & ? & ?)]|?]|?]; auto; right; eexists; (split; [|eassumption]); apply in_app_iff; simpl; auto.
  - rewrite Hy2, Hy1, Hy. unfold isides. rewrite flat_map_app.
    intros [?|(ps & G & ?)]; auto. apply in_app_iff in G. simpl in G.
    destruct G as [G|[<-|[<-|[]]]]; auto. left; left; right. exists ps. auto.
Qed.

Lemma boundary_mapper_loop s0 P : smarks (ms_side s0) P ->
  exists s, foldM computeBoundaryMapper (tbd t) s0 = Ok s /\ ms_map s = ms_map s0 /\ ms_vert s = ms_vert s0.
Proof.
  intros Hm0.
  destruct (foldM_inv2 (fun s => (exists P, smarks (ms_side s) P) /\ ms_map s = ms_map s0 /\ ms_vert s = ms_vert s0)
     computeBoundaryMapper (tbd t) s0) as (s & E & _ & H1 & H2).
  - eauto.
  - intros ps s Hps ((P' & Hm) & E1 & E2).
    assert (fst ps < np) as Hp by (rewrite <- Hnp; apply (sides_valid t Hcons); auto).
    unfold computeBoundaryMapper. destruct (smarks_set _ _ ps Hm Hp) as (l & -> & Hl). simpl.
    eexists. split; [reflexivity|]. simpl. eauto.
  - eauto.
Qed.

(** ** vertex loop *)
Lemma vertexData_ok pc : fst pc < np -> vertexData t pc = Ok (valence pc, inner pc).
Proof.
  intros H. unfold vertexData. rewrite (cornerList_cls t Hcons) by (apply validc_np; exact H). reflexivity.
Qed.

Lemma elim_along_ok m pc sd ks : fst pc < np -> on_side (snd pc) sd = true -> (forall k, In k ks -> k < 2) ->
  msizes m = map tsize bs ->
  exists m', elim_along I pc sd ks m = Ok m' /\ msizes m' = map tsize bs /\
   forall y, In y (melim m') <-> In y (melim m) \/ exists k, In k ks /\ y = loc (dpt pc (side_dir sd) k 0).
Proof.
  intros Hp Hs. revert m. unfold elim_along. induction ks as [|k ks IH]; intros m Hk Hm; simpl.
  - exists m. repeat split; auto. intros [|(k & [] & _)]; auto.
  - rewrite ifv_ok by (auto; try lia; apply Hk; left; auto). simpl.
    assert ((fst pc, snd (loc (dpt pc (side_dir sd) k 0))) = loc (dpt pc (side_dir sd) k 0)) as El.
    { rewrite <- (loc_dpt_fst bs pc (side_dir sd) k 0). destruct (loc _); reflexivity. }
    assert (eliminateDof m (snd (loc (dpt pc (side_dir sd) k 0))) (fst pc) =
            Ok (mkM (msizes m) (loc (dpt pc (side_dir sd) k 0) :: melim m))) as Ed.
    { unfold eliminateDof. rewrite El. replace (valid_dof m _) with true; [reflexivity|].
      symmetry. apply valid_dof_iff; auto. apply loc_valid; [exact Hbig|]. apply dpt_valid; auto. apply Hk; left; auto. }
    rewrite Ed.
    simpl. destruct (IH (mkM (msizes m) (loc (dpt pc (side_dir sd) k 0) :: melim m))) as (m' & E & Hs' & Hm').
    + intros; apply Hk; right; auto.
    + exact Hm.
    + exists m'. rewrite E. repeat split; auto.
      * rewrite Hm'. simpl. intros [[<-|?]|(k' & ? & ->)]; eauto.
      * rewrite Hm'. simpl. intros [?|(k' & [<-|?] & ->)]; eauto.
Qed.

Lemma elim_sides_ok m pc ks (test : side -> bool) : fst pc < np -> (forall k, In k ks -> k < 2) ->
  msizes m = map tsize bs ->
  exists m', foldM (fun m sd => if test sd then elim_along I pc sd ks m else Ok m) (containing_sides (snd pc)) m = Ok m'
   /\ msizes m' = map tsize bs /\
   forall y, In y (melim m') <-> In y (melim m) \/
     exists d k, d < 2 /\ test (cside (snd pc) d) = true /\ In k ks /\ y = loc (dpt pc d k 0).
Proof.
  intros Hp Hk Hm. unfold containing_sides. cbn [foldM].
  assert (forall d m, d < 2 -> msizes m = map tsize bs ->
    exists m', (if test (cside (snd pc) d) then elim_along I pc (cside (snd pc) d) ks m else Ok m) = Ok m' /\
      msizes m' = map tsize bs /\
      forall y, In y (melim m') <-> In y (melim m) \/ exists k, test (cside (snd pc) d) = true /\ In k ks /\ y = loc (dpt pc d k 0)) as K.
  { intros d m1 Hd Hm1. destruct (test (cside (snd pc) d)) eqn:T.
    - destruct (elim_along_ok m1 pc (cside (snd pc) d) ks Hp (on_side_cside _ _) Hk Hm1) as (m' & E & Hs & Hy).
      exists m'. split; [exact E|]. split; [exact Hs|]. intros y. rewrite Hy, side_dir_cside by exact Hd.
      split; (intros [?|(k & G)]; [auto|]); right; exists k; tauto.
    - exists m1. repeat split; auto. intros [?|(k & ? & _)]; [auto|discriminate]. }
  destruct (K 0 m ltac:(lia) Hm) as (m1 & -> & Hs1 & Hy1). cbn [bind].
  destruct (K 1 m1 ltac:(lia) Hs1) as (m2 & -> & Hs2 & Hy2). cbn [bind].
  exists m2. split; [reflexivity|]. split; [exact Hs2|]. intros y. rewrite Hy2, Hy1. split.
  - intros [[?|(k & ?)]|(k & ?)]; [auto|right; exists 0, k|right; exists 1, k]; repeat split; try tauto; lia.
  - intros [?|(d & k & Hd & G)]; [auto|]. destruct d as [|[|]]; try lia; [left; right|right]; exists k; exact G.
Qed.

Definition vpoints (pc : pcorner) (y : dof) : Prop :=
  exists d k, d < 2 /\ k < 2 /\ ifl pc d = true /\ rule pc k = true /\ y = loc (dpt pc d k 0).

Lemma computeVertexMapper_ok s pc P :
  vmarks (ms_vert s) P -> fst pc < np -> ~ P pc -> msizes (ms_map s) = map tsize bs ->
  exists s', computeVertexMapper I s pc = Ok s' /\ vmarks (ms_vert s') (fun x => x = pc \/ P x) /\
    msizes (ms_map s') = map tsize bs /\
    forall y, In y (melim (ms_map s')) <-> In y (melim (ms_map s)) \/ vpoints pc y.
Proof.
  intros Hm Hp HP Hs. unfold computeVertexMapper.
  rewrite (marks_false _ _ _ _ _ Hm Hp HP). cbn [bind].
  rewrite c0_vget by exact Hp. cbn [bind]. fold t. rewrite vertexData_ok by exact Hp. cbn [bind fst snd].
  assert (validc t pc) as Hv by (apply validc_np; exact Hp).
  match goal with |- context [bind ?e (fun m => bind _ _)] =>
    assert (exists m', e = Ok m' /\ msizes m' = map tsize bs /\
      forall y, In y (melim m') <-> In y (melim (ms_map s)) \/ vpoints pc y) as K end.
  { assert (1 <= valence pc) as V1.
    { unfold TopoProofs.valence. pose proof (cls_self t Hcons pc Hv). destruct (cls t pc); [contradiction|simpl; lia]. }
    assert (forall ks test,
      (forall k, In k ks -> k < 2) ->
      (forall d k, d < 2 -> k < 2 -> (test (cside (snd pc) d) = true /\ In k ks <-> ifl pc d = true /\ rule pc k = true)) ->
      exists m', foldM (fun m sd => if (test sd : bool) then elim_along I pc sd ks m else Ok m) (containing_sides (snd pc)) (ms_map s) = Ok m'
        /\ msizes m' = map tsize bs /\ forall y, In y (melim m') <-> In y (melim (ms_map s)) \/ vpoints pc y) as G.
    { intros ks test Hks Heq. destruct (elim_sides_ok (ms_map s) pc ks test Hp Hks Hs) as (m' & E & Hs' & Hy).
      exists m'. split; [exact E|]. split; [exact Hs'|]. intros y. rewrite Hy. unfold vpoints.
      split; (intros [?|(d & k & H)]; [auto|right; exists d, k]).
      - destruct H as (Hd & H1 & H2 & H3). pose proof (Hks k H2). destruct (proj1 (Heq d k Hd H)) as [? ?]; auto 10.
      - destruct H as (Hd & Hk & H1 & H2 & H3). destruct (proj2 (Heq d k Hd Hk)) as [? ?]; auto 10. }
    assert (rule pc 1 = true) as R1 by (unfold rule; simpl; destruct (inner pc); reflexivity).
    destruct (inner pc) eqn:Hin; cbn [negb andb].
    - unfold mapperInteriorVertex_v. fold t.
      replace (foldM (fun m sd => elim_along I pc sd [0; 1] m) (containing_sides (snd pc)) (ms_map s))
        with (foldM (fun m sd => if (true : bool) then elim_along I pc sd [0; 1] m else Ok m) (containing_sides (snd pc)) (ms_map s)) by reflexivity.
      apply (G [0; 1] (fun _ => true)); [simpl; lia|].
      intros d k Hd Hk. assert (rule pc k = true) as -> by (unfold rule; rewrite Hin; reflexivity).
      unfold TopoProofs.ifl. rewrite (inner_iface t Hcons pc d Hv Hin). simpl. intuition lia.
    - destruct (valence pc =? 1) eqn:E1.
      + exists (ms_map s). repeat split; auto. intros [?|(d & k & Hd & Hk & F & _)]; auto.
        rewrite (val1_boundary t Hcons pc d) in F; auto; try discriminate. lia.
      + assert (forall k, k < 2 -> k <> 0 -> k = 1) as K1 by lia.
        destruct (valence pc =? 2) eqn:E2; destruct (c0 pc) eqn:Ec; cbn [andb negb].
        * apply (G [1] (fun sd => isInterface t (fst pc, sd))); [simpl; lia|].
          intros d k Hd Hk. unfold TopoProofs.ifl, rule. rewrite Hin, E2, Ec. simpl.
          rewrite orb_false_r, Nat.eqb_eq. intuition.
        * apply (G [0; 1] (fun sd => isInterface t (fst pc, sd))); [simpl; lia|].
          intros d k Hd Hk. unfold TopoProofs.ifl, rule. rewrite Hin, E2, Ec. simpl.
          rewrite orb_true_r. intuition lia.
        * replace (2 <? valence pc) with true by lia.
          apply (G [1] (fun sd => isInterface t (fst pc, sd))); [simpl; lia|].
          intros d k Hd Hk. unfold TopoProofs.ifl, rule. rewrite Hin, E2, Ec. simpl.
          rewrite orb_false_r, Nat.eqb_eq. intuition.
        * replace (2 <? valence pc) with true by lia.
          apply (G [1] (fun sd => isInterface t (fst pc, sd))); [simpl; lia|].
          intros d k Hd Hk. unfold TopoProofs.ifl, rule. rewrite Hin, E2, Ec. simpl.
          rewrite orb_false_r, Nat.eqb_eq. intuition. }
  destruct K as (m' & E & Hs' & Hy). rewrite E. cbn [bind].
  destruct (vmarks_set _ _ pc Hm Hp) as (l & El & Hl). rewrite El. cbn [bind].
  eexists. split; [reflexivity|]. simpl. auto.
Qed.

Lemma corner_loop_prefix pre pc post : corner_loop I = pre ++ pc :: post ->
  fst pc < np /\ ~ In pc pre.
Proof.
  intros E. unfold corner_loop in E. fold bs np in E. split.
  - apply in_all_corners. rewrite E. apply in_elt.
  - intros H. pose proof (all_corners_nodup np) as N. rewrite E in N. apply NoDup_app_iff in N.
    destruct N as (_ & _ & N). apply (N pc H). left; auto.
Qed.

Lemma computeMapper_ok :
  exists m, computeMapper I = Ok m /\ msizes m = map tsize bs /\
    forall y, In y (melim m) <-> exists x, pvalid x /\ elim x = true /\ y = loc x.
Proof.
  unfold computeMapper. fold t.
  destruct (interface_loop (mkMS (mapper_of bs) (repeat false (nSides I)) (repeat false (nVerts I)))) as
    (s1 & E1 & Hm1 & Hv1 & Hs1 & Hy1).
  { apply smarks_init. } { reflexivity. }
  unfold bs in E1. rewrite E1. cbn [bind].
  destruct (boundary_mapper_loop s1 _ Hm1) as (s2 & E2 & Hmap & Hvert). rewrite E2. cbn [bind].
  destruct (foldM_inv (fun pre s => vmarks (ms_vert s) (fun c => In c pre) /\ msizes (ms_map s) = map tsize bs /\
     forall y, In y (melim (ms_map s)) <-> In y (melim (ms_map s2)) \/ exists c, In c pre /\ vpoints c y)
     (computeVertexMapper I) (corner_loop I) s2) as (s3 & E3 & Hv3 & Hs3 & Hy3).
  - split; [|split].
    + rewrite Hvert, Hv1. simpl. apply vmarks_init.
    + rewrite Hmap. exact Hs1.
    + intros y. split; auto. intros [?|(c & [] & _)]; auto.
  - intros pre pc post s E (Hm & Hs & Hy). destruct (corner_loop_prefix _ _ _ E) as [Hp Hn].
    destruct (computeVertexMapper_ok s pc _ Hm Hp Hn Hs) as (s' & E' & Hm' & Hs' & Hy').
    exists s'. split; [exact E'|]. split; [|split; [exact Hs'|]].
    + revert Hm'. apply marks_ext. intros a _. rewrite in_app_iff. simpl.
      split; [intros [->|?]|intros [?|[<-|[]]]]; auto.
    + intros y. rewrite Hy', Hy. split.
      * intros [[?|(c & ? & ?)]|?]; auto; right; eexists; (split; [|eassumption]); apply in_app_iff; simpl; auto.
      * intros [?|(c & G & ?)]; auto. apply in_app_iff in G. destruct G as [G|[<-|[]]]; eauto.
  - rewrite E3. cbn [bind]. exists (ms_map s3). split; [reflexivity|]. split; [exact Hs3|].
    intros y. rewrite Hy3, Hmap, Hy1. simpl melim. split.
    + intros [[[]|(ps & Hps & u & Hu & ->)]|(c & Hc & d & k & Hd & Hk & Hi & Hr & ->)].
      * exists (PE ps 0 u). repeat split; auto; try apply Hu. simpl. apply (isInterface_in t); auto.
      * exists (dpt c d k 0). split; [|split; [|reflexivity]].
        -- apply dpt_valid; auto. unfold corner_loop in Hc. apply in_all_corners in Hc. exact Hc.
        -- apply elim_dpt; auto. left. rewrite Hi, Hr. reflexivity.
    + intros (x & Hv & He & ->). destruct x as [p i j|ps o u|pc a e]; simpl in He; [discriminate| |].
      * apply andb_prop in He. destruct He as [He1 He2]. apply Nat.eqb_eq in He1. subst o.
        left; right. exists ps. split; [apply (isInterface_in t); auto|]. exists u. auto.
      * right. exists pc. destruct Hv as (Hp & Ha & He'). split; [apply in_all_corners; exact Hp|].
        apply orb_prop in He. destruct He as [He|He]; apply andb_prop in He; destruct He as [He1 He2];
          apply andb_prop in He1; destruct He1 as [He0 He1]; apply Nat.eqb_eq in He0; subst.
        -- exists 0, e. repeat split; auto; lia.
        -- exists 1, a. repeat split; auto; lia.
Qed.

(** freeness in the final mapper *)
Lemma free_iff m : msizes m = map tsize bs ->
  (forall y, In y (melim m) <-> exists x, pvalid x /\ elim x = true /\ y = loc x) ->
  forall x, pvalid x -> is_free_dof m (loc x) = negb (elim x).
Proof.
  intros Hs Hm x Hx. unfold is_free_dof. f_equal. apply eq_true_iff_eq. rewrite existsb_exists. split.
  - intros (y & Hy & E). apply dof_eqb_eq in E. subst y. apply Hm in Hy. destruct Hy as (x' & Hx' & He & E).
    apply loc_inj in E; auto; [congruence|exact Hbig].
  - intros He. exists (loc x). split; [apply Hm; eauto|]. apply dof_eqb_eq. reflexivity.
Qed.

End M.
