(** Consequences of consistency: gluing of sides and corners, vertex classes. *)
From Verif Require Import Common TopoModel TopoSpec IndexProofs ListLemmas.
From Coq Require Import ZifyBool.

(** ** Gluing of sides *)

Definition glue (t : topo) (ps : pside) : option (pside * bool) :=
  match getInterface t ps with
  | None => None
  | Some f => if ps_eqb (if1 f) ps then Some (if2 f, ifflip f) else Some (if1 f, ifflip f)
  end.

Definition mapc (s : side) (ps' : pside) (fl : bool) (c : corner) : pcorner :=
  (fst ps', corner_at (snd ps') (xorb fl (pos_on s c))).

(** corner reached from [pc] through its side of direction [d], with the
    direction of the side on the other patch *)
Definition dnext (t : topo) (x : pcorner * nat) : option (pcorner * nat) :=
  let '((p, c), d) := x in
  match glue t (p, cside c d) with
  | None => None
  | Some (ps', fl) => Some (mapc (cside c d) ps' fl c, side_dir (snd ps'))
  end.

Lemma on_side_cside c d : on_side c (cside c d) = true.
Proof. destruct c, d; reflexivity. Qed.
Lemma cside_of_on c s : on_side c s = true -> cside c (side_dir s) = s.
Proof. destruct c, s; simpl; intros; try discriminate; reflexivity. Qed.
Lemma side_dir_cside c d : d < 2 -> side_dir (cside c d) = d.
Proof. intros H. destruct c, d as [|[|]]; simpl; lia. Qed.
Lemma on_side_corner_at s b : on_side (corner_at s b) s = true.
Proof. destruct s, b; reflexivity. Qed.
Lemma pos_on_corner_at s b : pos_on s (corner_at s b) = b.
Proof. destruct s, b; reflexivity. Qed.
Lemma corner_at_pos_on s c : on_side c s = true -> corner_at s (pos_on s c) = c.
Proof. destruct s, c; simpl; intros; try discriminate; reflexivity. Qed.
Lemma on_side_iff_cside c s : on_side c s = true <-> s = cside c 0 \/ s = cside c 1.
Proof. destruct c, s; simpl; (split; [intros; try discriminate; auto | intros [|]; try discriminate; auto]). Qed.
Lemma side_dir_lt s : side_dir s < 2.
Proof. destruct s; simpl; lia. Qed.
Lemma contained_corners_on s c : In c (contained_corners s) <-> on_side c s = true.
Proof. destruct s, c; simpl; (split; [intros [|[|]]; try discriminate; auto; contradiction | intros; try discriminate; auto]). Qed.
Lemma contained_corners_at s : contained_corners s = [corner_at s false; corner_at s true].
Proof. destruct s; reflexivity. Qed.

Section T.
Variable t : topo.
Hypothesis Hcons : consistent t.

Lemma sides_nodup : NoDup (iface_sides t ++ tbd t).
Proof. destruct Hcons as [H _]. unfold sides_partitioned in H; symmetry in H. eapply Permutation_NoDup; [exact H|apply all_sides_nodup]. Qed.

Lemma sides_valid ps : In ps (iface_sides t) \/ In ps (tbd t) <-> fst ps < tnp t.
Proof.
  destruct Hcons as [H _]. rewrite <- in_all_sides, <- in_app_iff.
  split; apply Permutation_in; [|symmetry]; exact H.
Qed.

Lemma in_iface_sides ps : In ps (iface_sides t) <-> exists f, In f (tif t) /\ (if1 f = ps \/ if2 f = ps).
Proof.
  unfold iface_sides. rewrite in_flat_map. split; intros (f & H1 & H2); exists f; split; auto; simpl in *; tauto.
Qed.

Lemma iface_not_bd ps : In ps (iface_sides t) -> In ps (tbd t) -> False.
Proof. destruct (NoDup_app_iff (iface_sides t) (tbd t)) as [H _]. destruct (H sides_nodup) as (_ & _ & G). apply G. Qed.

Lemma isInterface_in ps : isInterface t ps = true <-> In ps (iface_sides t).
Proof.
  unfold isInterface. rewrite existsb_exists, in_iface_sides.
  split; intros (f & H1 & H2); exists f; split; auto.
  - apply orb_prop in H2. rewrite !ps_eqb_eq in H2. exact H2.
  - rewrite orb_true_iff, !ps_eqb_eq. exact H2.
Qed.

Lemma isInterface_bd ps : fst ps < tnp t -> isInterface t ps = false <-> In ps (tbd t).
Proof.
  intros Hv. rewrite <- not_true_iff_false, isInterface_in. apply sides_valid in Hv.
  split; [tauto|]. intros H1 H2. eapply iface_not_bd; eauto.
Qed.

(** the interface with a given end is unique *)
Lemma NoDup_flat_pairs (l : list iface) :
  NoDup (flat_map (fun f => [if1 f; if2 f]) l) ->
  forall f g ps, In f l -> In g l -> (if1 f = ps \/ if2 f = ps) -> (if1 g = ps \/ if2 g = ps) -> f = g.
Proof.
  induction l as [|h l IH]; intros Hnd f g ps Hf Hg Ef Eg; [contradiction|].
  simpl flat_map in Hnd.
  change (NoDup ([if1 h; if2 h] ++ flat_map (fun f => [if1 f; if2 f]) l)) in Hnd.
  apply NoDup_app_iff in Hnd. destruct Hnd as (N1 & N2 & N3).
  assert (forall k, In k l -> if1 k = ps \/ if2 k = ps -> In ps (flat_map (fun f => [if1 f; if2 f]) l)) as K.
  { intros k Hk Ek. apply in_flat_map. exists k. split; auto. simpl. tauto. }
  assert (forall k, k = h -> if1 k = ps \/ if2 k = ps -> In ps [if1 h; if2 h]) as K2.
  { intros k -> Ek. simpl. tauto. }
  destruct Hf as [Hf|Hf], Hg as [Hg|Hg].
  - congruence.
  - exfalso. apply (N3 ps); [apply (K2 f); auto | apply (K g); auto].
  - exfalso. apply (N3 ps); [apply (K2 g); auto | apply (K f); auto].
  - eapply IH; eauto.
Qed.

Lemma iface_unique f g ps :
  In f (tif t) -> In g (tif t) -> (if1 f = ps \/ if2 f = ps) -> (if1 g = ps \/ if2 g = ps) -> f = g.
Proof.
  apply NoDup_flat_pairs. pose proof sides_nodup as H. apply NoDup_app_iff in H. tauto.
Qed.

Lemma iface_ends_differ f : In f (tif t) -> if1 f <> if2 f.
Proof.
  intros H E. destruct Hcons as [_ G]. destruct (G f H) as [G1|[_ G1]]; apply G1; rewrite E; reflexivity.
Qed.

Lemma getInterface_some ps f : getInterface t ps = Some f -> In f (tif t) /\ (if1 f = ps \/ if2 f = ps).
Proof.
  unfold getInterface. intros H. apply find_some in H. destruct H as [H1 H2]. split; auto.
  apply orb_prop in H2. rewrite !ps_eqb_eq in H2. exact H2.
Qed.

Lemma getInterface_of f ps : In f (tif t) -> (if1 f = ps \/ if2 f = ps) -> getInterface t ps = Some f.
Proof.
  intros Hf E. unfold getInterface.
  destruct (find _ (tif t)) as [g|] eqn:F.
  - apply getInterface_some in F. destruct F as [F1 F2]. f_equal. apply (iface_unique g f ps); auto.
  - exfalso. eapply find_none in F; [|exact Hf]. simpl in F.
    apply orb_false_iff in F. destruct F as [F1 F2].
    destruct E as [E|E]; apply ps_eqb_eq in E; congruence.
Qed.

Lemma getInterface_none ps : getInterface t ps = None <-> isInterface t ps = false.
Proof.
  unfold getInterface, isInterface. split.
  - intros H. apply existsb_false. intros f Hf. exact (find_none _ _ H f Hf).
  - intros H. destruct (find _ _) eqn:F; [|reflexivity]. apply find_some in F.
    rewrite existsb_false in H. destruct F as [F1 F2]. specialize (H _ F1). simpl in H. congruence.
Qed.

Lemma glue_none ps : glue t ps = None <-> isInterface t ps = false.
Proof.
  rewrite <- getInterface_none. unfold glue. destruct (getInterface t ps) as [f|]; [|tauto].
  destruct (ps_eqb _ _); split; discriminate.
Qed.

Lemma glue_some ps ps' fl :
  glue t ps = Some (ps', fl) <->
  exists f, In f (tif t) /\ ifflip f = fl /\ ((if1 f = ps /\ if2 f = ps') \/ (if2 f = ps /\ if1 f = ps')).
Proof.
  unfold glue. split.
  - destruct (getInterface t ps) as [f|] eqn:E; [|discriminate].
    apply getInterface_some in E. destruct E as [Hf E].
    destruct (ps_eqb (if1 f) ps) eqn:E1.
    + apply ps_eqb_eq in E1. intros [= <- <-]. exists f. auto.
    + intros [= <- <-]. exists f. repeat split; auto. right. split; auto.
      destruct E as [E|E]; auto. apply ps_eqb_eq in E. congruence.
  - intros (f & Hf & <- & E).
    rewrite (getInterface_of f ps) by tauto.
    destruct (ps_eqb (if1 f) ps) eqn:E1.
    + destruct E as [[_ <-]|[E2 E3]]; [reflexivity|]. apply ps_eqb_eq in E1.
      exfalso. apply (iface_ends_differ f Hf). congruence.
    + destruct E as [[E _]|[_ <-]]; [|reflexivity]. apply ps_eqb_eq in E. congruence.
Qed.

Lemma glue_sym ps ps' fl : glue t ps = Some (ps', fl) -> glue t ps' = Some (ps, fl).
Proof. rewrite !glue_some. intros (f & H1 & H2 & H3). exists f. repeat split; auto. tauto. Qed.

Lemma glue_valid ps ps' fl : glue t ps = Some (ps', fl) -> fst ps < tnp t /\ fst ps' < tnp t.
Proof.
  rewrite glue_some. intros (f & H1 & _ & H3).
  split; apply sides_valid; left; apply in_iface_sides; exists f; tauto.
Qed.

Lemma glue_nonadj ps ps' fl :
  glue t ps = Some (ps', fl) ->
  fst ps <> fst ps' \/ (side_dir (snd ps) = side_dir (snd ps') /\ snd ps <> snd ps').
Proof.
  rewrite glue_some. intros (f & H1 & _ & H3). destruct Hcons as [_ G]. specialize (G f H1).
  destruct H3 as [[E1 E2]|[E1 E2]]; rewrite E1, E2 in G; [exact G|].
  destruct G as [G|[G1 G2]]; [left|right; split]; congruence.
Qed.

Lemma glue_neq ps ps' fl : glue t ps = Some (ps', fl) -> ps <> ps'.
Proof. intros H E. subst. apply glue_nonadj in H. destruct H as [H|[_ H]]; congruence. Qed.

Lemma isInterface_glue ps : isInterface t ps = true <-> exists ps' fl, glue t ps = Some (ps', fl).
Proof.
  split.
  - intros H. destruct (glue t ps) as [[ps' fl]|] eqn:E; [eauto|]. apply glue_none in E. congruence.
  - intros (ps' & fl & E). destruct (isInterface t ps) eqn:F; [reflexivity|]. apply glue_none in F. congruence.
Qed.

(** evaluation of iother / getNeighbour / imapCorner through [glue] *)
Lemma glue_iface ps ps' fl :
  glue t ps = Some (ps', fl) -> exists f, getInterface t ps = Some f /\ iother f ps = Ok ps' /\
    (forall c, on_side c (snd ps) = true -> imapCorner f (fst ps, c) = Ok (mapc (snd ps) ps' fl c)).
Proof.
  intros H. pose proof H as H0. rewrite glue_some in H. destruct H as (f & Hf & Hfl & E).
  exists f. split; [apply getInterface_of; tauto|].
  pose proof (iface_ends_differ f Hf) as Hd. pose proof (glue_nonadj _ _ _ H0) as Hn.
  split.
  - unfold iother. destruct E as [[E1 E2]|[E1 E2]].
    + rewrite (proj2 (ps_eqb_eq _ _) E1). congruence.
    + destruct (ps_eqb (if1 f) ps) eqn:G.
      * apply ps_eqb_eq in G. congruence.
      * rewrite (proj2 (ps_eqb_eq _ _) E1). congruence.
  - intros c Hc. unfold imapCorner, mapc. simpl fst; simpl snd.
    destruct E as [[E1 E2]|[E1 E2]].
    + rewrite E1, E2, Nat.eqb_refl, Hc. simpl. rewrite Hfl. reflexivity.
    + rewrite E1, E2, Nat.eqb_refl, Hc. rewrite Hfl. simpl andb.
      destruct ((fst ps =? fst ps') && on_side c (snd ps')) eqn:G; [|reflexivity].
      exfalso. apply andb_prop in G. destruct G as [G1 G2]. apply Nat.eqb_eq in G1.
      destruct Hn as [Hn|[Hn1 Hn2]]; [congruence|].
      apply Hn2. apply cside_of_on in Hc, G2. congruence.
Qed.

(** ** Gluing of corners: darts *)

Definition validc (pc : pcorner) : Prop := fst pc < tnp t.

Lemma dnext_spec p c d c' d' :
  dnext t ((p, c), d) = Some (c', d') ->
  exists ps' fl, glue t (p, cside c d) = Some (ps', fl) /\
    c' = mapc (cside c d) ps' fl c /\ d' = side_dir (snd ps') /\
    fst c' = fst ps' /\ cside (snd c') d' = snd ps' /\ on_side (snd c') (snd ps') = true.
Proof.
  unfold dnext. destruct (glue t (p, cside c d)) as [[ps' fl]|] eqn:E; [|discriminate].
  intros [= <- <-]. exists ps', fl. unfold mapc; simpl.
  repeat split; auto; [apply cside_of_on|]; apply on_side_corner_at.
Qed.

Lemma dnext_sym c d c' d' : d < 2 -> dnext t (c, d) = Some (c', d') -> dnext t (c', d') = Some (c, d).
Proof.
  destruct c as [p c]. intros Hd H. destruct (dnext_spec _ _ _ _ _ H) as (ps' & fl & G & E1 & E2 & E3 & E4 & E5).
  destruct c' as [p' c']. simpl in *. subst p' d'.
  unfold dnext. rewrite E4. replace (fst ps', snd ps') with ps' by (destruct ps'; reflexivity).
  rewrite (glue_sym _ _ _ G). simpl.
  unfold mapc in E1. injection E1 as E1.
  unfold mapc. simpl. rewrite E1, pos_on_corner_at.
  rewrite <- xorb_assoc, xorb_nilpotent, xorb_false_l.
  rewrite corner_at_pos_on by apply on_side_cside. rewrite side_dir_cside by exact Hd. reflexivity.
Qed.

Lemma dnext_dir x c' d' : dnext t x = Some (c', d') -> d' < 2.
Proof.
  destruct x as [[p c] d]. intros H. apply dnext_spec in H.
  destruct H as (ps' & fl & _ & _ & -> & _). apply side_dir_lt.
Qed.

Lemma dnext_valid c d c' d' : dnext t (c, d) = Some (c', d') -> validc c /\ validc c'.
Proof.
  destruct c as [p c]. intros H. apply dnext_spec in H.
  destruct H as (ps' & fl & G & _ & _ & E & _). apply glue_valid in G. unfold validc. simpl in *. rewrite E. exact G.
Qed.

Lemma dnext_neq c d c' d' : d < 2 -> dnext t (c, d) = Some (c', d') -> c <> c'.
Proof.
  destruct c as [p c]. intros Hd H. apply dnext_spec in H.
  destruct H as (ps' & fl & G & _ & E2 & E3 & E4 & E5). intros <-. simpl in *.
  apply glue_nonadj in G. simpl in G. destruct G as [G|[G1 G2]]; [congruence|].
  apply G2. rewrite <- E4. f_equal. rewrite E2, <- G1. symmetry. apply side_dir_cside. exact Hd.
Qed.

Lemma dnext_iface (c : pcorner) d : isInterface t (fst c, cside (snd c) d) = true <-> exists y, dnext t (c, d) = Some y.
Proof.
  destruct c as [p c]. simpl. rewrite isInterface_glue. destruct (glue t (p, cside c d)) as [[ps' fl]|].
  - split; intros; eauto.
  - split; [intros (? & ? & ?); discriminate | intros (y & H); discriminate].
Qed.

(** neighbours of a corner *)
Definition cn (c : pcorner) : list pcorner :=
  flat_map (fun d => match dnext t (c, d) with Some (c', _) => [c'] | None => [] end) [0; 1].

Lemma corner_nbrs_cn c : corner_nbrs t c = Ok (cn c).
Proof.
  destruct c as [p c].
  assert (forall d acc, match getInterface t (p, cside c d) with
             | Some f => bind (imapCorner f (p, c)) (fun c' => Ok (acc ++ [c']))
             | None => Ok acc end =
          Ok (acc ++ match dnext t ((p, c), d) with Some (c', _) => [c'] | None => [] end)) as K.
  { intros d acc. unfold dnext. destruct (glue t (p, cside c d)) as [[ps' fl]|] eqn:G.
    - destruct (glue_iface _ _ _ G) as (f & F1 & _ & F2). rewrite F1. simpl in F2.
      rewrite F2 by apply on_side_cside. reflexivity.
    - apply glue_none, getInterface_none in G. rewrite G. rewrite app_nil_r. reflexivity. }
  unfold corner_nbrs, containing_sides, cn. cbn [foldM fst snd flat_map].
  rewrite (K 0). cbn [bind]. rewrite (K 1). cbn [bind]. rewrite app_nil_r. reflexivity.
Qed.

Lemma in_cn c c' : In c' (cn c) <-> exists d d', d < 2 /\ dnext t (c, d) = Some (c', d').
Proof.
  unfold cn. rewrite in_flat_map. split.
  - intros (d & Hd & H). destruct (dnext t (c, d)) as [[c1 d1]|] eqn:E; [|contradiction].
    destruct H as [<-|[]]. exists d, d1. split; auto. simpl in Hd. lia.
  - intros (d & d' & Hd & H). exists d. split; [simpl; lia|]. rewrite H. left; reflexivity.
Qed.

Lemma cn_sym c c' : In c' (cn c) -> In c (cn c').
Proof.
  rewrite !in_cn. intros (d & d' & Hd & H). exists d', d. split; [eapply dnext_dir; eauto|].
  apply dnext_sym; auto.
Qed.

(** ** Vertex classes *)

Inductive reach : pcorner -> pcorner -> Prop :=
| reach_refl c : reach c c
| reach_step a b c : reach a b -> In c (cn b) -> reach a c.

Lemma reach_trans a b c : reach a b -> reach b c -> reach a c.
Proof. intros H1 H2. revert H1. induction H2; intros H1; [exact H1|]. eapply reach_step; [apply IHreach; exact H1|exact H]. Qed.
Lemma reach_sym a b : reach a b -> reach b a.
Proof.
  induction 1; [constructor|]. eapply reach_trans; [|exact IHreach].
  eapply reach_step; [constructor|]. apply cn_sym. exact H0.
Qed.
Lemma reach_valid a b : reach a b -> validc a -> validc b.
Proof.
  induction 1; intros; auto. apply in_cn in H0. destruct H0 as (d & d' & _ & H0).
  apply dnext_valid in H0. tauto.
Qed.

(** lists grown by adding a neighbour of an element *)
Inductive grown : list pcorner -> Prop :=
| grown_one c : grown [c]
| grown_add l c c' : grown l -> In c l -> In c' (cn c) -> ~ In c' l -> grown (l ++ [c']).

Lemma grown_nodup l : grown l -> NoDup l.
Proof.
  induction 1.
  - constructor; [intros []|constructor].
  - apply NoDup_app_iff. repeat split; auto.
    + constructor; [intros []|constructor].
    + intros x Hx [->|[]]. contradiction.
Qed.

Lemma existsb_pc c l : existsb (pc_eqb c) l = true <-> In c l.
Proof.
  rewrite existsb_exists. split.
  - intros (x & H1 & H2). apply pc_eqb_eq in H2. subst; auto.
  - intros H. exists c. split; auto. apply pc_eqb_eq. reflexivity.
Qed.

Lemma add_new_grown c vis l :
  grown vis -> In c vis -> (forall x, In x l -> In x (cn c)) ->
  grown (add_new vis l) /\ (forall x, In x (add_new vis l) <-> In x vis \/ In x l) /\
  (exists r, add_new vis l = vis ++ r).
Proof.
  revert vis. induction l as [|a l IH]; intros vis Hg Hc Hl; simpl.
  - split; [exact Hg|]. split; [tauto|]. exists []. rewrite app_nil_r; reflexivity.
  - destruct (existsb (pc_eqb a) vis) eqn:E.
    + apply existsb_pc in E. destruct (IH vis Hg Hc) as (A & B & C); [intros; apply Hl; right; auto|].
      split; [exact A|]. split; [|exact C]. intros x. rewrite B. intuition congruence.
    + assert (~ In a vis) as Hn by (rewrite <- existsb_pc; congruence).
      destruct (IH (vis ++ [a])) as (A & B & C).
      * eapply grown_add; eauto. apply Hl. left; reflexivity.
      * apply in_app_iff; auto.
      * intros; apply Hl; right; auto.
      * split; [exact A|]. split.
        -- intros x. rewrite B, in_app_iff. simpl. intuition.
        -- destruct C as (r & ->). exists (a :: r). rewrite <- app_assoc. reflexivity.
Qed.

Lemma grown_valid_length l : grown l -> (forall x, In x l -> validc x) -> length l <= 4 * tnp t.
Proof.
  intros Hg Hv. rewrite <- all_corners_length. apply NoDup_incl_length; [apply grown_nodup; auto|].
  intros x Hx. apply in_all_corners. apply Hv. exact Hx.
Qed.

Lemma grown_reach l : grown l -> forall c, hd_error l = Some c -> forall x, In x l -> reach c x.
Proof.
  induction 1; intros a Ha x Hx.
  - simpl in *. injection Ha as ->. destruct Hx as [->|[]]. constructor.
  - assert (hd_error l = Some a) as Ha' by (destruct l; [contradiction|exact Ha]).
    apply in_app_iff in Hx. destruct Hx as [Hx|[<-|[]]]; [auto|].
    eapply reach_step; [eapply IHgrown; eauto|exact H1].
Qed.

Lemma corner_bfs_ok fuel vis i c0 :
  grown vis -> hd_error vis = Some c0 -> validc c0 ->
  fuel + i = 4 * tnp t -> i <= length vis ->
  (forall k c, k < i -> nth_error vis k = Some c -> incl (cn c) vis) ->
  exists l, corner_bfs fuel t vis i = Ok l /\ grown l /\ hd_error l = Some c0 /\
    (forall c, In c l -> incl (cn c) l).
Proof.
  revert vis i. induction fuel as [|fuel IH]; intros vis i Hg Hh Hv Hf Hi Hcl.
  - assert (length vis <= 4 * tnp t) as HL.
    { apply grown_valid_length; auto. intros x Hx. eapply reach_valid; [eapply grown_reach; eauto|exact Hv]. }
    simpl. replace (nth_error vis i) with (@None pcorner) by (symmetry; apply nth_error_None; lia).
    exists vis. repeat split; auto. intros c Hc. apply In_nth_error in Hc. destruct Hc as (k & Hk).
    apply (Hcl k); auto. assert (k < length vis) by (apply nth_error_Some; congruence). lia.
  - simpl. destruct (nth_error vis i) as [c|] eqn:E.
    + rewrite corner_nbrs_cn. simpl.
      assert (In c vis) as Hc by (eapply nth_error_In; eauto).
      assert (i < length vis) as Hil by (apply nth_error_Some; congruence).
      destruct (add_new_grown c vis (cn c) Hg Hc) as (A & B & r & C); [auto|].
      apply IH; auto; try lia.
      * rewrite C. destruct vis; [contradiction|exact Hh].
      * rewrite C, app_length. lia.
      * intros k c1 Hk E1. rewrite C in E1.
        destruct (Nat.eq_dec k i) as [->|Hne].
        -- rewrite nth_error_app1 in E1 by lia. rewrite E in E1. injection E1 as <-.
           intros x Hx. apply B. auto.
        -- rewrite nth_error_app1 in E1 by lia. intros x Hx. apply B. left.
           eapply Hcl; [|exact E1|exact Hx]. lia.
    + exists vis. repeat split; auto. intros c Hc. apply In_nth_error in Hc. destruct Hc as (k & Hk).
      apply (Hcl k); auto. apply nth_error_None in E.
      assert (k < length vis) by (apply nth_error_Some; congruence). lia.
Qed.

Lemma cornerList_ok c : validc c -> exists l, cornerList t c = Ok l /\ grown l /\ hd_error l = Some c /\
    (forall a, In a l -> incl (cn a) l).
Proof.
  intros Hv. unfold cornerList. apply corner_bfs_ok; simpl; auto; try lia. constructor.
Qed.

(** the class as a total function *)
Definition cls (c : pcorner) : list pcorner := match cornerList t c with Ok l => l | Err => [] end.

Lemma cornerList_cls c : validc c -> cornerList t c = Ok (cls c).
Proof. intros H. unfold cls. destruct (cornerList_ok c H) as (l & -> & _). reflexivity. Qed.

Lemma cls_grown c : validc c -> grown (cls c).
Proof. intros H. unfold cls. destruct (cornerList_ok c H) as (l & -> & G & _). exact G. Qed.
Lemma cls_nodup c : validc c -> NoDup (cls c).
Proof. intros H. apply grown_nodup, cls_grown, H. Qed.

Lemma cls_closed c a : validc c -> In a (cls c) -> incl (cn a) (cls c).
Proof. intros H. unfold cls. destruct (cornerList_ok c H) as (l & -> & _ & _ & G). apply G. Qed.

Lemma in_cls c x : validc c -> In x (cls c) <-> reach c x.
Proof.
  intros H. split.
  - intros Hx. unfold cls in Hx. destruct (cornerList_ok c H) as (l & E & G & Hh & _). rewrite E in Hx.
    eapply grown_reach; eauto.
  - intros Hr. induction Hr.
    + unfold cls. destruct (cornerList_ok c H) as (l & -> & _ & Hh & _). destruct l; [discriminate|].
      injection Hh as ->. left; reflexivity.
    + eapply cls_closed; [exact H|apply IHHr; exact H|exact H0].
Qed.

Lemma cls_self c : validc c -> In c (cls c).
Proof. intros H. apply in_cls; [exact H|constructor]. Qed.
Lemma cls_valid c x : validc c -> In x (cls c) -> validc x.
Proof. intros H Hx. apply in_cls in Hx; auto. eapply reach_valid; eauto. Qed.

Lemma cls_perm c c' : validc c -> In c' (cls c) -> Permutation (cls c) (cls c').
Proof.
  intros H Hc. assert (validc c') as H' by (eapply cls_valid; eauto).
  apply NoDup_Permutation; [apply cls_nodup; auto|apply cls_nodup; auto|].
  intros x. apply in_cls in Hc; auto. rewrite !in_cls by auto.
  split; intros; [eapply reach_trans; [apply reach_sym|]|eapply reach_trans]; eauto.
Qed.

Definition valence (c : pcorner) : nat := length (cls c).
Definition inner (c : pcorner) : bool := vertex_inner t (cls c).

Lemma valence_cls c c' : validc c -> In c' (cls c) -> valence c' = valence c.
Proof. intros H Hc. symmetry. apply Permutation_length, cls_perm; auto. Qed.
Lemma inner_cls c c' : validc c -> In c' (cls c) -> inner c' = inner c.
Proof. intros H Hc. symmetry. apply forallb_perm, cls_perm; auto. Qed.
Lemma in_cls_sym c c' : validc c -> In c' (cls c) -> In c (cls c').
Proof.
  intros H Hc. pose proof (cls_perm c c' H Hc) as P. eapply Permutation_in; [exact P|]. apply cls_self; auto.
Qed.
Lemma cn_cls c c' : validc c -> In c' (cn c) -> In c' (cls c).
Proof. intros H. apply (cls_closed c c H). apply cls_self; auto. Qed.

Lemma inner_iface c d : validc c -> inner c = true -> isInterface t (fst c, cside (snd c) d) = true.
Proof.
  intros Hv H. unfold inner, vertex_inner in H. rewrite forallb_forall in H.
  specialize (H c (cls_self c Hv)). rewrite forallb_forall in H. apply H.
  unfold containing_sides. destruct d as [|[|]]; simpl; auto.
Qed.

(** ** Interface darts of a boundary vertex *)

Definition darts (l : list pcorner) : list (pcorner * nat) :=
  flat_map (fun c => [(c, 0); (c, 1)]) l.
Definition is_iface_dart (x : pcorner * nat) : bool :=
  match dnext t x with Some _ => true | None => false end.
Definition idarts (l : list pcorner) : list (pcorner * nat) := filter is_iface_dart (darts l).
Definition internal (l : list pcorner) (x : pcorner * nat) : bool :=
  match dnext t x with Some (c', _) => existsb (pc_eqb c') l | None => false end.

Lemma in_darts c d l : In (c, d) (darts l) <-> In c l /\ d < 2.
Proof.
  unfold darts. rewrite in_flat_map. split.
  - intros (x & Hx & [E|[E|[]]]); injection E as <- <-; split; auto.
  - intros (H1 & H2). exists c. split; auto. destruct d as [|[|]]; simpl; auto; lia.
Qed.
Lemma darts_app l l' : darts (l ++ l') = darts l ++ darts l'.
Proof. unfold darts. apply flat_map_app. Qed.
Lemma darts_nodup l : NoDup l -> NoDup (darts l).
Proof.
  induction l as [|a l IH]; intros H; [constructor|].
  apply NoDup_cons_iff in H. destruct H as [H1 H2].
  change (NoDup ([(a, 0); (a, 1)] ++ darts l)). apply NoDup_app_iff. repeat split; auto.
  - constructor; [|constructor; [intros []|constructor]]. intros [E|[]]. discriminate.
  - intros [c d] Hx Hx'. apply in_darts in Hx'. destruct Hx as [E|[E|[]]]; injection E as <- <-; tauto.
Qed.
Lemma darts_length l : length (darts l) = 2 * length l.
Proof. induction l; simpl; [reflexivity|]. fold (darts l). rewrite IHl. lia. Qed.

Lemma idarts_even l : NoDup l -> (forall a, In a l -> incl (cn a) l) -> Nat.Even (length (idarts l)).
Proof.
  intros Hnd Hcl.
  apply (involution_even (fun x => match dnext t x with Some y => y | None => x end)).
  - apply NoDup_filter, darts_nodup, Hnd.
  - intros [c d] Hx. unfold idarts in Hx. apply filter_In in Hx. destruct Hx as [Hx Hi].
    apply in_darts in Hx. destruct Hx as [Hc Hd]. unfold is_iface_dart in Hi.
    destruct (dnext t (c, d)) as [[c' d']|] eqn:E; [|discriminate].
    pose proof (dnext_sym _ _ _ _ Hd E) as E'. rewrite E'.
    split; [|split; [reflexivity|]].
    + apply filter_In. split.
      * apply in_darts. split; [|eapply dnext_dir; eauto]. apply (Hcl c Hc). apply in_cn. eauto.
      * unfold is_iface_dart. rewrite E'. reflexivity.
    + intros [= E1 E2]. eapply dnext_neq; eauto.
Qed.

Lemma filter_le {A} (f g : A -> bool) l :
  (forall x, In x l -> f x = true -> g x = true) -> length (filter f l) <= length (filter g l).
Proof.
  induction l as [|a l IH]; intros H; simpl; [lia|].
  assert (length (filter f l) <= length (filter g l)) by (apply IH; intros; apply H; auto; right; auto).
  destruct (f a) eqn:E.
  - rewrite H by (auto; left; auto). simpl. lia.
  - destruct (g a); simpl; lia.
Qed.

Lemma filter_lt {A} (f g : A -> bool) l a :
  (forall x, In x l -> f x = true -> g x = true) -> In a l -> f a = false -> g a = true ->
  length (filter f l) < length (filter g l).
Proof.
  induction l as [|b l IH]; intros H Ha F G; simpl; [contradiction|].
  assert (length (filter f l) <= length (filter g l)) by (apply filter_le; intros; apply H; auto; right; auto).
  destruct Ha as [->|Ha].
  - rewrite F, G. simpl. lia.
  - assert (length (filter f l) < length (filter g l)) by (apply IH; auto; intros; apply H; auto; right; auto).
    destruct (f b) eqn:E.
    + rewrite H by (auto; left; auto). simpl. lia.
    + destruct (g b); simpl; lia.
Qed.

Lemma grown_internal l : grown l -> 2 * (length l - 1) <= length (filter (internal l) (darts l)).
Proof.
  induction 1 as [c|l c c' Hg IH Hc Hn Hnin]; [simpl; lia|].
  rewrite darts_app, filter_app, !app_length. simpl length at 2.
  apply in_cn in Hn. destruct Hn as (d & d' & Hd & E).
  pose proof (dnext_sym _ _ _ _ Hd E) as E'. pose proof (dnext_dir _ _ _ E) as Hd'.
  assert (length (filter (internal l) (darts l)) < length (filter (internal (l ++ [c'])) (darts l))) as L1.
  { apply filter_lt with (a := (c, d)).
    - intros [x e] _. unfold internal. destruct (dnext t (x, e)) as [[y ?]|]; [|auto].
      rewrite !existsb_pc, in_app_iff. auto.
    - apply in_darts. auto.
    - unfold internal. rewrite E. destruct (existsb (pc_eqb c') l) eqn:F; [|reflexivity].
      apply existsb_pc in F. contradiction.
    - unfold internal. rewrite E. apply existsb_pc, in_app_iff. right. left. reflexivity. }
  assert (1 <= length (filter (internal (l ++ [c'])) (darts [c']))) as L2.
  { assert (In (c', d') (filter (internal (l ++ [c'])) (darts [c']))) as I.
    { apply filter_In. split; [apply in_darts; split; auto; left; auto|].
      unfold internal. rewrite E'. apply existsb_pc, in_app_iff. auto. }
    destruct (filter (internal (l ++ [c'])) (darts [c'])); [contradiction|simpl; lia]. }
  assert (1 <= length l) by (destruct l; [contradiction|simpl; lia]). lia.
Qed.

Lemma vertex_inner_darts l : vertex_inner t l = true <-> length (idarts l) = 2 * length l.
Proof.
  split.
  - intros H. rewrite <- darts_length. unfold idarts. f_equal. apply filter_all.
    intros [c d] Hx. apply in_darts in Hx. destruct Hx as [Hc Hd].
    unfold vertex_inner in H. rewrite forallb_forall in H. specialize (H c Hc). rewrite forallb_forall in H.
    assert (isInterface t (fst c, cside (snd c) d) = true) as G.
    { apply H. destruct d as [|[|]]; simpl; auto; lia. }
    apply dnext_iface in G. destruct G as (y & G). unfold is_iface_dart. rewrite G. reflexivity.
  - intros H. unfold vertex_inner. apply forallb_forall. intros c Hc. apply forallb_forall. intros s Hs.
    assert (exists d, d < 2 /\ s = cside (snd c) d) as (d & Hd & ->).
    { destruct Hs as [<-|[<-|[]]]; [exists 0|exists 1]; auto. }
    apply dnext_iface.
    destruct (dnext t (c, d)) as [y|] eqn:E; [eauto|]. exfalso.
    assert (length (filter is_iface_dart (darts l)) < length (filter (fun _ => true) (darts l))) as G.
    { apply filter_lt with (a := (c, d)); auto. apply in_darts; auto. unfold is_iface_dart. rewrite E. reflexivity. }
    unfold idarts in H. rewrite (filter_all (fun _ => true)) in G by auto. rewrite darts_length in G. lia.
Qed.

Lemma boundary_idarts c : validc c -> inner c = false -> length (idarts (cls c)) = 2 * (valence c - 1).
Proof.
  intros Hv Hi.
  pose proof (grown_internal _ (cls_grown c Hv)) as H1.
  assert (length (filter (internal (cls c)) (darts (cls c))) <= length (idarts (cls c))) as H2.
  { apply filter_le. intros x _. unfold internal, is_iface_dart. destruct (dnext t x); auto. }
  pose proof (idarts_even (cls c) (cls_nodup c Hv) (fun a => cls_closed c a Hv)) as (k & Hk).
  assert (length (idarts (cls c)) <= 2 * length (cls c)) as H3.
  { rewrite <- darts_length. unfold idarts. etransitivity; [apply (filter_le _ (fun _ => true)); auto|].
    rewrite filter_all by auto. lia. }
  assert (length (idarts (cls c)) <> 2 * length (cls c)) as H4.
  { intros E. apply vertex_inner_darts in E. unfold inner in Hi. congruence. }
  assert (1 <= length (cls c)). { pose proof (cls_self c Hv). destruct (cls c); [contradiction|simpl; lia]. }
  unfold valence. lia.
Qed.

Definition ifl (c : pcorner) (d : nat) : bool := isInterface t (fst c, cside (snd c) d).

Lemma ifl_dart (c : pcorner) d : ifl c d = is_iface_dart (c, d).
Proof.
  unfold ifl, is_iface_dart. destruct (dnext t (c, d)) as [y|] eqn:E.
  - apply dnext_iface. eauto.
  - destruct (isInterface t (fst c, cside (snd c) d)) eqn:F; [|reflexivity].
    apply dnext_iface in F. destruct F. congruence.
Qed.

Lemma idarts_sum l : length (idarts l) = sumN (map (fun c => b2n (ifl c 0) + b2n (ifl c 1)) l).
Proof.
  induction l as [|a l IH]; [reflexivity|].
  change (idarts (a :: l)) with (filter is_iface_dart ([(a,0);(a,1)] ++ darts l)).
  rewrite filter_app, app_length. fold (idarts l). rewrite IH. cbn [map sumN].
  rewrite filter_length_sum. cbn [map sumN]. rewrite !ifl_dart. lia.
Qed.

(** valence 1 on the boundary: no interface side *)
Lemma val1_boundary c d : validc c -> d < 2 -> inner c = false -> valence c = 1 -> ifl c d = false.
Proof.
  intros Hv Hd Hi H1. pose proof (boundary_idarts c Hv Hi) as H. rewrite H1, idarts_sum in H.
  unfold valence in H1. pose proof (cls_self c Hv) as Hs.
  destruct (cls c) as [|a [|]]; simpl in H1; try lia. destruct Hs as [->|[]]. simpl in H.
  destruct d as [|[|]]; try lia; destruct (ifl c 0), (ifl c 1); simpl in H; auto; lia.
Qed.

(** more than one corner: at least one interface side *)
Lemma val2_iface c : validc c -> 2 <= valence c -> ifl c 0 = true \/ ifl c 1 = true.
Proof.
  intros Hv H. unfold valence in H. pose proof (cls_nodup c Hv) as Hnd. pose proof (cls_self c Hv) as Hs.
  assert (exists x, In x (cls c) /\ x <> c) as (x & Hx & Hne).
  { destruct (cls c) as [|a [|b l]]; simpl in H; try lia.
    apply NoDup_cons_iff in Hnd. destruct Hnd as [Hn _].
    destruct (pc_eqb a c) eqn:E.
    - apply pc_eqb_eq in E. subst. exists b. split; [right; left; auto|]. intros ->. apply Hn. left; auto.
    - exists a. split; [left; auto|]. intros ->. rewrite (proj2 (pc_eqb_eq c c) eq_refl) in E. discriminate. }
  apply in_cls in Hx; auto. apply reach_sym in Hx.
  inversion Hx as [|? b ? _ Hb]; subst; [congruence|].
  apply cn_sym, in_cn in Hb. destruct Hb as (d & d' & Hd & E).
  assert (ifl c d = true) as F by (rewrite ifl_dart; unfold is_iface_dart; rewrite E; reflexivity).
  destruct d as [|[|]]; try lia; auto.
Qed.

(** valence 2 on the boundary: exactly one interface side at each corner *)
Lemma val2_boundary c : validc c -> inner c = false -> valence c = 2 -> ifl c 0 = negb (ifl c 1).
Proof.
  intros Hv Hi H2. pose proof (boundary_idarts c Hv Hi) as H. rewrite H2, idarts_sum in H. simpl in H.
  pose proof (cls_self c Hv) as Hs.
  assert (forall a, In a (cls c) -> 1 <= b2n (ifl a 0) + b2n (ifl a 1)) as G.
  { intros a Ha. destruct (val2_iface a) as [F|F]; try (rewrite F; simpl; lia).
    - eapply cls_valid; eauto.
    - rewrite (valence_cls c a) by auto. lia. }
  unfold valence in H2. destruct (cls c) as [|a [|b [|]]]; simpl in H2; try lia.
  simpl in H. pose proof (G a (or_introl eq_refl)). pose proof (G b (or_intror (or_introl eq_refl))).
  assert (b2n (ifl c 0) + b2n (ifl c 1) = 1) as E by (destruct Hs as [->|[->|[]]]; lia).
  destruct (ifl c 0), (ifl c 1); simpl in *; auto; lia.
Qed.

End T.
