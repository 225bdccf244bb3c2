(** Loops of the mapper of gsDPatch and gsAlmostC1. *)
From Verif Require Import Common TopoModel BaseModel IndexSpec TopoSpec SmoothSpec SmoothSpec2 BaseModel2 BaseSpec2
  IndexProofs IndexTopoProofs ListLemmas TopoProofs PointProofs MapperProofs CountProofs GeometryProofs
  BaseProofs2 RingModel RingSpec RingProofs.
From Coq Require Import ZifyBool.

Section R.
Variable I : rinput.
Hypothesis RI : ring_input I.
Notation t := (ritopo I).
Notation np := (length (ribases I)).

(** a tensor-product input with the same topology *)
Definition shadow : input := mkIn t (repeat (4, 4) np) (riC0 I).
Let S0 := shadow.

Lemma shadow_np : length (ibases S0) = np.
Proof. simpl. apply repeat_length. Qed.

Lemma nth_error_repeat_some {A} (a b : A) n i : nth_error (repeat a n) i = Some b -> b = a.
Proof. intros H. apply nth_error_In, repeat_spec in H. exact H. Qed.

Lemma shadow_wf : well_formed S0.
Proof.
  constructor.
  - exact (ri_topo I RI).
  - rewrite shadow_np. exact (ri_np I RI).
  - intros b Hb. simpl in Hb. apply repeat_spec in Hb. subst. simpl. lia.
  - intros f b1 b2 _ H1 H2. simpl in H1, H2. apply nth_error_repeat_some in H1. apply nth_error_repeat_some in H2. subst.
    destruct (snd (if1 f)), (snd (if2 f)); reflexivity.
  - rewrite shadow_np. exact (ri_C0_length I RI).
  - exact (ri_C0_vertex I RI).
  - simpl. pose proof (ri_fits I RI) as F.
    assert (sumN (map tsize (repeat (4, 4) np)) <= sumN (map rsize (ribases I))) as H; [|lia].
    pose proof (ri_bases I RI) as B. clear - B. induction (ribases I) as [|b r IH]; simpl; [lia|].
    pose proof (rsize_big b (B b (or_introl eq_refl))) as G. change (tsize (4, 4)) with 16.
    specialize (IH (fun b Hb => B b (or_intror Hb))). lia.
Qed.
Let W0 := shadow_wf.

Let Hcons : consistent t := ri_topo I RI.
Let Hnp : tnp t = np := ri_np I RI.
Notation cls := (cls t).
Notation valence := (valence t).
Notation inner := (inner t).
Notation ifl := (ifl t).
Definition rc0 (pc : pcorner) : bool := nth (vertIndex pc) (riC0 I) false.

Lemma rvalidc c : validc t c <-> fst c < np.
Proof. unfold validc. rewrite Hnp. tauto. Qed.
Lemma rc0_vget pc : fst pc < np -> vget (riC0 I) (vertIndex pc) = Ok (rc0 pc).
Proof. intros H. apply (c0_vget S0 W0). rewrite shadow_np. exact H. Qed.
Lemma rc0_cls c c' : fst c < np -> In c' (cls c) -> rc0 c' = rc0 c.
Proof. intros H Hc. apply (c0_cls S0 W0); [apply rvalidc; exact H|exact Hc]. Qed.
Lemma rvertexData pc : fst pc < np -> vertexData t pc = Ok (valence pc, inner pc).
Proof. intros H. apply (vertexData_ok S0 W0). rewrite shadow_np. exact H. Qed.
Lemma rcls_valid pc c : fst pc < np -> In c (cls pc) -> fst c < np.
Proof. intros H Hc. apply rvalidc, (cls_valid t Hcons pc); auto. apply rvalidc; exact H. Qed.

(* ------------------------------------------------------------------ *)
Definition rbas (p : nat) : rbasis := nth p (ribases I) (mkRB 0 (fun _ _ => []) (fun _ => 0) (fun _ _ _ _ => 0)).
Lemma rbas_ok p : p < np -> rbasisOf I p = Ok (rbas p) /\ ring_like (rbas p).
Proof.
  intros H. unfold rbasisOf, vget, rbas. rewrite (nth_error_nth' _ (mkRB 0 (fun _ _ => []) (fun _ => 0) (fun _ _ _ _ => 0)) H).
  split; [reflexivity|]. apply (ri_bases I RI). apply nth_In. exact H.
Qed.
Lemma rbas_get p : p < np -> rbasisOf I p = Ok (rbas p). Proof. apply rbas_ok. Qed.
Lemma rbas_like p : p < np -> ring_like (rbas p). Proof. apply rbas_ok. Qed.

Definition sizes : list nat := map rsize (ribases I).
Notation D := (dofs_from 0 sizes).
Notation cok := (cok sizes).

Lemma in_D (x : dof) : In x D <-> fst x < np /\ snd x < rsize (rbas (fst x)).
Proof.
  rewrite <- (cvalid_in sizes (cmap_of sizes) x eq_refl). unfold cvalid. simpl. unfold sizes, rbas. rewrite nth_error_map.
  destruct (nth_error (ribases I) (fst x)) as [b|] eqn:E; simpl.
  - rewrite (nth_error_nth _ _ _ E), Nat.ltb_lt. split; [|tauto]. split; auto. apply nth_error_Some. congruence.
  - apply nth_error_None in E. split; [discriminate|]. intros [H _]. lia.
Qed.

Definition B (pc : pcorner) (a e : nat) : dof := (fst pc, rblk (rbas (fst pc)) (snd pc) a e).
Lemma B_in pc a e : fst pc < np -> a < 2 -> e < 2 -> In (B pc a e) D.
Proof. intros H Ha He. apply in_D. simpl. split; [exact H|]. apply rblk_range; auto. apply rbas_like; auto. Qed.
Lemma B_inj pc a e pc' a' e' : fst pc < np -> a < 2 -> e < 2 -> a' < 2 -> e' < 2 ->
  B pc a e = B pc' a' e' -> pc = pc' /\ a = a' /\ e = e'.
Proof.
  intros H Ha He Ha' He' E. destruct pc as [p c], pc' as [p' c']. unfold B in E. simpl in E, H.
  injection E as <- E. apply rblk_inj in E; auto; [|apply rbas_like; auto]. destruct E as (-> & -> & ->). auto.
Qed.

Definition strip (ps : pside) : list dof := map (fun k => (fst ps, k)) (rstrip (rbas (fst ps)) (snd ps)).
Definition slen (ps : pside) : nat := length (rstrip (rbas (fst ps)) (snd ps)).

Lemma strip_in ps x : fst ps < np -> In x (strip ps) -> In x D.
Proof.
  intros H Hx. apply in_map_iff in Hx. destruct Hx as (k & <- & Hk). apply in_D. simpl. split; [exact H|].
  apply in_rstrip in Hk. destruct Hk as [Hk _].
  apply (rl_range _ (rbas_like _ H) (snd ps) 0); auto.
Qed.
Lemma strip_nodup ps : fst ps < np -> NoDup (strip ps).
Proof.
  intros H. apply FinFun.Injective_map_NoDup; [intros a b [= ->]; auto|]. apply rstrip_nodup, rbas_like; auto.
Qed.
Lemma strip_disjoint ps ps' x : fst ps < np -> ps <> ps' -> In x (strip ps) -> In x (strip ps') -> False.
Proof.
  intros H Hn H1 H2. apply in_map_iff in H1. apply in_map_iff in H2. destruct H1 as (k & <- & Hk), H2 as (k' & E & Hk').
  destruct ps as [p s], ps' as [p' s']. simpl in *. injection E as -> ->.
  apply (rstrip_disjoint (rbas p) (rbas_like p H) s s' k); auto. congruence.
Qed.
Lemma strip_B ps pc a e : fst pc < np -> a < 2 -> e < 2 -> ~ In (B pc a e) (strip ps).
Proof.
  intros H Ha He G. apply in_map_iff in G. destruct G as (k & E & Hk). unfold B in E. injection E as E1 ->.
  rewrite E1 in Hk. apply rstrip_blk in Hk; auto. apply rbas_like; auto.
Qed.

(* ------------------------------------------------------------------ *)
(** * interface loop *)
Notation smarks := (marks S0 sideIndex (@fst nat side)).
Notation vmarks := (marks S0 vertIndex (@fst nat corner)).
Lemma np0 p : p < np -> p < length (ibases S0). Proof. rewrite shadow_np. auto. Qed.

Lemma rInterfaceSide_ok s ps P : smarks (rs_side s) P -> fst ps < np -> ~ P ps -> cok (rs_map s) ->
  (forall x, In x (strip ps) -> cmval (rs_map s) x = 0%Z) ->
  exists s', rInterfaceSide I s ps = Ok s' /\ smarks (rs_side s') (fun x => x = ps \/ P x) /\ rs_vert s' = rs_vert s /\
    cok (rs_map s') /\ cfreeSize (rs_map s') + slen ps = cfreeSize (rs_map s) /\
    (forall x, ~ In x (strip ps) -> cmval (rs_map s') x = cmval (rs_map s) x).
Proof.
  intros Hm Hp HP Hok Hz. unfold rInterfaceSide.
  rewrite (marks_false S0 _ _ _ _ _ Hm (np0 _ Hp) HP). cbn [bind]. rewrite rbas_get by exact Hp. cbn [bind].
  change (without _ _) with (rstrip (rbas (fst ps)) (snd ps)). rewrite cmarkBoundary_all.
  change (map _ _) with (strip ps).
  destruct (celimAll_ok sizes (strip ps) (strip ps) (rs_map s)) as (m' & E & Hok' & F & _ & U); auto.
  - intros x Hx. eapply strip_in; eauto.
  - intros x Hx. rewrite Hz by exact Hx. lia.
  - apply strip_nodup; auto.
  - intros x. split; [intros G; split; auto|tauto].
  - rewrite E. cbn [bind]. destruct (smarks_set S0 _ _ ps Hm (np0 _ Hp)) as (sc & -> & Hsc). cbn [bind].
    eexists. split; [reflexivity|]. cbn [rs_map rs_side rs_vert].
    split; [exact Hsc|]. split; [reflexivity|]. split; [exact Hok'|]. split; [|exact U].
    unfold strip in F. rewrite map_length in F. exact F.
Qed.

Lemma rinterface_loop s0 : smarks (rs_side s0) (fun _ => False) -> cok (rs_map s0) ->
  (forall x, cmval (rs_map s0) x = 0%Z) ->
  exists s, foldM (rInterface I) (tif t) s0 = Ok s /\
    smarks (rs_side s) (fun ps => In ps (iface_sides t)) /\ rs_vert s = rs_vert s0 /\ cok (rs_map s) /\
    cfreeSize (rs_map s) + sumN (map slen (iface_sides t)) = cfreeSize (rs_map s0) /\
    (forall x, (forall ps, ~ In x (strip ps)) -> cmval (rs_map s) x = 0%Z).
Proof.
  intros Hm0 Hs0 Hz0.
  destruct (foldM_inv (fun pre s => smarks (rs_side s) (fun ps => In ps (isides pre)) /\ rs_vert s = rs_vert s0 /\
    cok (rs_map s) /\ cfreeSize (rs_map s) + sumN (map slen (isides pre)) = cfreeSize (rs_map s0) /\
    (forall x, (forall ps, In ps (isides pre) -> ~ In x (strip ps)) -> cmval (rs_map s) x = 0%Z))
    (rInterface I) (tif t) s0) as (s & E & H1 & H2 & H3 & H4 & H5).
  - split; [exact Hm0|]. split; [reflexivity|]. split; [exact Hs0|]. split; [simpl; lia|]. auto.
  - intros pre f post s E (Hm & Hv & Hok & Hf & Hz).
    assert (In f (tif t)) as Hin by (rewrite E; apply in_elt).
    destruct (iface_ends_np S0 W0 f Hin) as [P1 P2]. rewrite shadow_np in P1, P2.
    destruct (isides_nodup S0 W0 pre f post E) as (N1 & N2 & N3).
    unfold rInterface. rewrite (marks_false S0 _ _ _ _ _ Hm (np0 _ P2) N2). cbn [bind foldM].
    destruct (rInterfaceSide_ok s (if1 f) _ Hm P1 N1 Hok) as (s1 & E1 & Hm1 & Hv1 & Hok1 & Hf1 & U1).
    { intros x Hx. apply Hz. intros ps Hps Hx'. apply (strip_disjoint (if1 f) ps x P1); auto. congruence. }
    rewrite E1. cbn [bind].
    destruct (rInterfaceSide_ok s1 (if2 f) _ Hm1 P2) as (s2 & E2 & Hm2 & Hv2 & Hok2 & Hf2 & U2); auto.
    { intros [G|G]; [congruence|contradiction]. }
    { intros x Hx. rewrite U1.
      - apply Hz. intros ps Hps Hx'. apply (strip_disjoint (if2 f) ps x P2); auto. congruence.
      - intros Hx'. apply (strip_disjoint (if2 f) (if1 f) x P2); auto. }
    rewrite E2. cbn [bind]. exists s2. split; [reflexivity|].
    assert (isides (pre ++ [f]) = isides pre ++ [if1 f; if2 f]) as EI by (unfold isides; rewrite flat_map_app; reflexivity).
    rewrite EI. split; [|split; [congruence|split; [exact Hok2|split]]].
    + revert Hm2. apply marks_ext. intros a _. rewrite in_app_iff. simpl.
      split; [intros [->|[->|?]]|intros [?|[<-|[<-|[]]]]]; auto.
    + rewrite map_app, sumN_app. cbn [map sumN]. lia.
    + intros x Hx. rewrite U2, U1.
      * apply Hz. intros ps Hps. apply Hx, in_app_iff. auto.
      * apply Hx, in_app_iff. simpl; auto.
      * apply Hx, in_app_iff. simpl; auto.
  - exists s. split; [exact E|]. change (isides (tif t)) with (iface_sides t) in *.
    split; [exact H1|]. split; [exact H2|]. split; [exact H3|]. split; [exact H4|]. intros x Hx. apply H5. auto.
Qed.

Lemma rboundary_loop s0 P : smarks (rs_side s0) P ->
  exists s, foldM rBoundary (tbd t) s0 = Ok s /\ rs_map s = rs_map s0 /\ rs_vert s = rs_vert s0.
Proof.
  intros Hm0.
  destruct (foldM_inv2 (fun s => (exists P, smarks (rs_side s) P) /\ rs_map s = rs_map s0 /\ rs_vert s = rs_vert s0)
     rBoundary (tbd t) s0) as (s & E & _ & H1 & H2).
  - eauto.
  - intros ps s Hps ((P' & Hm) & E1 & E2).
    assert (fst ps < np) as Hp by (rewrite <- Hnp; apply (sides_valid t Hcons); auto).
    unfold rBoundary. destruct (smarks_set S0 _ _ ps Hm (np0 _ Hp)) as (l & -> & Hl). simpl.
    eexists. split; [reflexivity|]. simpl. eauto.
  - eauto.
Qed.

(* ------------------------------------------------------------------ *)
(** * vertex rules *)
Definition zeros (m : cmap) (c : pcorner) : Prop := forall a e, a < 2 -> e < 2 -> cmval m (B c a e) = 0%Z.

(** [m'] has [d] free functions less than [m]; only functions near the corners [T] changed *)
Definition effect (m m' : cmap) (T : list pcorner) (d : nat) : Prop :=
  cok m' /\ cfreeSize m' + d = cfreeSize m /\
  forall c a e, fst c < np -> a < 2 -> e < 2 -> ~ In c T -> cmval m' (B c a e) = cmval m (B c a e).

Definition near (T : list pcorner) (x : dof) : Prop := exists c a e, In c T /\ a < 2 /\ e < 2 /\ x = B c a e.

Lemma celim_effect T l k m : cok m -> (forall c, In c T -> fst c < np) -> (forall c, In c T -> zeros m c) ->
  (forall x, In x l -> near T x) -> NoDup k -> (forall x, In x k <-> In x l) ->
  exists m', celimAll l m = Ok m' /\ effect m m' T (length k) /\
    (forall x, ~ In x l -> cmval m' x = cmval m x).
Proof.
  intros Hok HT HZ Hl HN Hk.
  destruct (celimAll_ok sizes l k m) as (m' & E & Hok' & F & _ & U); auto.
  - intros x Hx. destruct (Hl x Hx) as (c & a & e & Hc & Ha & He & ->). apply B_in; auto.
  - intros x Hx. destruct (Hl x Hx) as (c & a & e & Hc & Ha & He & ->). rewrite (HZ c Hc); auto. lia.
  - intros x. rewrite Hk. split; [|tauto]. intros Hx. split; auto.
    destruct (Hl x Hx) as (c & a & e & Hc & Ha & He & ->). apply (HZ c Hc); auto.
  - exists m'. split; [exact E|]. split; [|exact U]. split; [exact Hok'|]. split; [exact F|].
    intros c a e Hc Ha He Hn. apply U. intros G. destruct (Hl _ G) as (c' & a' & e' & Hc' & Ha' & He' & EB).
    apply B_inj in EB; auto. destruct EB as (-> & _). contradiction.
Qed.

Lemma along_ok pc ks test : fst pc < np -> (forall k, In k ks -> k < 2) ->
  along_sides I pc ks test = Ok ((if test (cside (snd pc) 0) then map (fun k => B pc 0 k) ks else []) ++
                                 (if test (cside (snd pc) 1) then map (fun k => B pc k 0) ks else [])).
Proof.
  intros H Hk. unfold along_sides. rewrite rbas_get by exact H. cbn [bind containing_sides flat_map]. rewrite app_nil_r.
  f_equal. f_equal. destruct (test (cside (snd pc) 1)); auto. apply map_ext_in. intros k G. unfold B. f_equal.
  apply rifv_blk1; auto. apply rbas_like; auto.
Qed.

Lemma rIface_ifl pc d : rIface I pc (cside (snd pc) d) = ifl pc d.
Proof. reflexivity. Qed.

Lemma BB_neq pc a e a' e' : fst pc < np -> a < 2 -> e < 2 -> a' < 2 -> e' < 2 -> (a, e) <> (a', e') -> B pc a e <> B pc a' e'.
Proof. intros H Ha He Ha' He' N E. apply B_inj in E; auto. destruct E as (_ & -> & ->). auto. Qed.

Ltac near1 := match goal with |- near [?pc] (B ?pc ?a ?e) => exists pc, a, e; repeat split; simpl; auto; lia end.

Lemma single_valid (pc : pcorner) : fst pc < np -> forall c, In c [pc] -> fst c < np.
Proof. intros H c [<-|[]]. exact H. Qed.
Lemma single_zeros m (pc : pcorner) : zeros m pc -> forall c, In c [pc] -> zeros m c.
Proof. intros H c [<-|[]]. exact H. Qed.

Lemma three_nodup pc : fst pc < np -> NoDup [B pc 0 0; B pc 0 1; B pc 1 0].
Proof.
  intros H. repeat constructor; simpl; intuition;
    match goal with E : B _ _ _ = B _ _ _ |- _ => apply B_inj in E; try lia; auto; try exact H; lia end.
Qed.

Lemma nodup_sub {A} (l l' : list A) : NoDup (l ++ l') -> NoDup l /\ NoDup l'.
Proof. intros H. apply NoDup_app_iff in H. tauto. Qed.

Definition dec_regular (pc : pcorner) : nat :=
  if ifl pc 0 then (if ifl pc 1 then 3 else 2) else (if ifl pc 1 then 2 else 0).
Lemma rRegularSmooth_ok pc m : fst pc < np -> cok m -> zeros m pc ->
  exists m', rRegularSmooth I pc m = Ok m' /\ effect m m' [pc] (dec_regular pc).
Proof.
  intros H Hok Hz. unfold rRegularSmooth. rewrite along_ok by (auto; simpl; lia). cbn [bind map]. rewrite !rIface_ifl.
  pose proof (three_nodup pc H) as N.
  destruct (celim_effect [pc] ((if ifl pc 0 then [B pc 0 0; B pc 0 1] else []) ++ (if ifl pc 1 then [B pc 0 0; B pc 1 0] else []))
    (if ifl pc 0 then (if ifl pc 1 then [B pc 0 0; B pc 0 1; B pc 1 0] else [B pc 0 0; B pc 0 1])
     else (if ifl pc 1 then [B pc 0 0; B pc 1 0] else [])) m) as (m' & E & F & _); eauto using single_valid, single_zeros.
  - intros x Hx. apply in_app_iff in Hx. destruct (ifl pc 0), (ifl pc 1); simpl in Hx;
      intuition; subst; near1.
  - inversion N as [|? ? N1 N2]; subst. inversion N2 as [|? ? N3 N4]; subst.
    destruct (ifl pc 0), (ifl pc 1); repeat constructor; simpl in *; tauto.
  - intros x. destruct (ifl pc 0), (ifl pc 1); simpl; tauto.
  - exists m'. split; [exact E|]. unfold dec_regular. destruct (ifl pc 0), (ifl pc 1); exact F.
Qed.

Lemma rNonSmooth_ok pc m : fst pc < np -> cok m -> zeros m pc ->
  exists m', rNonSmooth I pc m = Ok m' /\ effect m m' [pc] (b2n (ifl pc 0) + b2n (ifl pc 1)).
Proof.
  intros H Hok Hz. unfold rNonSmooth. rewrite along_ok by (auto; simpl; lia). cbn [bind map]. rewrite !rIface_ifl.
  pose proof (three_nodup pc H) as N.
  destruct (celim_effect [pc] ((if ifl pc 0 then [B pc 0 1] else []) ++ (if ifl pc 1 then [B pc 1 0] else []))
    ((if ifl pc 0 then [B pc 0 1] else []) ++ (if ifl pc 1 then [B pc 1 0] else [])) m) as (m' & E & F & _);
    eauto using single_valid, single_zeros.
  - intros x Hx. apply in_app_iff in Hx. destruct (ifl pc 0), (ifl pc 1); simpl in Hx;
      intuition; subst; near1.
  - inversion N as [|? ? N1 N2]; subst. inversion N2 as [|? ? N3 N4]; subst.
    destruct (ifl pc 0), (ifl pc 1); repeat constructor; simpl in *; tauto.
  - tauto.
  - exists m'. split; [exact E|]. destruct (ifl pc 0), (ifl pc 1); exact F.
Qed.

Lemma rInterior_ok pc m : fst pc < np -> cok m -> zeros m pc ->
  exists m', rInterior I pc m = Ok m' /\ effect m m' [pc] 3.
Proof.
  intros H Hok Hz. unfold rInterior. rewrite along_ok by (auto; simpl; lia). cbn [bind map].
  pose proof (three_nodup pc H) as N.
  destruct (celim_effect [pc] ([B pc 0 0; B pc 0 1] ++ [B pc 0 0; B pc 1 0])
    [B pc 0 0; B pc 0 1; B pc 1 0] m) as (m' & E & F & _); eauto using single_valid, single_zeros.
  - intros x Hx. simpl in Hx. intuition; subst; near1.
  - intros x. simpl; tauto.
Qed.

(** ** class rules *)
Lemma isBoundary_ifl pc d : fst pc < np -> isBoundary t (fst pc, cside (snd pc) d) = negb (ifl pc d).
Proof.
  intros H. assert (isBoundary t (fst pc, cside (snd pc) d) = true <-> ifl pc d = false) as E.
  { unfold TopoProofs.ifl. rewrite (isInterface_bd t Hcons) by (simpl; rewrite Hnp; exact H).
    unfold isBoundary. rewrite existsb_exists. split.
    - intros (y & Hy & G). apply ps_eqb_eq in G. subst. exact Hy.
    - intros G. eexists. split; [exact G|]. apply ps_eqb_eq. reflexivity. }
  destruct (isBoundary t _), (ifl pc d); simpl; try reflexivity; intuition discriminate.
Qed.

Definition i0 (c : pcorner) : dof := B c 0 0.
Definition i1 (c : pcorner) : list dof := (if ifl c 0 then [B c 0 1] else []) ++ (if ifl c 1 then [B c 1 0] else []).

Lemma flat_map_single {A C} (f : A -> C) l : concat (map (fun a => [f a]) l) = map f l.
Proof. induction l; simpl; congruence. Qed.

Lemma all0_ok pc : fst pc < np -> rAllInterfaceIndices I pc 0 = Ok (map i0 (cls pc)).
Proof.
  intros H. unfold rAllInterfaceIndices. rewrite (cornerList_cls t Hcons pc) by (apply rvalidc; auto). cbn [bind].
  rewrite (mapM_ok _ (fun c => [i0 c])).
  - cbn [bind]. rewrite flat_map_single. reflexivity.
  - intros c Hc. pose proof (rcls_valid pc c H Hc) as Hcv. unfold rInterfaceIndices. rewrite rbas_get by exact Hcv.
    cbn [bind Nat.eqb]. unfold i0, B. rewrite rcorner_blk by (apply rbas_like; auto). reflexivity.
Qed.
Lemma all1_ok pc : fst pc < np -> rAllInterfaceIndices I pc 1 = Ok (flat_map i1 (cls pc)).
Proof.
  intros H. unfold rAllInterfaceIndices. rewrite (cornerList_cls t Hcons pc) by (apply rvalidc; auto). cbn [bind].
  rewrite (mapM_ok _ i1).
  - cbn [bind]. rewrite flat_map_concat_map. reflexivity.
  - intros c Hc. pose proof (rcls_valid pc c H Hc) as Hcv. unfold rInterfaceIndices. rewrite rbas_get by exact Hcv.
    cbn [bind Nat.eqb containing_sides flat_map]. rewrite !isBoundary_ifl by exact Hcv. rewrite app_nil_r. unfold i1.
    rewrite (rifv_blk1 (rbas (fst c)) (rbas_like _ Hcv) (snd c) 1 0) by lia.
    f_equal. destruct (ifl c 0), (ifl c 1); reflexivity.
Qed.

Lemma i0_nodup pc : fst pc < np -> NoDup (map i0 (cls pc)).
Proof.
  intros H. assert (forall c, In c (cls pc) -> fst c < np) as V by (intros c; apply rcls_valid; auto).
  pose proof (cls_nodup t Hcons pc (proj2 (rvalidc pc) H)) as N. revert V N.
  generalize (cls pc). intros l V N. induction N as [|c l Hc N IH]; simpl; constructor.
  - intros G. apply in_map_iff in G. destruct G as (c' & E & Hc'). unfold i0 in E. symmetry in E.
    apply B_inj in E; try lia; [|apply V; left; auto]. destruct E as (-> & _). contradiction.
  - apply IH. intros; apply V; right; auto.
Qed.
Lemma in_i1 c x : In x (i1 c) -> x = B c 0 1 \/ x = B c 1 0.
Proof. unfold i1. destruct (ifl c 0), (ifl c 1); simpl; intuition. Qed.
Lemma i1_nodup pc : fst pc < np -> NoDup (flat_map i1 (cls pc)).
Proof.
  intros H. assert (forall c, In c (cls pc) -> fst c < np) as V by (intros c; apply rcls_valid; auto).
  pose proof (cls_nodup t Hcons pc (proj2 (rvalidc pc) H)) as N. revert V N.
  generalize (cls pc). intros l V N. induction N as [|c l Hc N IH]; simpl; [constructor|].
  assert (fst c < np) as Hcv by (apply V; left; auto).
  apply NoDup_app_iff. split; [|split].
  - pose proof (three_nodup c Hcv) as Q. inversion Q as [|? ? Q1 Q2]; subst. inversion Q2 as [|? ? Q3 Q4]; subst.
    unfold i1. destruct (ifl c 0), (ifl c 1); simpl; repeat constructor; simpl in *; tauto.
  - apply IH. intros; apply V; right; auto.
  - intros x Hx G. apply in_flat_map in G. destruct G as (c' & Hc' & Hx'). apply in_i1 in Hx. apply in_i1 in Hx'.
    destruct Hx as [->| ->], Hx' as [E|E]; apply B_inj in E; auto; try lia; destruct E as (-> & _); contradiction.
Qed.
Lemma i1_length l : length (flat_map i1 l) = length (idarts t l).
Proof.
  rewrite idarts_sum. induction l as [|c l IH]; simpl; [reflexivity|]. rewrite app_length, IH. f_equal.
  unfold i1. destruct (ifl c 0), (ifl c 1); reflexivity.
Qed.

Lemma near_i0 pc x : In x (map i0 (cls pc)) -> near (cls pc) x.
Proof. intros H. apply in_map_iff in H. destruct H as (c & <- & Hc). exists c, 0, 0. repeat split; auto. Qed.
Lemma near_i1 pc x : In x (flat_map i1 (cls pc)) -> near (cls pc) x.
Proof.
  intros H. apply in_flat_map in H. destruct H as (c & Hc & Hx). apply in_i1 in Hx.
  destruct Hx as [->| ->]; [exists c, 0, 1|exists c, 1, 0]; repeat split; auto.
Qed.
Lemma i0_i1 pc x : fst pc < np -> In x (map i0 (cls pc)) -> In x (flat_map i1 (cls pc)) -> False.
Proof.
  intros H H1 H2. apply in_map_iff in H1. destruct H1 as (c & <- & Hc). apply in_flat_map in H2.
  destruct H2 as (c' & Hc' & Hx). pose proof (rcls_valid pc c H Hc) as V. unfold i0 in Hx. apply in_i1 in Hx.
  destruct Hx as [E|E]; apply B_inj in E; auto; lia.
Qed.

Lemma remove_lowest (l : list dof) n : NoDup l -> n <= length l ->
  exists r, removeLowestIndices l n = Ok r /\ NoDup r /\ length r + n = length l /\ incl r l.
Proof.
  intros HN Hn. destruct (lowest_split l n HN Hn) as (r & E & L & P & _).
  exists r. split; [exact E|]. split; [|split].
  - apply (Permutation_NoDup (Permutation_sym P)) in HN. apply NoDup_app_iff in HN. tauto.
  - apply Permutation_length in P. rewrite app_length in P. unfold dof in *. lia.
  - intros x Hx. apply (Permutation_in _ P), in_app_iff. auto.
Qed.

Lemma mark_ok pc vc P : fst pc < np -> vmarks vc P ->
  exists vc', markCorners (cls pc) vc = Ok vc' /\ vmarks vc' (fun c => P c \/ In c (cls pc)).
Proof.
  intros H Hm. apply (passed_loop S0 (cls pc) vc P Hm). intros c Hc. apply np0. eapply rcls_valid; eauto.
Qed.

Section Class.
Variables (pc : pcorner) (m : cmap) (vc : list bool) (P : pcorner -> Prop).
Hypotheses (H : fst pc < np) (Hok : cok m) (Hz : forall c, In c (cls pc) -> zeros m c) (Hm : vmarks vc P).

Let HT : forall c, In c (cls pc) -> fst c < np.
Proof. intros c. apply rcls_valid. exact H. Qed.

Lemma acNonSmooth_v2_ok : 1 <= length (idarts t (cls pc)) ->
  exists m' vc', acNonSmooth_v2 I pc m vc = Ok (m', vc') /\ effect m m' (cls pc) (length (idarts t (cls pc)) - 1) /\
    vmarks vc' (fun c => P c \/ In c (cls pc)).
Proof.
  intros Hl. unfold acNonSmooth_v2. rewrite all1_ok by exact H. cbn [bind].
  destruct (remove_lowest (flat_map i1 (cls pc)) 1) as (r & E & N & L & Hin).
  { apply i1_nodup; auto. } { rewrite i1_length. exact Hl. }
  rewrite E. cbn [bind].
  destruct (celim_effect (cls pc) r r m) as (m' & E' & F & _); auto.
  { intros x Hx. apply near_i1, Hin, Hx. } { tauto. }
  rewrite E'. cbn [bind]. rewrite (cornerList_cls t Hcons pc) by (apply rvalidc; exact H). cbn [bind].
  destruct (mark_ok pc vc P H Hm) as (vc' & -> & Hm'). cbn [bind].
  exists m', vc'. split; [reflexivity|]. split; [|exact Hm']. rewrite i1_length in L.
  replace (length (idarts t (cls pc)) - 1) with (length r) by lia. exact F.
Qed.

(** eliminate the functions next to the vertex and all but three of the corner functions, in either order *)
Lemma elim_two l l' : NoDup l -> NoDup l' -> (forall x, In x l -> In x l' -> False) ->
  (forall x, In x l -> near (cls pc) x) -> (forall x, In x l' -> near (cls pc) x) ->
  exists m1 m2, celimAll l m = Ok m1 /\ celimAll l' m1 = Ok m2 /\ effect m m2 (cls pc) (length l + length l').
Proof.
  intros N N' Dj Hl Hl'.
  destruct (celim_effect (cls pc) (l ++ l') (l ++ l') m) as (m2 & E & F & _); auto.
  - intros x Hx. apply in_app_iff in Hx. destruct Hx; auto.
  - apply NoDup_app_iff. auto.
  - tauto.
  - unfold celimAll in E. rewrite foldM_app in E. fold (celimAll l m) in E.
    destruct (celimAll l m) as [m1|] eqn:E1; [|discriminate]. cbn [bind] in E.
    exists m1, m2. split; [reflexivity|]. split; [exact E|]. rewrite app_length in F. exact F.
Qed.

Lemma acIrregularSmooth_ok : 3 <= valence pc ->
  exists m' vc', acIrregularSmooth I pc m vc = Ok (m', vc') /\
    effect m m' (cls pc) (length (idarts t (cls pc)) + (valence pc - 3)) /\
    vmarks vc' (fun c => P c \/ In c (cls pc)).
Proof.
  intros Hl. unfold acIrregularSmooth. rewrite all0_ok, all1_ok by exact H. cbn [bind].
  rewrite (cornerList_cls t Hcons pc) by (apply rvalidc; exact H). cbn [bind].
  destruct (mark_ok pc vc P H Hm) as (vc' & -> & Hm'). cbn [bind].
  destruct (remove_lowest (map i0 (cls pc)) 3) as (r & E & N & L & Hin).
  { apply i0_nodup; auto. } { rewrite map_length. exact Hl. }
  destruct (elim_two (flat_map i1 (cls pc)) r) as (m1 & m2 & E1 & E2 & F); auto using i1_nodup, near_i1.
  { intros x H1 H2. apply (i0_i1 pc x H); auto. }
  { intros x Hx. apply near_i0, Hin, Hx. }
  rewrite E1. cbn [bind]. rewrite E. cbn [bind]. rewrite E2. cbn [bind].
  exists m2, vc'. split; [reflexivity|]. split; [|exact Hm']. rewrite map_length in L. rewrite i1_length in F.
  unfold TopoProofs.valence. replace (length (cls pc) - 3) with (length r) by lia. exact F.
Qed.

Lemma acInterior_ok : 3 <= valence pc ->
  exists m' vc', acInterior I pc m vc = Ok (m', vc') /\
    effect m m' (cls pc) (length (idarts t (cls pc)) + (valence pc - 3)) /\
    vmarks vc' (fun c => P c \/ In c (cls pc)).
Proof.
  intros Hl. unfold acInterior. rewrite all0_ok, all1_ok by exact H. cbn [bind].
  rewrite (cornerList_cls t Hcons pc) by (apply rvalidc; exact H). cbn [bind].
  destruct (mark_ok pc vc P H Hm) as (vc' & -> & Hm'). cbn [bind].
  destruct (remove_lowest (map i0 (cls pc)) 3) as (r & E & N & L & Hin).
  { apply i0_nodup; auto. } { rewrite map_length. exact Hl. }
  destruct (elim_two r (flat_map i1 (cls pc))) as (m1 & m2 & E1 & E2 & F); auto using i1_nodup, near_i1.
  { intros x H1 H2. apply (i0_i1 pc x H); auto. }
  { intros x Hx. apply near_i0, Hin, Hx. }
  rewrite E. cbn [bind]. rewrite E1. cbn [bind]. rewrite E2. cbn [bind].
  exists m2, vc'. split; [reflexivity|]. split; [|exact Hm']. rewrite map_length in L. rewrite i1_length in F.
  unfold TopoProofs.valence. replace (length (idarts t (cls pc)) + (length (cls pc) - 3)) with (length r + length (idarts t (cls pc))) by lia. exact F.
Qed.
End Class.
End R.
