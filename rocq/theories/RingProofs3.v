(** Predicted size and number of free functions of gsDPatch and gsAlmostC1. *)
From Verif Require Import Common TopoModel BaseModel IndexSpec TopoSpec SmoothSpec SmoothSpec2 BaseModel2 BaseSpec2
  IndexProofs IndexTopoProofs ListLemmas TopoProofs PointProofs MapperProofs CountProofs GeometryProofs
  BaseProofs2 RingModel RingSpec RingProofs RingProofs2.
From Coq Require Import ZifyBool.

Section R.
Variable I : rinput.
Hypothesis RI : ring_input I.
Notation t := (ritopo I).
Notation np := (length (ribases I)).
Notation S0 := (shadow I).
Let W0 := shadow_wf I RI.
Let Hcons : consistent t := ri_topo I RI.
Let Hnp : tnp t = np := ri_np I RI.
Notation cls := (cls t).
Notation valence := (valence t).
Notation inner := (inner t).
Notation ifl := (ifl t).
Notation rc0 := (rc0 I).
Notation sizes := (sizes I).
Notation D := (dofs_from 0 sizes).
Notation cok := (cok sizes).
Notation B := (B I).
Notation zeros := (zeros I).
Notation effect := (effect I).
Notation vmarks := (marks S0 vertIndex (@fst nat corner)).
Notation smarks := (marks S0 sideIndex (@fst nat side)).
Let rvalidc := rvalidc I RI.
Let np0 := np0 I.

(** ** boundary vertices of valence three in gsDPatch *)
Lemma elim_B m pc a e : fst pc < np -> a < 2 -> e < 2 -> cok m -> cmval m (B pc a e) = 0%Z ->
  exists m', celiminate m (rblk (rbas I (fst pc)) (snd pc) a e) (fst pc) = Ok m' /\ cok m' /\
    cfreeSize m' + 1 = cfreeSize m /\ (forall y, y <> B pc a e -> cmval m' y = cmval m y).
Proof.
  intros Hp Ha He Hok Hz.
  destruct (eliminate_zero sizes m (B pc a e) Hok (B_in I RI pc a e Hp Ha He) Hz) as (m' & E & H1 & H2 & _ & H3).
  exists m'. auto.
Qed.

Lemma elim_next m pc : fst pc < np -> cok m -> zeros m pc ->
  exists m', (do m <- celiminate m (rifv (rbas I (fst pc)) 1 (snd pc) (cside (snd pc) 0) 0) (fst pc);
              celiminate m (rifv (rbas I (fst pc)) 1 (snd pc) (cside (snd pc) 1) 0) (fst pc)) = Ok m' /\ cok m' /\
    cfreeSize m' + 2 = cfreeSize m /\ cmval m' (B pc 0 0) = 0%Z /\
    (forall c a e, fst c < np -> a < 2 -> e < 2 -> c <> pc -> cmval m' (B c a e) = cmval m (B c a e)).
Proof.
  intros Hp Hok Hz. rewrite rifv_blk0, rifv_blk1 by (try apply rbas_like; auto).
  destruct (elim_B m pc 0 1 Hp ltac:(lia) ltac:(lia) Hok (Hz 0 1 ltac:(lia) ltac:(lia))) as (m1 & E1 & Hok1 & F1 & U1).
  rewrite E1. cbn [bind].
  assert (forall a e a' e', a < 2 -> e < 2 -> a' < 2 -> e' < 2 -> (a, e) <> (a', e') -> B pc a e <> B pc a' e') as NB.
  { intros. apply (BB_neq I RI); auto. }
  destruct (elim_B m1 pc 1 0 Hp ltac:(lia) ltac:(lia) Hok1) as (m2 & E2 & Hok2 & F2 & U2).
  { rewrite U1 by (apply NB; lia || congruence). apply Hz; lia. }
  exists m2. split; [exact E2|]. split; [exact Hok2|]. split; [lia|]. split.
  - rewrite U2, U1 by (apply NB; lia || congruence). apply Hz; lia.
  - intros c a e Hc Ha He Hn.
    rewrite U2, U1; auto; intros G; apply (B_inj I RI) in G; auto; destruct G as (-> & _); contradiction.
Qed.

Lemma dpBoundary_v3_ok pc m vc P : fst pc < np -> cok m -> (forall c, In c (cls pc) -> zeros m c) -> vmarks vc P ->
  valence pc = 3 ->
  exists m' vc', dpBoundary_v3 I pc m vc = Ok (m', vc') /\ effect m m' (cls pc) 8 /\
    vmarks vc' (fun c => P c \/ In c (cls pc)).
Proof.
  intros H Hok Hz Hm Hv. unfold dpBoundary_v3. rewrite (cornerList_cls t Hcons pc) by (apply rvalidc; exact H).
  cbn [bind]. unfold TopoProofs.valence in Hv. pose proof (rcls_valid I RI pc) as V.
  pose proof (cls_nodup t Hcons pc (proj2 (rvalidc pc) H)) as N. specialize (fun c => V c H).
  destruct (cls pc) as [|c1 [|c2 [|c3 [|]]]]; try discriminate. clear Hv.
  assert (c1 <> c2 /\ c1 <> c3 /\ c2 <> c3) as (N12 & N13 & N23).
  { inversion N as [|? ? A1 A2]; subst. inversion A2 as [|? ? A3 A4]; subst. simpl in *. intuition. }
  assert (fst c1 < np) as P1 by (apply V; simpl; auto).
  assert (fst c2 < np) as P2 by (apply V; simpl; auto).
  assert (fst c3 < np) as P3 by (apply V; simpl; auto).
  assert (zeros m c1) as Z1 by (apply Hz; simpl; auto).
  assert (zeros m c2) as Z2 by (apply Hz; simpl; auto).
  assert (zeros m c3) as Z3 by (apply Hz; simpl; auto).
  cbn [bind]. rewrite (rbas_get I RI (fst c1)) by exact P1. cbn [bind length seq combine foldM fst snd Nat.eqb].
  rewrite (rbas_get I RI (fst c1)), (rbas_get I RI (fst c2)), (rbas_get I RI (fst c3)) by assumption. cbn [bind].
  (* first corner *)
  destruct (elim_next m c1 P1 Hok Z1) as (m1 & E1 & Hok1 & F1 & V1 & U1).
  destruct (celiminate m (rifv (rbas I (fst c1)) 1 (snd c1) (cside (snd c1) 0) 0) (fst c1)) as [x1|]; [|discriminate].
  cbn [bind] in E1 |- *. rewrite E1. cbn [bind].
  destruct (vmarks_set S0 vc P c1 Hm (np0 _ P1)) as (v1 & -> & M1). cbn [bind].
  (* second corner *)
  destruct (elim_next m1 c2 P2 Hok1) as (m2 & E2 & Hok2 & F2 & V2 & U2).
  { intros a e Ha He. rewrite U1; auto. }
  destruct (celiminate m1 (rifv (rbas I (fst c2)) 1 (snd c2) (cside (snd c2) 0) 0) (fst c2)) as [x2|]; [|discriminate].
  cbn [bind] in E2 |- *. rewrite E2. cbn [bind].
  rewrite !rcorner_blk by (apply rbas_like; auto).
  destruct (match_zero sizes m2 (B c1 0 0) (B c2 0 0) Hok2) as (m2' & E2' & Hok2' & F2' & V2' & V2'' & U2').
  { apply (B_in I RI); auto; lia. } { apply (B_in I RI); auto; lia. }
  { intros G. apply (B_inj I RI) in G; auto; try lia. destruct G as (G & _). contradiction. }
  { rewrite U2; auto; lia. } { exact V2. }
  unfold RingProofs2.B in E2' at 1 2 3 4. cbn [fst snd] in E2'. rewrite E2'. cbn [bind].
  destruct (vmarks_set S0 v1 _ c2 M1 (np0 _ P2)) as (v2 & -> & M2). cbn [bind].
  (* third corner *)
  assert (forall c a e, fst c < np -> a < 2 -> e < 2 -> c <> c1 -> c <> c2 -> cmval m2' (B c a e) = cmval m (B c a e)) as U3.
  { intros c a e Hc Ha He A1 A2. rewrite U2'.
    - rewrite U2, U1; auto.
    - intros G. apply (B_inj I RI) in G; auto; try lia. destruct G as (-> & _). contradiction.
    - intros G. apply (B_inj I RI) in G; auto; try lia. destruct G as (-> & _). contradiction. }
  destruct (elim_next m2' c3 P3 Hok2') as (m3 & E3 & Hok3 & F3 & V3 & U4).
  { intros a e Ha He. rewrite U3; auto. }
  destruct (celiminate m2' (rifv (rbas I (fst c3)) 1 (snd c3) (cside (snd c3) 0) 0) (fst c3)) as [x3|]; [|discriminate].
  cbn [bind] in E3 |- *. rewrite E3. cbn [bind].
  destruct (match_group sizes m3 (B c1 0 0) (B c3 0 0) Hok3) as (m3' & E3' & Hok3' & F3' & V3' & U3').
  { apply (B_in I RI); auto; lia. } { apply (B_in I RI); auto; lia. }
  { rewrite U4 by (auto; lia). rewrite V2'. destruct Hok2 as (_ & C & _). lia. } { exact V3. }
  unfold RingProofs2.B in E3' at 1 2 3 4. cbn [fst snd] in E3'. rewrite E3'. cbn [bind].
  destruct (vmarks_set S0 v2 _ c3 M2 (np0 _ P3)) as (v3 & -> & M3). cbn [bind].
  exists m3', v3. split; [reflexivity|]. split; [split; [exact Hok3'|split; [lia|]]|].
  - intros c a e Hc Ha He Hn. simpl in Hn. rewrite U3'.
    + rewrite U4 by (auto; intuition). apply U3; auto; intuition.
    + intros G. apply (B_inj I RI) in G; auto; try lia. destruct G as (-> & _). intuition.
  - revert M3. apply marks_ext. intros c _. simpl. intuition.
Qed.

(** ** all rules *)
Definition single (sc : scheme) (pc : pcorner) : bool :=
  match sc with
  | SchemeDPatch => inner pc || (valence pc <=? 2)
  | SchemeAlmostC1 =>
      if inner pc then valence pc =? 4
      else (valence pc =? 1) || (if valence pc =? 2 then negb (rc0 pc) else rc0 pc)
  end.
(** free functions lost at a corner (single rules) or at a vertex (class rules) *)
Definition tot (sc : scheme) (pc : pcorner) : nat :=
  match sc with
  | SchemeDPatch =>
      if inner pc then 3 else if valence pc =? 1 then 0
      else if valence pc =? 2 then (if rc0 pc then 1 else 2) else 8
  | SchemeAlmostC1 =>
      if inner pc then (if valence pc =? 4 then 3 else 3 * valence pc - 3)
      else if valence pc =? 1 then 0
      else if valence pc =? 2 then (if rc0 pc then 1 else 2)
      else if rc0 pc then b2n (ifl pc 0) + b2n (ifl pc 1) else 3 * valence pc - 5
  end.
Definition sup (sc : scheme) (pc : pcorner) : bool :=
  match sc with
  | SchemeDPatch => inner pc || (valence pc <=? 3)
  | SchemeAlmostC1 => negb (inner pc) || (3 <=? valence pc)
  end.
Definition touched (sc : scheme) (pc : pcorner) : list pcorner := if single sc pc then [pc] else cls pc.

Lemma valence_pos pc : fst pc < np -> 1 <= valence pc.
Proof.
  intros H. unfold TopoProofs.valence. pose proof (cls_self t Hcons pc (proj2 (rvalidc pc) H)).
  destruct (cls pc); [contradiction|simpl; lia].
Qed.
Lemma inner_idarts pc : inner pc = true -> length (idarts t (cls pc)) = 2 * valence pc.
Proof. intros H. apply vertex_inner_darts. exact H. Qed.

Lemma regular_dec pc : fst pc < np -> inner pc = true -> dec_regular I pc = 3.
Proof.
  intros H Hi. unfold dec_regular, TopoProofs.ifl. rewrite !(inner_iface t Hcons pc _ (proj2 (rvalidc pc) H) Hi). reflexivity.
Qed.
Lemma regular_dec2 pc : fst pc < np -> inner pc = false -> valence pc = 2 -> dec_regular I pc = 2.
Proof.
  intros H Hi Hv. pose proof (val2_boundary t Hcons pc (proj2 (rvalidc pc) H) Hi Hv) as E. unfold dec_regular.
  rewrite E. destruct (ifl pc 1); reflexivity.
Qed.
Lemma nonsmooth_dec2 pc : fst pc < np -> inner pc = false -> valence pc = 2 -> b2n (ifl pc 0) + b2n (ifl pc 1) = 1.
Proof.
  intros H Hi Hv. pose proof (val2_boundary t Hcons pc (proj2 (rvalidc pc) H) Hi Hv) as E.
  rewrite E. destruct (ifl pc 1); reflexivity.
Qed.

Lemma rule_ok sc pc m vc P : fst pc < np -> sup sc pc = true -> cok m ->
  (forall c, In c (touched sc pc) -> zeros m c) -> vmarks vc P ->
  exists m' vc', rVertexRule sc I pc (valence pc) (inner pc) (rc0 pc) m vc = Ok (m', vc') /\
    effect m m' (touched sc pc) (tot sc pc) /\
    exists Q, vmarks vc' Q /\ (forall c, (c = pc \/ Q c) <-> (P c \/ In c (touched sc pc))).
Proof.
  intros H Hs Hok Hz Hm. pose proof (valence_pos pc H) as V1.
  assert (Hself : In pc (cls pc)) by (apply (cls_self t Hcons), rvalidc; exact H).
  assert (single sc pc = true -> exists Q, vmarks vc Q /\ (forall c, (c = pc \/ Q c) <-> (P c \/ In c (touched sc pc)))) as Q1.
  { intros E. exists P. split; [exact Hm|]. unfold touched. rewrite E. intros c. simpl. intuition. }
  assert (single sc pc = true -> zeros m pc) as Z1.
  { intros E. apply Hz. unfold touched. rewrite E. left; auto. }
  assert (single sc pc = false -> forall c, In c (cls pc) -> zeros m c) as Z2.
  { intros E c Hc. apply Hz. unfold touched. rewrite E. exact Hc. }
  assert (single sc pc = false -> forall vc', vmarks vc' (fun c => P c \/ In c (cls pc)) ->
     exists Q, vmarks vc' Q /\ (forall c, (c = pc \/ Q c) <-> (P c \/ In c (touched sc pc)))) as Q2.
  { intros E vc' Hm'. eexists. split; [exact Hm'|]. unfold touched. rewrite E. intros c. split; [intros [->|?]|]; auto. }
  unfold touched in Q1, Q2 |- *. unfold rVertexRule.
  destruct sc; unfold single, tot, sup in *.
  - destruct (inner pc) eqn:Hi; cbn [negb andb orb] in *.
    + destruct (rInterior_ok I RI pc m H Hok (Z1 eq_refl)) as (m' & -> & F). cbn [bind]. exists m', vc. auto.
    + destruct (valence pc =? 1) eqn:E1.
      * assert (valence pc <=? 2 = true) as E by lia. rewrite E in *. exists m, vc. split; [reflexivity|]. split; auto.
        split; [exact Hok|]. split; [lia|auto].
      * destruct (valence pc =? 2) eqn:E2.
        -- assert (valence pc <=? 2 = true) as E by lia. rewrite E in *. destruct (rc0 pc) eqn:C; cbn [andb negb].
           ++ destruct (rNonSmooth_ok I RI pc m H Hok (Z1 eq_refl)) as (m' & -> & F). cbn [bind]. exists m', vc.
              rewrite nonsmooth_dec2 in F by (auto; lia). auto.
           ++ destruct (rRegularSmooth_ok I RI pc m H Hok (Z1 eq_refl)) as (m' & -> & F). cbn [bind]. exists m', vc.
              rewrite regular_dec2 in F by (auto; lia). auto.
        -- assert (valence pc <=? 2 = false) as E by lia. rewrite E in *. cbn [andb].
           assert (valence pc =? 3 = true) as E3 by lia. rewrite E3.
           destruct (dpBoundary_v3_ok pc m vc P H Hok (Z2 eq_refl) Hm) as (m' & vc' & -> & F & M); [lia|].
           exists m', vc'. auto.
  - destruct (inner pc) eqn:Hi; cbn [negb andb orb] in *.
    + destruct (valence pc =? 4) eqn:E4.
      * destruct (rRegularSmooth_ok I RI pc m H Hok (Z1 eq_refl)) as (m' & -> & F). cbn [bind]. exists m', vc.
        rewrite regular_dec in F by auto. auto.
      * assert ((valence pc =? 3) || (4 <? valence pc) = true) as E by lia. rewrite E.
        destruct (acInterior_ok I RI pc m vc P H Hok (Z2 eq_refl) Hm) as (m' & vc' & -> & F & M); [lia|].
        exists m', vc'. rewrite inner_idarts in F by exact Hi.
        replace (2 * valence pc + (valence pc - 3)) with (3 * valence pc - 3) in F by lia. auto.
    + destruct (valence pc =? 1) eqn:E1.
      * cbn [orb] in *. exists m, vc. split; [reflexivity|]. split; auto.
        split; [exact Hok|]. split; [lia|auto].
      * pose proof (boundary_idarts t Hcons pc (proj2 (rvalidc pc) H) Hi) as ID.
        destruct (valence pc =? 2) eqn:E2; cbn [andb orb] in *.
        -- destruct (rc0 pc) eqn:C; cbn [andb negb] in *.
           ++ destruct (acNonSmooth_v2_ok I RI pc m vc P H Hok (Z2 eq_refl) Hm) as (m' & vc' & -> & F & M); [lia|].
              exists m', vc'. rewrite ID in F. replace (2 * (valence pc - 1) - 1) with 1 in F by lia. auto.
           ++ destruct (rRegularSmooth_ok I RI pc m H Hok (Z1 eq_refl)) as (m' & -> & F). cbn [bind]. exists m', vc.
              rewrite regular_dec2 in F by (auto; lia). auto.
        -- assert (2 <? valence pc = true) as E by lia. rewrite E. destruct (rc0 pc) eqn:C; cbn [andb negb] in *.
           ++ destruct (rNonSmooth_ok I RI pc m H Hok (Z1 eq_refl)) as (m' & -> & F). cbn [bind]. exists m', vc. auto.
           ++ destruct (acIrregularSmooth_ok I RI pc m vc P H Hok (Z2 eq_refl) Hm) as (m' & vc' & -> & F & M); [lia|].
              exists m', vc'. rewrite ID in F.
              replace (2 * (valence pc - 1) + (valence pc - 3)) with (3 * valence pc - 5) in F by lia. auto.
Qed.

Lemma rule_unsupported sc pc m vc : fst pc < np -> sup sc pc = false ->
  rVertexRule sc I pc (valence pc) (inner pc) (rc0 pc) m vc = Err.
Proof.
  intros H Hs. pose proof (valence_pos pc H) as V1. unfold rVertexRule, sup in *. destruct sc.
  - destruct (inner pc); [discriminate|]. cbn [negb andb orb] in *.
    assert (valence pc =? 1 = false) as -> by lia. assert (valence pc =? 2 = false) as -> by lia.
    assert (valence pc =? 3 = false) as -> by lia. assert (3 <? valence pc = true) as -> by lia. reflexivity.
  - destruct (inner pc); [|discriminate]. cbn [negb andb orb] in *.
    assert (valence pc =? 4 = false) as -> by lia. assert (valence pc =? 3 = false) as -> by lia.
    assert (4 <? valence pc = false) as -> by lia. reflexivity.
Qed.

(** ** the vertex loop *)
Lemma single_cls sc pc c : fst pc < np -> In c (cls pc) -> single sc c = single sc pc.
Proof.
  intros H Hc. unfold single. rewrite (inner_cls t Hcons pc c), (valence_cls t Hcons pc c), (rc0_cls I RI pc c) by (auto; apply rvalidc; auto).
  reflexivity.
Qed.
Lemma sup_cls sc pc c : fst pc < np -> In c (cls pc) -> sup sc c = sup sc pc.
Proof.
  intros H Hc. unfold sup. rewrite (inner_cls t Hcons pc c), (valence_cls t Hcons pc c) by (auto; apply rvalidc; auto).
  reflexivity.
Qed.
Lemma tot_cls sc pc c : fst pc < np -> In c (cls pc) -> single sc pc = false -> tot sc c = tot sc pc.
Proof.
  intros H Hc Hs. unfold tot. unfold single in Hs. rewrite (inner_cls t Hcons pc c), (valence_cls t Hcons pc c), (rc0_cls I RI pc c) by (auto; apply rvalidc; auto).
  destruct sc; auto. destruct (inner pc); auto. destruct (valence pc =? 1); auto. destruct (valence pc =? 2); auto.
  cbn [orb] in Hs. rewrite Hs. reflexivity.
Qed.

Definition leader (c : pcorner) : bool := forallb (fun c' => vertIndex c <=? vertIndex c') (cls c).
Definition dec (sc : scheme) (c : pcorner) : nat :=
  if single sc c then tot sc c else if leader c then tot sc c else 0.

Lemma min_exists (l : list pcorner) : l <> [] -> exists a, In a l /\ forall x, In x l -> vertIndex a <= vertIndex x.
Proof.
  induction l as [|a l IH]; [congruence|]. intros _. destruct l as [|b l].
  - exists a. split; [left; auto|]. intros x [<-|[]]. lia.
  - destruct IH as (c & Hc & Hm); [congruence|]. destruct (Nat.le_gt_cases (vertIndex a) (vertIndex c)) as [L|L].
    + exists a. split; [left; auto|]. intros x [<-|Hx]; [lia|]. specialize (Hm x Hx). lia.
    + exists c. split; [right; auto|]. intros x [<-|Hx]; [lia|]. apply Hm; exact Hx.
Qed.

Lemma sum_leader pc T : fst pc < np -> sumN (map (fun c => if leader c then T else 0) (cls pc)) = T.
Proof.
  intros H. assert (validc t pc) as Hv by (apply rvalidc; exact H).
  destruct (min_exists (cls pc)) as (a & Ha & Hmin).
  { pose proof (cls_self t Hcons pc Hv). destruct (cls pc); [contradiction|congruence]. }
  assert (forall c, In c (cls pc) -> leader c = true <-> c = a) as L.
  { intros c Hc. unfold leader. rewrite forallb_forall. split.
    - intros G. apply vertIndex_inj. specialize (Hmin c Hc).
      assert (In a (cls c)) as Hac by (apply (Permutation_in _ (cls_perm t Hcons pc c Hv Hc)); exact Ha).
      specialize (G a Hac). lia.
    - intros -> x Hx. assert (In x (cls pc)) as Hxc by (apply (Permutation_in _ (Permutation_sym (cls_perm t Hcons pc a Hv Ha))); exact Hx).
      specialize (Hmin x Hxc). lia. }
  pose proof (cls_nodup t Hcons pc Hv) as N. revert Ha L N. generalize (cls pc). clear.
  intros l Ha L N. apply in_split in Ha. destruct Ha as (l1 & l2 & ->). apply NoDup_remove_2 in N.
  rewrite map_app, sumN_app. cbn [map sumN]. rewrite (proj2 (L a (in_elt a l1 l2)) eq_refl).
  assert (forall l', (forall c, In c l' -> In c (l1 ++ l2)) -> sumN (map (fun c => if leader c then T else 0) l') = 0) as Z.
  { intros l' Hl'. rewrite (sumN_map_ext _ (fun _ => 0)); [rewrite sumN_map_const; lia|]. intros c Hc.
    destruct (leader c) eqn:E; auto. apply Hl' in Hc. exfalso. apply N.
    rewrite <- (proj1 (L c ltac:(apply in_app_iff in Hc; apply in_app_iff; simpl; tauto)) E). exact Hc. }
  rewrite !Z; [lia| |]; intros c Hc; apply in_app_iff; auto.
Qed.

Lemma sum_touched sc pc : fst pc < np -> sumN (map (dec sc) (touched sc pc)) = tot sc pc.
Proof.
  intros H. unfold touched. destruct (single sc pc) eqn:E.
  - cbn [map sumN]. unfold dec. rewrite E. lia.
  - rewrite (sumN_map_ext _ (fun c => if leader c then tot sc pc else 0)); [apply sum_leader; exact H|].
    intros c Hc. unfold dec. rewrite (single_cls sc pc c H Hc), E.
    destruct (leader c); auto. apply tot_cls; auto.
Qed.

Definition vinv (sc : scheme) (F0 : nat) (pre : list pcorner) (s : rstate) (L : list pcorner) : Prop :=
  vmarks (rs_vert s) (fun c => In c L) /\ NoDup L /\ incl pre L /\ (forall c, In c L -> fst c < np) /\
  (forall c, In c L -> single sc c = false -> incl (cls c) L) /\ (forall c, In c L -> sup sc c = true) /\
  cok (rs_map s) /\ cfreeSize (rs_map s) + sumN (map (dec sc) L) = F0 /\
  (forall c, fst c < np -> ~ In c L -> zeros (rs_map s) c).

Lemma vertex_loop sc F0 l s0 : (forall c, In c l -> fst c < np) -> (forall c, In c l -> sup sc c = true) ->
  vinv sc F0 [] s0 [] -> exists s L, foldM (rVertex sc I) l s0 = Ok s /\ vinv sc F0 l s L.
Proof.
  intros Hl Hs Hv0.
  destruct (foldM_inv (fun pre s => exists L, vinv sc F0 pre s L) (rVertex sc I) l s0) as (s & E & L & HL); eauto.
  intros pre pc post s E (L & H1 & H2 & H3 & H4 & H5 & H6 & H7 & H8 & H9).
  assert (In pc l) as Hin by (rewrite E; apply in_elt). pose proof (Hl pc Hin) as Hp. pose proof (Hs pc Hin) as Hsp.
  unfold rVertex. destruct (proj2 H1 pc (np0 _ Hp)) as (b & Eb & Hb). rewrite Eb. cbn [bind]. destruct b.
  - exists s. split; [reflexivity|]. exists L. unfold vinv. repeat (split; [solve [auto]|]).
    split; [|split; [auto|split; [auto|split; auto]]].
    intros x Hx. apply in_app_iff in Hx. destruct Hx as [Hx|[<-|[]]]; [auto|]. apply Hb; auto.
  - assert (~ In pc L) as Hn by (intros G; apply Hb in G; discriminate).
    rewrite (rc0_vget I RI pc Hp). cbn [bind]. rewrite (rvertexData I RI pc Hp). cbn [bind fst snd].
    assert (forall c, In c (touched sc pc) -> fst c < np) as Hcv.
    { intros c. unfold touched. destruct (single sc pc); [intros [<-|[]]; exact Hp|apply (rcls_valid I RI); exact Hp]. }
    assert (forall c, In c (touched sc pc) -> single sc c = single sc pc) as Hcs.
    { intros c. unfold touched. destruct (single sc pc) eqn:Es; [intros [<-|[]]; exact Es|]. intros Hc. rewrite <- Es. apply single_cls; auto. }
    assert (forall c, In c (touched sc pc) -> sup sc c = true) as Hcsup.
    { intros c. unfold touched. destruct (single sc pc) eqn:Es; [intros [<-|[]]; exact Hsp|]. intros Hc. rewrite (sup_cls sc pc c); auto. }
    assert (forall c, In c (touched sc pc) -> ~ In c L) as Hdis.
    { intros c. unfold touched. destruct (single sc pc) eqn:Es; [intros [<-|[]]; exact Hn|]. intros Hc G. apply Hn.
      apply (H5 c G); [rewrite (single_cls sc pc c); auto|]. apply (in_cls_sym t Hcons); auto. apply rvalidc; exact Hp. }
    assert (NoDup (touched sc pc)) as HN.
    { unfold touched. destruct (single sc pc); [repeat constructor; simpl; auto|]. apply (cls_nodup t Hcons), rvalidc; exact Hp. }
    destruct (rule_ok sc pc (rs_map s) (rs_vert s) (fun c => In c L) Hp Hsp H7) as (m' & vc' & -> & (F1 & F2 & F3) & Q & HQ & HQ').
    { intros c Hc. apply H9; auto. }
    { exact H1. }
    cbn [bind fst snd]. destruct (vmarks_set S0 vc' Q pc HQ (np0 _ Hp)) as (vc2 & -> & M2). cbn [bind].
    eexists. split; [reflexivity|]. exists (L ++ touched sc pc). unfold vinv. cbn [rs_map rs_vert].
    split; [|split; [|split; [|split; [|split; [|split; [|split; [|split]]]]]]].
    + revert M2. apply marks_ext. intros a _. rewrite in_app_iff. apply HQ'.
    + apply NoDup_app_iff. split; [exact H2|]. split; [exact HN|]. intros x Hx Hx'. apply (Hdis x Hx' Hx).
    + intros x Hx. apply in_app_iff. apply in_app_iff in Hx. destruct Hx as [Hx|[<-|[]]]; [left; auto|].
      right. unfold touched. destruct (single sc pc); [left; auto|]. apply (cls_self t Hcons), rvalidc; exact Hp.
    + intros c Hc. apply in_app_iff in Hc. destruct Hc; auto.
    + intros c Hc Es x Hx. apply in_app_iff. apply in_app_iff in Hc. destruct Hc as [Hc|Hc]; [left; eapply H5; eauto|].
      right. rewrite (Hcs c Hc) in Es. unfold touched in Hc |- *. rewrite Es in *.
      apply (Permutation_in _ (Permutation_sym (cls_perm t Hcons pc c (proj2 (rvalidc pc) Hp) Hc))). exact Hx.
    + intros c Hc. apply in_app_iff in Hc. destruct Hc; auto.
    + exact F1.
    + rewrite map_app, sumN_app, sum_touched by exact Hp. lia.
    + intros c Hc Hnc a e Ha He. rewrite F3; auto.
      * apply H9; auto. intros G. apply Hnc, in_app_iff; auto.
      * intros G. apply Hnc, in_app_iff; auto.
Qed.

(** ** the mapper *)
Definition F1 : nat := sumN sizes - sumN (map (slen I) (iface_sides t)).

Lemma before_vertices : exists s1 s2,
  foldM (rInterface I) (tif t) (mkRS (cmap_of sizes) (repeat false (2 * length (tif t) + length (tbd t))) (repeat false (4 * np))) = Ok s1 /\
  foldM rBoundary (tbd t) s1 = Ok s2 /\ forall sc, vinv sc F1 [] s2 [] /\
  sumN (map (slen I) (iface_sides t)) <= sumN sizes.
Proof.
  destruct (rinterface_loop I RI (mkRS (cmap_of sizes) (repeat false (2 * length (tif t) + length (tbd t))) (repeat false (4 * np))))
    as (s1 & E1 & M1 & V1 & K1 & F & Z).
  - cbn [rs_side]. pose proof (smarks_init S0 W0) as M. exact M.
  - apply cmap_of_ok.
  - reflexivity.
  - destruct (rboundary_loop I RI s1 _ M1) as (s2 & E2 & Em & Ev). exists s1, s2. split; [exact E1|]. split; [exact E2|].
    cbn [rs_map] in F. rewrite cmap_of_free in F. split; [|lia].
    unfold vinv. split; [|split; [constructor|split; [intros c []|split; [intros c []|split; [intros c []|split; [intros c []|]]]]]].
    + rewrite Ev, V1. cbn [rs_vert]. pose proof (vmarks_init S0) as M. unfold nVerts in M. rewrite shadow_np in M. exact M.
    + rewrite Em. split; [exact K1|]. split; [unfold F1; simpl; lia|].
      intros c Hc _ a e Ha He. apply Z. intros ps. apply (strip_B I RI); auto.
Qed.

Lemma rMapper_ok sc : (forall c, fst c < np -> sup sc c = true) ->
  exists m, rMapper sc I = Ok m /\
    cfreeSize m + sumN (map (slen I) (iface_sides t)) + sumN (map (dec sc) (all_corners np)) = sumN sizes.
Proof.
  intros Hs. destruct before_vertices as (s1 & s2 & E1 & E2 & Hv). destruct (Hv sc) as [Hv0 Hle].
  destruct (vertex_loop sc F1 (all_corners np) s2) as (s3 & L & E3 & H1 & H2 & H3 & H4 & H5 & H6 & H7 & H8 & H9).
  - intros c. apply in_all_corners.
  - intros c Hc. apply Hs, in_all_corners, Hc.
  - exact Hv0.
  - exists (rs_map s3). split.
    + unfold rMapper. change (map rsize (ribases I)) with sizes. rewrite E1. cbn [bind]. rewrite E2. cbn [bind]. rewrite E3. reflexivity.
    + assert (sumN (map (dec sc) L) = sumN (map (dec sc) (all_corners np))) as <-.
      { apply sumN_perm, Permutation_map, NoDup_Permutation; [exact H2|apply all_corners_nodup|].
        intros x. rewrite in_all_corners. split; [apply H4|]. intros Hx. apply H3, in_all_corners, Hx. }
      unfold F1 in H8. lia.
Qed.

Lemma rMapper_unsupported sc c : fst c < np -> sup sc c = false -> rMapper sc I = Err.
Proof.
  intros Hc Hs. destruct before_vertices as (s1 & s2 & E1 & E2 & Hv). destruct (Hv sc) as [Hv0 _].
  unfold rMapper. change (map rsize (ribases I)) with sizes. rewrite E1. cbn [bind]. rewrite E2. cbn [bind].
  assert (exists pre a post, all_corners np = pre ++ a :: post /\ sup sc a = false /\ forall x, In x pre -> sup sc x = true) as
    (pre & a & post & E & Ha & Hpre).
  { assert (In c (all_corners np)) as Hin by (apply in_all_corners; exact Hc). revert Hin. generalize (all_corners np). clear - Hs.
    induction l as [|b l IH]; [intros []|]. intros Hin. destruct (sup sc b) eqn:Eb.
    - destruct Hin as [->|Hin]; [congruence|]. destruct (IH Hin) as (pre & a & post & -> & Ha & Hpre).
      exists (b :: pre), a, post. split; [reflexivity|]. split; auto. intros x [<-|Hx]; auto.
    - exists [], b, l. split; [reflexivity|]. split; [exact Eb|]. simpl. tauto. }
  assert (forall x, In x (all_corners np) -> fst x < np) as Hval by (intros x; apply in_all_corners).
  rewrite E, foldM_app. rewrite E in Hval.
  destruct (vertex_loop sc F1 pre s2) as (s3 & L & E3 & H1 & H2 & H3 & H4 & H5 & H6 & H7 & H8 & H9); auto.
  { intros x Hx. apply Hval, in_app_iff; auto. }
  rewrite E3. cbn [bind foldM]. assert (fst a < np) as Hp by (apply Hval, in_elt).
  assert (~ In a L) as Hn by (intros G; apply H6 in G; congruence).
  unfold rVertex at 1. rewrite (marks_false S0 _ _ _ _ _ H1 (np0 _ Hp) Hn). cbn [bind].
  rewrite (rc0_vget I RI a Hp). cbn [bind]. rewrite (rvertexData I RI a Hp). cbn [bind fst snd].
  rewrite rule_unsupported by auto. reflexivity.
Qed.

(* ------------------------------------------------------------------ *)
(** * the predicted size *)
Notation Zn := Z.of_nat.
Definition rlen (ps : pside) : nat := length (roff (rbas I (fst ps)) (snd ps) 0).

Lemma slen_len ps : fst ps < np -> slen I ps + 4 = rlen ps.
Proof. intros H. apply rstrip_length, (rbas_like I RI); auto. Qed.

Lemma fold_u64z {A} (F : Z -> A -> Z) (g : A -> Z) l z :
  (forall a z, In a l -> F (u64 z) a = u64 (z + g a)) ->
  fold_left F l (u64 z) = u64 (z + sumZ (map g l)).
Proof.
  revert z. induction l as [|a l IH]; intros z H; cbn [fold_left map sumZ]; [f_equal; lia|].
  rewrite H by (left; auto). rewrite IH by (intros; apply H; right; auto). f_equal. lia.
Qed.

Lemma rfoldM_u64 {A} (F : Z -> A -> res Z) (g : A -> nat) l z :
  (forall a z, In a l -> F (u64 z) a = Ok (u64 (z + Zn (g a)))) ->
  foldM F l (u64 z) = Ok (u64 (z + Zn (sumN (map g l)))).
Proof.
  revert z. induction l as [|a l IH]; intros z H; cbn [foldM map sumN]; [do 2 f_equal; lia|].
  rewrite H by (left; auto). cbn [bind]. rewrite IH by (intros; apply H; right; auto). do 2 f_equal. lia.
Qed.

Lemma seq_bases {A} (g : rbasis -> A) : map g (ribases I) = map (fun p => g (rbas I p)) (seq 0 np).
Proof.
  unfold rbas. generalize (mkRB 0 (fun _ _ => []) (fun _ => 0) (fun _ _ _ _ => 0)). intros d. clear.
  assert (forall a, map g (ribases I) = map (fun p => g (nth (p - a) (ribases I) d)) (seq a np)) as G.
  { induction (ribases I) as [|b r IH]; intros a; [reflexivity|]. cbn [map length seq]. rewrite Nat.sub_diag. cbn [nth].
    f_equal. rewrite (IH (S a)). apply map_ext_in. intros p Hp. apply in_seq in Hp.
    replace (p - a) with (S (p - S a)) by lia. reflexivity. }
  rewrite (G 0). apply map_ext. intros p. rewrite Nat.sub_0_r. reflexivity.
Qed.

Lemma rcount_interior_ok :
  rcount_interior I = u64 (Zn (sumN sizes) + 16 * Zn np - 2 * Zn (sumN (map rlen (all_sides np)))).
Proof.
  unfold rcount_interior. change 0%Z with (u64 0) at 1.
  set (w := fun b : rbasis => length (roff b West 0) + length (roff b East 0) + length (roff b South 0) + length (roff b North 0)).
  rewrite (fold_u64z _ (fun b => Zn (rsize b) + 16 - 2 * Zn (w b))%Z).
  - f_equal. rewrite Z.add_0_l.
    assert (sumN (map rlen (all_sides np)) = sumN (map w (ribases I))) as ->.
    { rewrite seq_bases. unfold all_sides. rewrite sumN_flat_map. apply sumN_map_ext. intros p _.
      cbn [map sumN]. unfold rlen, w. simpl. lia. }
    unfold RingProofs2.sizes. clear. induction (ribases I) as [|b r IH]; [reflexivity|]. cbn [map sumN sumZ length].
    rewrite IH. lia.
  - intros b z Hb. cbn [fold_left]. pose proof (ri_bases I RI b Hb) as Lb. unfold zlen.
    rewrite <- !(rl_rows b Lb). fold (w b).
    repeat (rewrite ?u64_sub_l, ?u64_sub_l2, ?u64_u64_l; try rewrite <- !Z.sub_add_distr).
    f_equal. unfold w. lia.
Qed.

Lemma rcount_interfaces_ok : rcount_interfaces I = Ok (u64 (Zn (sumN (map (slen I) (iface_sides t))))).
Proof.
  unfold rcount_interfaces. change 0%Z with (u64 0) at 1.
  rewrite (rfoldM_u64 _ (fun f => slen I (if1 f) + slen I (if2 f))).
  - do 2 f_equal. unfold iface_sides. rewrite sumN_flat_map. simpl. f_equal. apply sumN_map_ext. intros; lia.
  - intros f z Hf. destruct (iface_ends_np S0 W0 f Hf) as [P1 P2]. rewrite shadow_np in P1, P2.
    rewrite !(rbas_get I RI) by assumption. cbn [bind]. unfold zlen. fold (rlen (if1 f)) (rlen (if2 f)).
    rewrite !u64_u64_l, ?u64_add2. do 2 f_equal.
    pose proof (slen_len (if1 f) P1). pose proof (slen_len (if2 f) P2). lia.
Qed.

Lemma rcount_boundaries_ok : rcount_boundaries I = Ok (u64 (Zn (sumN (map (fun ps => 2 * slen I ps) (tbd t))))).
Proof.
  unfold rcount_boundaries. change 0%Z with (u64 0) at 1.
  rewrite (rfoldM_u64 _ (fun ps => 2 * slen I ps)); [reflexivity|].
  intros f z Hf.
  assert (fst f < np) as P1 by (rewrite <- Hnp; apply (sides_valid t Hcons); right; exact Hf).
  rewrite !(rbas_get I RI) by assumption. cbn [bind]. unfold zlen. rewrite <- (rl_rows _ (rbas_like I RI _ P1)). fold (rlen f).
  rewrite !u64_u64_l, ?u64_add2. do 2 f_equal.
  pose proof (slen_len f P1). lia.
Qed.

Lemma rclass_count sc pc : fst pc < np -> sup sc pc = true ->
  (rcount_class sc (valence pc) (inner pc) (rc0 pc) + Zn (sumN (map (dec sc) (cls pc))) = 4 * Zn (valence pc))%Z.
Proof.
  intros H Hs. pose proof (valence_pos pc H) as V1.
  assert (validc t pc) as Hv by (apply rvalidc; exact H).
  assert (single sc pc = false -> sumN (map (dec sc) (cls pc)) = tot sc pc) as S1.
  { intros E. pose proof (sum_touched sc pc H) as G. unfold touched in G. rewrite E in G. exact G. }
  assert (single sc pc = true -> forall k, (forall c, In c (cls pc) -> tot sc c = k) -> sumN (map (dec sc) (cls pc)) = k * valence pc) as S2.
  { intros E k Hk. rewrite (sumN_map_ext _ (fun _ => k)); [apply sumN_map_const|]. intros c Hc. unfold dec.
    rewrite (single_cls sc pc c H Hc), E. auto. }
  assert (forall c, In c (cls pc) -> inner c = inner pc /\ valence c = valence pc /\ rc0 c = rc0 pc) as G.
  { intros c Hc. rewrite (inner_cls t Hcons pc c), (valence_cls t Hcons pc c), (rc0_cls I RI pc c); auto. }
  unfold rcount_class. destruct sc; unfold single, tot, sup in *.
  - destruct (inner pc) eqn:Hi; cbn [negb andb orb] in *.
    + rewrite (S2 eq_refl 3); [lia|]. intros c Hc. destruct (G c Hc) as (-> & _). reflexivity.
    + destruct (valence pc =? 1) eqn:E1.
      * rewrite (S2 ltac:(lia) 0); [lia|]. intros c Hc. destruct (G c Hc) as (-> & -> & _). rewrite E1. reflexivity.
      * destruct (valence pc =? 2) eqn:E2.
        -- assert (2 <? valence pc = false) as E by lia. rewrite E. destruct (rc0 pc) eqn:C; cbn [andb negb].
           ++ rewrite (S2 ltac:(lia) 1); [lia|]. intros c Hc. destruct (G c Hc) as (-> & -> & ->). rewrite E1, E2. reflexivity.
           ++ rewrite (S2 ltac:(lia) 2); [lia|]. intros c Hc. destruct (G c Hc) as (-> & -> & ->). rewrite E1, E2. reflexivity.
        -- assert (2 <? valence pc = true) as E by lia. rewrite E. rewrite S1 by lia.
           destruct (rc0 pc); cbn [andb negb]; lia.
  - destruct (inner pc) eqn:Hi; cbn [negb andb orb] in *.
    + destruct (valence pc =? 4) eqn:E4.
      * rewrite (S2 eq_refl 3); [lia|]. intros c Hc. destruct (G c Hc) as (-> & -> & _). rewrite E4. reflexivity.
      * rewrite (S1 eq_refl). lia.
    + destruct (valence pc =? 1) eqn:E1.
      * rewrite (S2 eq_refl 0); [lia|]. intros c Hc. destruct (G c Hc) as (-> & -> & _). rewrite E1. reflexivity.
      * pose proof (boundary_idarts t Hcons pc Hv Hi) as ID. rewrite idarts_sum in ID.
        destruct (valence pc =? 2) eqn:E2; cbn [andb orb] in *.
        -- assert (2 <? valence pc = false) as E by lia. rewrite E. destruct (rc0 pc) eqn:C; cbn [andb negb] in *.
           ++ rewrite (S1 eq_refl). lia.
           ++ rewrite (S2 eq_refl 2); [lia|]. intros c Hc. destruct (G c Hc) as (-> & -> & ->). rewrite E1, E2. reflexivity.
        -- assert (2 <? valence pc = true) as E by lia. rewrite E. destruct (rc0 pc) eqn:C; cbn [andb negb] in *.
           ++ rewrite (sumN_map_ext _ (fun c => b2n (ifl c 0) + b2n (ifl c 1))).
              ** rewrite ID. lia.
              ** intros c Hc. unfold dec, single, tot. destruct (G c Hc) as (-> & -> & ->). rewrite E1, E2. reflexivity.
           ++ rewrite (S1 eq_refl). lia.
Qed.

Lemma rcount_vertices_ok sc : (forall c, fst c < np -> sup sc c = true) ->
  rcount_vertices sc I = Ok (u64 (16 * Zn np - Zn (sumN (map (dec sc) (all_corners np))))).
Proof.
  intros Hs. unfold rcount_vertices.
  match goal with |- bind (foldM ?f ?l ?s) _ = _ =>
    destruct (foldM_inv (fun pre (st : list bool * Z) => exists L,
      vmarks (fst st) (fun c => In c L) /\
      snd st = u64 (4 * Zn (length L) - Zn (sumN (map (dec sc) L))) /\ NoDup L /\ incl pre L /\
      (forall c, In c L -> fst c < np) /\ (forall c, In c L -> incl (cls c) L)) f l s) as (s' & E & L & H1 & H2 & H3 & H4 & H5 & H6) end.
  - exists []. simpl. split. { pose proof (vmarks_init S0) as M. unfold nVerts in M. rewrite shadow_np in M. exact M. }
    split; [reflexivity|]. split; [constructor|].
    split; [intros c []|]. split; intros c [].
  - intros pre pc post [passed tmp] E (L & H1 & H2 & H3 & H4 & H5 & H6). simpl fst in *; simpl snd in *.
    assert (fst pc < np) as Hp by (apply in_all_corners; rewrite E; apply in_elt).
    destruct (proj2 H1 pc (np0 _ Hp)) as (b & Eb & Hb). rewrite Eb. cbn [bind].
    destruct b.
    + eexists. split; [reflexivity|]. exists L. simpl. repeat (split; [solve [auto]|]).
      split; [|split; auto]. intros x Hx. apply in_app_iff in Hx. destruct Hx as [Hx|[<-|[]]]; [auto|]. apply Hb; auto.
    + assert (~ In pc L) as Hn by (intros G; apply Hb in G; discriminate).
      assert (validc t pc) as Hv by (apply rvalidc; auto).
      rewrite (cornerList_cls t Hcons pc Hv). cbn [bind].
      assert (forall c, In c (cls pc) -> fst c < np) as Hcv by (intros c; apply (rcls_valid I RI); auto).
      destruct (passed_loop S0 (cls pc) passed _ H1) as (p' & E' & H'); [intros; apply np0; auto|]. rewrite E'. cbn [bind].
      rewrite (rvertexData I RI pc Hp). cbn [bind]. rewrite (rc0_vget I RI pc Hp). cbn [bind fst snd].
      eexists. split; [reflexivity|]. exists (L ++ cls pc). cbn [fst snd].
      split; [|split; [|split; [|split; [|split]]]].
      * revert H'. apply marks_ext. intros a _. rewrite in_app_iff. tauto.
      * rewrite H2, u64_u64_l. f_equal. rewrite map_app, sumN_app, app_length.
        pose proof (rclass_count sc pc Hp (Hs pc Hp)) as G. unfold TopoProofs.valence in *. unfold pcorner in *. lia.
      * apply NoDup_app_iff. split; [exact H3|]. split; [apply (cls_nodup t Hcons); exact Hv|].
        intros x Hx Hx'. apply Hn. apply (H6 x Hx).
        apply (in_cls_sym t Hcons); auto.
      * intros x Hx. apply in_app_iff. apply in_app_iff in Hx. destruct Hx as [Hx|[<-|[]]]; [left; auto|].
        right. apply (cls_self t Hcons); auto.
      * intros c Hc. apply in_app_iff in Hc. destruct Hc; auto.
      * intros c Hc x Hx. apply in_app_iff. apply in_app_iff in Hc. destruct Hc as [Hc|Hc]; [left; eapply H6; eauto|].
        right. eapply Permutation_in; [symmetry; apply (cls_perm t Hcons pc c); eauto|exact Hx].
  - rewrite E. cbn [bind]. f_equal. rewrite H2. f_equal.
    assert (Permutation L (all_corners np)) as P.
    { apply NoDup_Permutation; [exact H3|apply all_corners_nodup|].
      intros x. rewrite in_all_corners. split; [apply H5|]. intros Hx. apply H4, in_all_corners. exact Hx. }
    rewrite (sumN_perm _ _ (Permutation_map (dec sc) P)), (Permutation_length P).
    assert (length (all_corners np) = 4 * np) as ->; [|lia].
    apply all_corners_length.
Qed.

Lemma rcountDoFs_ok sc m : (forall c, fst c < np -> sup sc c = true) ->
  cfreeSize m + sumN (map (slen I) (iface_sides t)) + sumN (map (dec sc) (all_corners np)) = sumN sizes ->
  rcountDoFs sc I = Ok (Zn (cfreeSize m)).
Proof.
  intros Hs Hm. unfold rcountDoFs. rewrite rcount_interior_ok, rcount_interfaces_ok. cbn [bind].
  rewrite rcount_boundaries_ok. cbn [bind]. rewrite rcount_vertices_ok by exact Hs. cbn [bind]. f_equal.
  repeat (rewrite ?u64_u64_r, ?u64_u64_l, ?u64_add2).
  assert (Permutation (all_sides np) (iface_sides t ++ tbd t)) as P.
  { rewrite <- Hnp. symmetry. apply Hcons. }
  assert (sumN (map rlen (all_sides np)) = sumN (map (slen I) (iface_sides t)) + 4 * length (iface_sides t) +
     sumN (map (slen I) (tbd t)) + 4 * length (tbd t)) as E.
  { rewrite (sumN_perm _ _ (Permutation_map rlen P)), map_app, sumN_app.
    assert (forall l : list pside, (forall ps : pside, In ps l -> fst ps < np) -> sumN (map rlen l) = sumN (map (slen I) l) + 4 * length l) as Q.
    { intros l Hl. rewrite <- (sumN_map_const 4 l), <- sumN_map_add. apply sumN_map_ext. intros ps Hps. symmetry. apply slen_len; auto. }
    rewrite !Q; [lia| |]; intros ps Hps; rewrite <- Hnp; apply (sides_valid t Hcons); auto. }
  assert (length (iface_sides t) + length (tbd t) = 4 * np) as N.
  { rewrite <- app_length, <- (Permutation_length P). apply all_sides_length. }
  assert (sumN (map (fun ps => 2 * slen I ps) (tbd t)) = 2 * sumN (map (slen I) (tbd t))) as M2.
  { clear. induction (tbd t) as [|a l IH]; cbn [map sumN]; lia. }
  pose proof (ri_fits I RI) as W. fold sizes in W. change (map rsize (ribases I)) with sizes in W.
  rewrite u64_small; lia.
Qed.

(** ** statements *)
Lemma supported_sup sc : supported sc t <-> forall c, fst c < np -> sup sc c = true.
Proof.
  unfold supported, sup. split.
  - intros H c Hc. assert (validc t c) as Hv by (apply rvalidc; exact Hc).
    specialize (H c (valence c) Hv (proj2 (has_valence_iff t Hcons c _ Hv) eq_refl)).
    pose proof (interior_vertex_iff t Hcons c Hv) as Q.
    destruct sc, (inner c); cbn [orb negb]; auto.
    + destruct H as [H|H]; [apply Q in H; discriminate|]. apply Nat.leb_le. exact H.
    + apply Nat.leb_le. apply H, Q. reflexivity.
  - intros H a v Ha Hval. assert (validc t a) as Hv by exact Ha. apply (has_valence_iff t Hcons a v Hv) in Hval. subst v.
    pose proof (interior_vertex_iff t Hcons a Hv) as Q. specialize (H a (proj1 (rvalidc a) Hv)).
    destruct sc, (inner a); cbn [orb negb] in *.
    + left. apply Q. reflexivity.
    + right. apply Nat.leb_le. exact H.
    + intros _. apply Nat.leb_le. exact H.
    + intros G. apply Q in G. discriminate.
Qed.

Lemma ring_count sc : supported sc t ->
  exists m, rMapper sc I = Ok m /\ rcountDoFs sc I = Ok (Zn (cfreeSize m)).
Proof.
  intros Hs0. pose proof (proj1 (supported_sup sc) Hs0) as Hs. destruct (rMapper_ok sc Hs) as (m & E & F). exists m. split; [exact E|].
  apply rcountDoFs_ok; auto.
Qed.

Lemma ring_unsupported sc : ~ supported sc t -> rMapper sc I = Err.
Proof.
  intros Hs. destruct (forallb (sup sc) (all_corners np)) eqn:E.
  - exfalso. apply Hs, (proj2 (supported_sup sc)). intros c Hc. rewrite forallb_forall in E. apply E, in_all_corners, Hc.
  - assert (exists c, In c (all_corners np) /\ sup sc c = false) as (c & Hc & Hf).
    { clear - E. induction (all_corners np) as [|a l IH]; [discriminate|]. simpl in E. destruct (sup sc a) eqn:Ea.
      - destruct (IH E) as (c & Hc & Hf). exists c. simpl; auto.
      - exists a. simpl; auto. }
    apply (rMapper_unsupported sc c); auto. apply in_all_corners, Hc.
Qed.
End R.
