(** The values of the mapper of gsAlmostC1. *)
From Verif Require Import Common TopoModel BaseModel BaseModel2 BaseSpec2 IndexSpec TopoSpec SmoothSpec SmoothSpec2 RingModel RingSpec DpModel
  IndexProofs IndexTopoProofs ListLemmas TopoProofs PointProofs MapperProofs CountProofs MatrixProofs BaseProofs2 RingProofs RingProofs2 RingProofs3
  DpProofs.
From Coq Require Import ZifyBool.

Definition low (n : nat) (l : list dof) (x : dof) : bool := existsb (dof_eqb x) (getLowestIndices l n).

Lemma low_in n l x : low n l x = true <-> In x (getLowestIndices l n).
Proof.
  unfold low. rewrite existsb_exists. split.
  - intros (y & Hy & E). apply dof_eqb_iff in E. congruence.
  - intros H. exists x. split; auto. apply dof_eqb_same.
Qed.
Lemma sort_same (l l' : list dof) : NoDup l -> Permutation l l' -> sort dof_less l = sort dof_less l'.
Proof.
  intros N P. apply any_sort.
  - apply (Permutation_NoDup P N).
  - rewrite sort_perm. exact P.
  - apply incr_increasing, sort_incr; auto; try apply dof_less_iff; try apply lower_trans. intros a b _ _. apply lower_total.
Qed.
Lemma low_perm n l l' x : NoDup l -> Permutation l l' -> low n l x = low n l' x.
Proof. intros N P. unfold low, getLowestIndices. rewrite (sort_same l l' N P). reflexivity. Qed.
Lemma removed l n : NoDup l -> n <= length l ->
  exists r, removeLowestIndices l n = Ok r /\ forall x, In x r <-> In x l /\ low n l x = false.
Proof.
  intros N H. destruct (lowest_split l n N H) as (r & E & L & P & _). exists r. split; [exact E|]. intros x.
  pose proof (Permutation_NoDup (Permutation_sym P) N) as N2. apply NoDup_app_iff in N2. destruct N2 as (_ & _ & D).
  assert (low n l x = false <-> ~ In x (getLowestIndices l n)) as -> by (rewrite <- low_in; destruct (low n l x); intuition congruence).
  split.
  - intros Hx. split; [apply (Permutation_in _ P), in_app_iff; auto|]. intros G. apply (D x G Hx).
  - intros [Hx G]. apply (Permutation_in _ (Permutation_sym P)), in_app_iff in Hx. tauto.
Qed.
Lemma lowest_incl l n x : NoDup l -> n <= length l -> In x (getLowestIndices l n) -> In x l.
Proof.
  intros N H Hx. destruct (lowest_split l n N H) as (r & E & L & P & _). apply (Permutation_in _ P), in_app_iff. auto.
Qed.

Section V.
Variable I : rinput.
Hypothesis RI : ring_input I.
Notation t := (ritopo I).
Notation np := (length (ribases I)).
Notation S0 := (shadow I).
Let W0 := shadow_wf I RI.
Let Hcons : consistent t := ri_topo I RI.
Let Hnp : tnp t = np := ri_np I RI.
Notation cls := (cls t).
Notation valence := (valence t).
Notation inner := (inner t).
Notation ifl := (ifl t).
Notation rc0 := (rc0 I).
Notation sizes := (sizes I).
Notation D := (dofs_from 0 sizes).
Notation cok := (cok sizes).
Notation B := (B I).
Notation i0 := (i0 I).
Notation i1 := (i1 I).
Notation zeros := (zeros I).
Notation isB := (isB I).
Notation vmarks := (marks S0 vertIndex (@fst nat corner)).
Notation smarks := (marks S0 sideIndex (@fst nat side)).
Notation touched := (touched I SchemeAlmostC1).
Notation single := (single I SchemeAlmostC1).
Notation sup := (sup I SchemeAlmostC1).
Let rvalidc := rvalidc I RI.
Let np0 := np0 I.

(** smooth boundary vertices of valence > 2, smooth and sharp ones of valence 2 *)
Definition half0 (c : pcorner) : bool := negb (inner c) && (2 <? valence c) && negb (rc0 c).
Definition flat2 (c : pcorner) : bool := negb (inner c) && (valence c =? 2) && negb (rc0 c).
Definition sharp2 (c : pcorner) : bool := negb (inner c) && (valence c =? 2) && rc0 c.

(** functions near a corner whose columns are averages of others *)
Definition avg (c : pcorner) (a e : nat) : bool :=
  if (a =? 0) && (e =? 0) then inner c || half0 c || flat2 c
  else (a =? 0) && ifl c 0 || (e =? 0) && ifl c 1.

(** ... and those of them that keep a row *)
Definition kept (c : pcorner) (a e : nat) : bool :=
  if (a =? 0) && (e =? 0) then (inner c && negb (valence c =? 4) || half0 c) && low 3 (map i0 (cls c)) (B c 0 0)
  else sharp2 c && low 1 (flat_map i1 (cls c)) (B c a e).

Definition aelb (c : pcorner) (a e : nat) : bool := avg c a e && negb (kept c a e).

Definition avalued (m : cmap) (c : pcorner) : Prop := forall a e, a < 2 -> e < 2 ->
  if aelb c a e then (cmval m (B c a e) < 0)%Z else cmval m (B c a e) = 0%Z.

Definition aeffect (m m' : cmap) (T : list pcorner) : Prop :=
  cok m' /\ (forall c, In c T -> avalued m' c) /\ (forall x, ~ isB T x -> cmval m' x = cmval m x).

Lemma celim_val T l m : (forall c, In c T -> fst c < np) -> cok m -> (forall c, In c T -> zeros m c) ->
  (forall x, In x l <-> exists c a e, In c T /\ a < 2 /\ e < 2 /\ aelb c a e = true /\ x = B c a e) ->
  exists m', celimAll l m = Ok m' /\ aeffect m m' T.
Proof.
  intros HT Hok Hz Hl.
  destruct (celimAll_ok sizes l (nodup dof_dec l) m Hok) as (m' & E & Hok' & F & N & U).
  - intros x Hx. apply Hl in Hx. destruct Hx as (c & a & e & Hc & Ha & He & _ & ->). apply (B_in I RI); auto.
  - intros x Hx. apply Hl in Hx. destruct Hx as (c & a & e & Hc & Ha & He & _ & ->). rewrite (Hz c Hc) by auto. lia.
  - apply NoDup_nodup.
  - intros x. rewrite nodup_In. split; [|tauto]. intros Hx. split; auto.
    apply Hl in Hx. destruct Hx as (c & a & e & Hc & Ha & He & _ & ->). apply (Hz c Hc); auto.
  - exists m'. split; [exact E|]. split; [exact Hok'|]. split.
    + intros c Hc a e Ha He. destruct (aelb c a e) eqn:Eb.
      * apply N, Hl. exists c, a, e. auto.
      * rewrite U; [apply (Hz c Hc); auto|]. intros G. apply Hl in G. destruct G as (c' & a' & e' & Hc' & Ha' & He' & Eb' & EB).
        apply (B_inj I RI) in EB; auto. destruct EB as (-> & -> & ->). congruence.
    + intros x Hx. apply U. intros G. apply Hl in G. destruct G as (c & a & e & Hc & Ha & He & _ & ->).
      apply Hx. exists c, a, e. auto.
Qed.

Lemma half0_cls pc c : fst pc < np -> In c (cls pc) -> half0 c = half0 pc /\ flat2 c = flat2 pc /\ sharp2 c = sharp2 pc.
Proof.
  intros H Hc. unfold half0, flat2, sharp2.
  rewrite (inner_cls t Hcons pc c), (valence_cls t Hcons pc c), (rc0_cls I RI pc c) by (auto; apply rvalidc; auto). auto.
Qed.
Lemma i0_perm pc c : fst pc < np -> In c (cls pc) -> Permutation (map i0 (cls c)) (map i0 (cls pc)).
Proof. intros H Hc. apply Permutation_map. symmetry. apply (cls_perm t Hcons); auto. apply rvalidc; auto. Qed.
Lemma i1_perm pc c : fst pc < np -> In c (cls pc) -> Permutation (flat_map i1 (cls c)) (flat_map i1 (cls pc)).
Proof. intros H Hc. apply Permutation_flat_map. symmetry. apply (cls_perm t Hcons); auto. apply rvalidc; auto. Qed.
Lemma low0_cls pc c n x : fst pc < np -> In c (cls pc) -> low n (map i0 (cls c)) x = low n (map i0 (cls pc)) x.
Proof. intros H Hc. apply low_perm; [apply (i0_nodup I RI), (rcls_valid I RI pc); auto|apply i0_perm; auto]. Qed.
Lemma low1_cls pc c n x : fst pc < np -> In c (cls pc) -> low n (flat_map i1 (cls c)) x = low n (flat_map i1 (cls pc)) x.
Proof. intros H Hc. apply low_perm; [apply (i1_nodup I RI), (rcls_valid I RI pc); auto|apply i1_perm; auto]. Qed.

Lemma ifl_inner pc d : fst pc < np -> inner pc = true -> ifl pc d = true.
Proof. intros H Hi. apply (inner_iface t Hcons); auto. apply rvalidc; auto. Qed.

Lemma two_cases n : n < 2 -> n = 0 \/ n = 1. Proof. lia. Qed.

Ltac cases_ae a e Ha He := destruct (two_cases a Ha) as [-> | ->]; destruct (two_cases e He) as [-> | ->].

Lemma in_i1_iff (c : pcorner) x : In x (i1 c) <-> exists a e, a < 2 /\ e < 2 /\ x = B c a e /\ (a =? 0) && (e =? 0) = false /\ (a =? 0) && ifl c 0 || (e =? 0) && ifl c 1 = true.
Proof.
  unfold RingProofs2.i1. rewrite in_app_iff. split.
  - intros [G|G].
    + destruct (ifl c 0) eqn:E; [|contradiction]. destruct G as [<-|[]]. exists 0, 1. auto 6.
    + destruct (ifl c 1) eqn:E; [|contradiction]. destruct G as [<-|[]]. exists 1, 0. rewrite ?andb_true_r, ?orb_true_r. auto 6.
  - intros (a & e & Ha & He & -> & H1 & H2). cases_ae a e Ha He; try discriminate; simpl in H2.
    + rewrite orb_false_r in H2. rewrite H2. left; left; auto.
    + rewrite H2. right; left; auto.
Qed.
Lemma in_i1s pc x : In x (flat_map i1 (cls pc)) <-> exists c a e, In c (cls pc) /\ a < 2 /\ e < 2 /\ x = B c a e /\ (a =? 0) && (e =? 0) = false /\ (a =? 0) && ifl c 0 || (e =? 0) && ifl c 1 = true.
Proof.
  rewrite in_flat_map. split.
  - intros (c & Hc & G). apply in_i1_iff in G. destruct G as (a & e & G). exists c, a, e. tauto.
  - intros (c & a & e & Hc & G). exists c. split; auto. apply in_i1_iff. exists a, e. exact G.
Qed.

(** ** rules for single corners *)
Lemma single_val pc l m : fst pc < np -> cok m -> zeros m pc ->
  (forall x, In x l <-> exists a e, a < 2 /\ e < 2 /\ aelb pc a e = true /\ x = B pc a e) ->
  exists m', celimAll l m = Ok m' /\ aeffect m m' [pc].
Proof.
  intros Hp Hok Hz Hl. apply celim_val; auto.
  - intros c [<-|[]]. exact Hp.
  - intros c [<-|[]]. exact Hz.
  - intros x. rewrite Hl. split.
    + intros (a & e & G). exists pc, a, e. simpl. tauto.
    + intros (c & a & e & [<-|[]] & G). exists a, e. tauto.
Qed.

Lemma smooth_val pc m : fst pc < np -> cok m -> zeros m pc -> flat2 pc = true \/ (inner pc = true /\ valence pc = 4) ->
  exists m', rRegularSmooth I pc m = Ok m' /\ aeffect m m' [pc].
Proof.
  intros Hp Hok Hz Hc. unfold rRegularSmooth. rewrite (along_ok I RI) by (auto; simpl; lia). cbn [bind]. rewrite !rIface_ifl.
  apply single_val; auto.
  assert (forall a e, kept pc a e = false) as K.
  { intros a e. unfold kept, half0, sharp2. destruct Hc as [Hc|[Hi Hv]].
    - unfold flat2 in Hc. destruct (inner pc); [discriminate|]. destruct (rc0 pc); [rewrite andb_false_r in Hc; discriminate|].
      assert (2 <? valence pc = false) as -> by lia. rewrite !andb_false_r. destruct ((a =? 0) && (e =? 0)); reflexivity.
    - rewrite Hi, Hv. destruct ((a =? 0) && (e =? 0)); reflexivity. }
  assert (avg pc 0 0 = true) as A0.
  { unfold avg. simpl. destruct Hc as [->|[-> _]]; [rewrite orb_true_r|]; reflexivity. }
  assert (ifl pc 0 = true \/ ifl pc 1 = true) as Hif.
  { apply (val2_iface t Hcons); [apply rvalidc; auto|]. destruct Hc as [Hc|[_ Hv]]; [unfold flat2 in Hc|]; lia. }
  intros x. split.
  - intros G. apply in_app_iff in G.
    assert (forall a e, a < 2 -> e < 2 -> avg pc a e = true -> exists a' e', a' < 2 /\ e' < 2 /\ aelb pc a' e' = true /\ B pc a e = B pc a' e') as Q.
    { intros a e Ha He Ea. exists a, e. unfold aelb. rewrite Ea, K. auto. }
    destruct G as [G|G].
    + destruct (ifl pc 0) eqn:E; [|contradiction]. destruct G as [<-|[<-|[]]]; apply Q; auto; unfold avg; rewrite E; reflexivity.
    + destruct (ifl pc 1) eqn:E; [|contradiction]. destruct G as [<-|[<-|[]]]; apply Q; auto; unfold avg; rewrite E; reflexivity.
  - intros (a & e & Ha & He & Eb & ->). unfold aelb in Eb. rewrite K, andb_true_r in Eb. apply in_app_iff. cases_ae a e Ha He.
    + destruct Hif as [-> | ->]; [left|right]; simpl; auto.
    + unfold avg in Eb. simpl in Eb. rewrite orb_false_r in Eb. rewrite Eb. left. simpl; auto.
    + unfold avg in Eb. simpl in Eb. rewrite Eb. right. simpl; auto.
    + discriminate.
Qed.

Lemma sharp_val pc m : fst pc < np -> cok m -> zeros m pc -> inner pc = false -> 2 < valence pc -> rc0 pc = true ->
  exists m', rNonSmooth I pc m = Ok m' /\ aeffect m m' [pc].
Proof.
  intros Hp Hok Hz Hi Hv Hc. unfold rNonSmooth. rewrite (along_ok I RI) by (auto; simpl; lia). cbn [bind]. rewrite !rIface_ifl.
  apply single_val; auto.
  assert (forall a e, aelb pc a e = if (a =? 0) && (e =? 0) then false else (a =? 0) && ifl pc 0 || (e =? 0) && ifl pc 1) as K.
  { intros a e. unfold aelb, avg, kept, half0, flat2, sharp2. rewrite Hi, Hc. assert (valence pc =? 2 = false) as -> by lia.
    rewrite !andb_false_r. destruct ((a =? 0) && (e =? 0)); cbn [orb andb negb]; [reflexivity|]. apply andb_true_r. }
  intros x. split.
  - intros G. apply in_app_iff in G. destruct G as [G|G].
    + destruct (ifl pc 0) eqn:E; [|contradiction]. destruct G as [<-|[]]. exists 0, 1. rewrite K. auto.
    + destruct (ifl pc 1) eqn:E; [|contradiction]. destruct G as [<-|[]]. exists 1, 0. rewrite K, ?orb_true_r. auto.
  - intros (a & e & Ha & He & Eb & ->). rewrite K in Eb. apply in_app_iff. cases_ae a e Ha He; try discriminate; simpl in Eb.
    + rewrite orb_false_r in Eb. rewrite Eb. left; left; auto.
    + rewrite Eb. right; left; auto.
Qed.

Lemma corner_val pc m : fst pc < np -> cok m -> zeros m pc -> inner pc = false -> valence pc = 1 -> aeffect m m [pc].
Proof.
  intros Hp Hok Hz Hi Hv. split; [exact Hok|]. split; [|auto]. intros c [<-|[]] a e Ha He.
  unfold aelb, avg, half0, flat2. rewrite Hi, Hv. rewrite !(val1_boundary t Hcons pc _ (proj2 (rvalidc pc) Hp)) by auto.
  rewrite !andb_false_r. simpl. destruct ((a =? 0) && (e =? 0)); apply Hz; auto.
Qed.

(** ** rules for whole vertices *)
Section Class.
Variables (pc : pcorner) (m : cmap) (vc : list bool) (P : pcorner -> Prop).
Hypotheses (H : fst pc < np) (Hok : cok m) (Hz : forall c, In c (cls pc) -> zeros m c) (Hm : vmarks vc P).
Let HT : forall c, In c (cls pc) -> fst c < np.
Proof. intros c. apply (rcls_valid I RI). exact H. Qed.

Lemma two_val l l' :
  (forall x, In x (l ++ l') <-> exists c a e, In c (cls pc) /\ a < 2 /\ e < 2 /\ aelb c a e = true /\ x = B c a e) ->
  exists m1 m2, celimAll l m = Ok m1 /\ celimAll l' m1 = Ok m2 /\ aeffect m m2 (cls pc).
Proof.
  intros Hl. destruct (celim_val (cls pc) (l ++ l') m HT Hok Hz Hl) as (m2 & E & F).
  unfold celimAll in E. rewrite foldM_app in E. fold (celimAll l m) in E.
  destruct (celimAll l m) as [m1|] eqn:E1; [|discriminate]. cbn [bind] in E. exists m1, m2. auto.
Qed.

Lemma class_char r : (inner pc && negb (valence pc =? 4) || half0 pc = true) ->
  (forall x, In x r <-> In x (map i0 (cls pc)) /\ low 3 (map i0 (cls pc)) x = false) ->
  forall x, In x r \/ In x (flat_map i1 (cls pc)) <-> exists c a e, In c (cls pc) /\ a < 2 /\ e < 2 /\ aelb c a e = true /\ x = B c a e.
Proof.
  intros Hc Hr x.
  assert (forall c, In c (cls pc) -> aelb c 0 0 = negb (low 3 (map i0 (cls pc)) (B c 0 0)) /\
     forall a e, (a =? 0) && (e =? 0) = false -> aelb c a e = (a =? 0) && ifl c 0 || (e =? 0) && ifl c 1) as K.
  { intros c Hcc. destruct (half0_cls pc c H Hcc) as (E1 & E2 & E3).
    assert (inner c && negb (valence c =? 4) || half0 c = true) as Hc'.
    { rewrite E1, (inner_cls t Hcons pc c), (valence_cls t Hcons pc c) by (auto; apply rvalidc; auto). exact Hc. }
    split.
    - unfold aelb, avg, kept. cbn [Nat.eqb andb]. rewrite Hc'. cbn [andb]. rewrite (low0_cls pc c) by auto.
      assert (inner c || half0 c = true) as ->; [|reflexivity]. destruct (inner c); auto.
    - intros a e Ez. unfold aelb, avg, kept. rewrite Ez.
      assert (sharp2 c = false) as ->; [|apply andb_true_r].
      unfold sharp2. unfold half0 in Hc'. destruct (inner c); [reflexivity|]. cbn [negb andb orb] in *.
      destruct (2 <? valence c) eqn:E; [|discriminate]. assert (valence c =? 2 = false) as -> by lia. reflexivity. }
  split.
  - intros [G|G].
    + apply Hr in G. destruct G as [G L]. apply in_map_iff in G. destruct G as (c & <- & Hcc). exists c, 0, 0.
      rewrite (proj1 (K c Hcc)). unfold RingProofs2.i0 in L at 2. rewrite L. auto 6.
    + apply in_i1s in G. destruct G as (c & a & e & Hcc & Ha & He & -> & E1 & E2). exists c, a, e. rewrite (proj2 (K c Hcc)) by auto. auto 6.
  - intros (c & a & e & Hcc & Ha & He & Eb & ->). destruct ((a =? 0) && (e =? 0)) eqn:Ez.
    + assert (a = 0) as -> by lia. assert (e = 0) as -> by lia. left. apply Hr. rewrite (proj1 (K c Hcc)) in Eb. apply negb_true_iff in Eb.
      split; auto. apply in_map_iff. exists c. auto.
    + right. apply in_i1s. exists c, a, e. rewrite (proj2 (K c Hcc)) in Eb by auto. auto 8.
Qed.

Lemma sharp2_val : sharp2 pc = true ->
  exists m' vc', acNonSmooth_v2 I pc m vc = Ok (m', vc') /\ aeffect m m' (cls pc) /\ vmarks vc' (fun c => P c \/ In c (cls pc)).
Proof.
  intros Hc. assert (inner pc = false /\ valence pc = 2 /\ rc0 pc = true) as (Hi & Hv & Hr0).
  { unfold sharp2 in Hc. destruct (inner pc); [discriminate|]. destruct (rc0 pc); [|rewrite andb_false_r in Hc; discriminate]. split; auto. split; auto. lia. }
  unfold acNonSmooth_v2. rewrite (all1_ok I RI) by exact H. cbn [bind].
  destruct (removed (flat_map i1 (cls pc)) 1) as (r & E & Hr).
  { apply (i1_nodup I RI); auto. }
  { rewrite i1_length by exact RI. rewrite (boundary_idarts t Hcons) by (auto; apply rvalidc; auto). lia. }
  rewrite E. cbn [bind].
  destruct (celim_val (cls pc) r m HT Hok Hz) as (m' & E' & F).
  - intros x. rewrite Hr, in_i1s.
    assert (forall c a e, In c (cls pc) -> aelb c a e = if (a =? 0) && (e =? 0) then false else
       ((a =? 0) && ifl c 0 || (e =? 0) && ifl c 1) && negb (low 1 (flat_map i1 (cls pc)) (B c a e))) as K.
    { intros c a e Hcc. destruct (half0_cls pc c H Hcc) as (E1 & E2 & E3).
      unfold aelb, avg, kept. rewrite E1, E2, E3, Hc, (low1_cls pc c), (inner_cls t Hcons pc c) by (auto; apply rvalidc; auto).
      unfold half0, flat2. rewrite Hi, Hv, Hr0. destruct ((a =? 0) && (e =? 0)); reflexivity. }
    split.
    + intros ((c & a & e & Hcc & Ha & He & -> & E1 & E2) & L). exists c, a, e. rewrite K, E1, E2, L by auto. auto 6.
    + intros (c & a & e & Hcc & Ha & He & Eb & ->). rewrite K in Eb by auto. destruct ((a =? 0) && (e =? 0)) eqn:Ez; [discriminate|].
      apply andb_prop in Eb. destruct Eb as [Eb1 Eb2]. apply negb_true_iff in Eb2. split; auto. exists c, a, e. auto 8.
  - rewrite E'. cbn [bind]. rewrite (cornerList_cls t Hcons pc) by (apply rvalidc; exact H). cbn [bind].
    destruct (mark_ok I RI pc vc P H Hm) as (vc' & -> & Hm'). cbn [bind]. exists m', vc'. auto.
Qed.

Lemma half_val : half0 pc = true ->
  exists m' vc', acIrregularSmooth I pc m vc = Ok (m', vc') /\ aeffect m m' (cls pc) /\ vmarks vc' (fun c => P c \/ In c (cls pc)).
Proof.
  intros Hc. unfold acIrregularSmooth. rewrite (all0_ok I RI), (all1_ok I RI) by exact H. cbn [bind].
  rewrite (cornerList_cls t Hcons pc) by (apply rvalidc; exact H). cbn [bind].
  destruct (mark_ok I RI pc vc P H Hm) as (vc' & -> & Hm'). cbn [bind].
  destruct (removed (map i0 (cls pc)) 3) as (r & E & Hr).
  { apply (i0_nodup I RI); auto. } { rewrite map_length. unfold half0, TopoProofs.valence in Hc. lia. }
  destruct (two_val (flat_map i1 (cls pc)) r) as (m1 & m2 & E1 & E2 & F).
  { intros x. rewrite in_app_iff, or_comm. apply class_char; auto. rewrite Hc. apply orb_true_r. }
  rewrite E1. cbn [bind]. rewrite E. cbn [bind]. rewrite E2. cbn [bind]. exists m2, vc'. auto.
Qed.

Lemma inner_val : inner pc = true -> valence pc <> 4 -> 3 <= valence pc ->
  exists m' vc', acInterior I pc m vc = Ok (m', vc') /\ aeffect m m' (cls pc) /\ vmarks vc' (fun c => P c \/ In c (cls pc)).
Proof.
  intros Hi Hv Hv3. unfold acInterior. rewrite (all0_ok I RI), (all1_ok I RI) by exact H. cbn [bind].
  rewrite (cornerList_cls t Hcons pc) by (apply rvalidc; exact H). cbn [bind].
  destruct (mark_ok I RI pc vc P H Hm) as (vc' & -> & Hm'). cbn [bind].
  destruct (removed (map i0 (cls pc)) 3) as (r & E & Hr).
  { apply (i0_nodup I RI); auto. } { rewrite map_length. exact Hv3. }
  destruct (two_val r (flat_map i1 (cls pc))) as (m1 & m2 & E1 & E2 & F).
  { intros x. rewrite in_app_iff. apply class_char; auto. rewrite Hi. assert (valence pc =? 4 = false) as -> by lia. reflexivity. }
  rewrite E. cbn [bind]. rewrite E1. cbn [bind]. rewrite E2. cbn [bind]. exists m2, vc'. auto.
Qed.
End Class.

Lemma arule_val pc m vc P : fst pc < np -> sup pc = true -> cok m ->
  (forall c, In c (touched pc) -> zeros m c) -> vmarks vc P ->
  exists m' vc', rVertexRule SchemeAlmostC1 I pc (valence pc) (inner pc) (rc0 pc) m vc = Ok (m', vc') /\
    aeffect m m' (touched pc) /\
    exists Q, vmarks vc' Q /\ (forall c, (c = pc \/ Q c) <-> (P c \/ In c (touched pc))).
Proof.
  intros H Hs Hok Hz Hm. pose proof (RingProofs3.valence_pos I RI pc H) as V1.
  assert (Hself : In pc (cls pc)) by (apply (cls_self t Hcons), rvalidc; exact H).
  assert (single pc = true -> exists Q, vmarks vc Q /\ (forall c, (c = pc \/ Q c) <-> (P c \/ In c (touched pc)))) as Q1.
  { intros E. exists P. split; [exact Hm|]. unfold RingProofs3.touched. rewrite E. intros c. simpl. intuition. }
  assert (single pc = true -> zeros m pc) as Z1.
  { intros E. apply Hz. unfold RingProofs3.touched. rewrite E. left; auto. }
  assert (single pc = false -> forall c, In c (cls pc) -> zeros m c) as Z2.
  { intros E c Hc. apply Hz. unfold RingProofs3.touched. rewrite E. exact Hc. }
  assert (single pc = false -> forall vc', vmarks vc' (fun c => P c \/ In c (cls pc)) ->
     exists Q, vmarks vc' Q /\ (forall c, (c = pc \/ Q c) <-> (P c \/ In c (touched pc)))) as Q2.
  { intros E vc' Hm'. eexists. split; [exact Hm'|]. unfold RingProofs3.touched. rewrite E. intros c. split; [intros [->|?]|]; auto. }
  unfold RingProofs3.touched in Q1, Q2 |- *. unfold rVertexRule. unfold RingProofs3.single, RingProofs3.sup in *.
  destruct (inner pc) eqn:Hi; cbn [negb andb orb] in *.
  - destruct (valence pc =? 4) eqn:E4.
    + destruct (smooth_val pc m H Hok (Z1 eq_refl)) as (m' & -> & F); [right; split; [auto|lia]|]. cbn [bind]. exists m', vc. auto.
    + assert ((valence pc =? 3) || (4 <? valence pc) = true) as E by lia. rewrite E.
      destruct (inner_val pc m vc P H Hok (Z2 eq_refl) Hm Hi) as (m' & vc' & -> & F & M); [lia|lia|]. exists m', vc'. auto.
  - destruct (valence pc =? 1) eqn:E1.
    + cbn [orb] in *. exists m, vc. split; [reflexivity|]. split; auto. apply corner_val; auto; lia.
    + destruct (valence pc =? 2) eqn:E2; cbn [andb orb] in *.
      * destruct (rc0 pc) eqn:C; cbn [andb negb] in *.
        -- destruct (sharp2_val pc m vc P H Hok (Z2 eq_refl) Hm) as (m' & vc' & -> & F & M); [unfold sharp2; rewrite Hi, E2, C; reflexivity|].
           exists m', vc'. auto.
        -- destruct (smooth_val pc m H Hok (Z1 eq_refl)) as (m' & -> & F); [left; unfold flat2; rewrite Hi, E2, C; reflexivity|].
           cbn [bind]. exists m', vc. auto.
      * assert (2 <? valence pc = true) as E by lia. rewrite E. destruct (rc0 pc) eqn:C; cbn [andb negb] in *.
        -- destruct (sharp_val pc m H Hok (Z1 eq_refl)) as (m' & -> & F); auto; [lia|]. cbn [bind]. exists m', vc. auto.
        -- destruct (half_val pc m vc P H Hok (Z2 eq_refl) Hm) as (m' & vc' & -> & F & M); [unfold half0; rewrite Hi, E, C; reflexivity|].
           exists m', vc'. auto.
Qed.

Definition avloop (m0 : cmap) (pre : list pcorner) (s : rstate) (L : list pcorner) : Prop :=
  vmarks (rs_vert s) (fun c => In c L) /\ incl pre L /\ (forall c, In c L -> fst c < np) /\
  (forall c, In c L -> single c = false -> incl (cls c) L) /\
  cok (rs_map s) /\ (forall c, In c L -> avalued (rs_map s) c) /\
  (forall x, ~ isB L x -> cmval (rs_map s) x = cmval m0 x).

Lemma avertex_loop m0 l s0 : (forall c, In c l -> fst c < np) -> (forall c, In c l -> sup c = true) ->
  (forall c, fst c < np -> zeros m0 c) ->
  avloop m0 [] s0 [] -> exists s L, foldM (rVertex SchemeAlmostC1 I) l s0 = Ok s /\ avloop m0 l s L.
Proof.
  intros Hl Hs HZ Hv0.
  destruct (foldM_inv (fun pre s => exists L, avloop m0 pre s L) (rVertex SchemeAlmostC1 I) l s0) as (s & E & L & HL); eauto.
  intros pre pc post s E (L & H1 & H2 & H3 & H4 & H5 & H6 & H7).
  assert (In pc l) as Hin by (rewrite E; apply in_elt). pose proof (Hl pc Hin) as Hp. pose proof (Hs pc Hin) as Hsp.
  unfold rVertex. destruct (proj2 H1 pc (np0 _ Hp)) as (b & Eb & Hb). rewrite Eb. cbn [bind]. destruct b.
  - exists s. split; [reflexivity|]. exists L. unfold avloop. split; [exact H1|]. split.
    + intros x Hx. apply in_app_iff in Hx. destruct Hx as [Hx|[<-|[]]]; [auto|]. apply Hb; auto.
    + auto 10.
  - assert (~ In pc L) as Hn by (intros G; apply Hb in G; discriminate).
    rewrite (rc0_vget I RI pc Hp). cbn [bind]. rewrite (rvertexData I RI pc Hp). cbn [bind fst snd].
    assert (forall c, In c (touched pc) -> In c (cls pc)) as Hcl.
    { intros c. unfold RingProofs3.touched. destruct (single pc); [|auto]. intros [<-|[]]. apply (cls_self t Hcons), rvalidc; exact Hp. }
    assert (forall c, In c (touched pc) -> fst c < np) as Hcv by (intros c Hc; apply (rcls_valid I RI pc); auto).
    assert (forall c, In c (touched pc) -> ~ In c L) as Hdis.
    { intros c. unfold RingProofs3.touched. destruct (single pc) eqn:Et; [intros [<-|[]]; exact Hn|]. intros Hc G. apply Hn.
      apply (H4 c G); [rewrite (single_cls I RI SchemeAlmostC1 pc c); auto|]. apply (in_cls_sym t Hcons); auto. apply rvalidc; exact Hp. }
    destruct (arule_val pc (rs_map s) (rs_vert s) (fun c => In c L) Hp Hsp H5) as (m' & vc' & -> & (F1 & F2 & F3) & Q & HQ & HQ').
    { intros c Hc a e Ha He. rewrite H7; [apply HZ; auto|]. rewrite (isB_B I RI) by auto. apply Hdis; auto. }
    { exact H1. }
    cbn [bind fst snd]. destruct (vmarks_set S0 vc' Q pc HQ (np0 _ Hp)) as (vc2 & -> & M2). cbn [bind].
    eexists. split; [reflexivity|]. exists (L ++ touched pc). unfold avloop. cbn [rs_map rs_vert].
    assert (forall c a e, In c L -> a < 2 -> e < 2 -> cmval m' (B c a e) = cmval (rs_map s) (B c a e)) as Keep.
    { intros c a e Hc Ha He. apply F3. rewrite (isB_B I RI) by auto. intros G. apply (Hdis c G Hc). }
    split; [|split; [|split; [|split; [|split; [|split]]]]].
    + revert M2. apply marks_ext. intros a _. rewrite in_app_iff. apply HQ'.
    + intros x Hx. apply in_app_iff. apply in_app_iff in Hx. destruct Hx as [Hx|[<-|[]]]; [left; auto|].
      right. unfold RingProofs3.touched. destruct (single pc); [left; auto|]. apply (cls_self t Hcons), rvalidc; exact Hp.
    + intros c Hc. apply in_app_iff in Hc. destruct Hc; auto.
    + intros c Hc Es x Hx. apply in_app_iff. apply in_app_iff in Hc. destruct Hc as [Hc|Hc]; [left; eapply H4; eauto|].
      right. pose proof (Hcl c Hc) as Hc'. rewrite (single_cls I RI SchemeAlmostC1 pc c) in Es by auto. unfold RingProofs3.touched. rewrite Es.
      apply (Permutation_in _ (Permutation_sym (cls_perm t Hcons pc c (proj2 (rvalidc pc) Hp) Hc'))). exact Hx.
    + exact F1.
    + intros c Hc. apply in_app_iff in Hc. destruct Hc as [Hc|Hc]; [|auto].
      intros a e Ha He. rewrite Keep by auto. apply (H6 c Hc a e Ha He).
    + intros x Hx. rewrite (isB_app I) in Hx. rewrite F3 by tauto. apply H7. tauto.
Qed.

Record avals (m : cmap) : Prop := {
  av_sizes : cmsizes m = sizes;
  av_strip : forall ps x, In ps (iface_sides t) -> In x (strip I ps) -> (cmval m x < 0)%Z;
  av_near : forall c, fst c < np -> avalued m c;
  av_other : forall x, ~ isB (all_corners np) x -> (forall ps, In ps (iface_sides t) -> ~ In x (strip I ps)) -> cmval m x = 0%Z }.

Lemma aMapper_val : (forall c, fst c < np -> sup c = true) ->
  exists m, rMapper SchemeAlmostC1 I = Ok m /\ avals m.
Proof.
  intros Hs.
  destruct (interface_loop_val I RI (mkRS (cmap_of sizes) (repeat false (2 * length (tif t) + length (tbd t))) (repeat false (4 * np))))
    as (s1 & E1 & M1 & V1 & K1 & F & Z).
  { cbn [rs_side]. pose proof (smarks_init S0 W0) as M. exact M. }
  { apply cmap_of_ok. }
  { reflexivity. }
  destruct (rboundary_loop I RI s1 _ M1) as (s2 & E2 & Em & Ev).
  assert (forall c, fst c < np -> zeros (rs_map s2) c) as HZ.
  { intros c Hc a e Ha He. rewrite Em. apply Z. intros ps _. apply (strip_B I RI); auto. }
  destruct (avertex_loop (rs_map s2) (all_corners np) s2) as (s3 & L & E3 & H1 & H2 & H3 & H4 & H5 & H6 & H7).
  - intros c. apply in_all_corners.
  - intros c Hc. apply Hs, in_all_corners, Hc.
  - exact HZ.
  - unfold avloop. split; [|split; [intros c []|split; [intros c []|split; [intros c []|]]]].
    + rewrite Ev, V1. cbn [rs_vert]. pose proof (vmarks_init S0) as M. unfold nVerts in M. rewrite shadow_np in M. exact M.
    + rewrite Em. split; [exact K1|]. split; [intros c []|]. auto.
  - assert (forall c, In c L <-> fst c < np) as HL.
    { intros c. split; [apply H3|]. intros Hc. apply H2, in_all_corners, Hc. }
    exists (rs_map s3). split.
    + unfold rMapper. change (map rsize (ribases I)) with sizes. rewrite E1. cbn [bind]. rewrite E2. cbn [bind]. rewrite E3. reflexivity.
    + constructor.
      * apply H5.
      * intros ps x Hps Hx. rewrite H7, Em; [apply (F ps); auto|].
        intros (c & a & e & Hc & Ha & He & ->). apply (strip_B I RI ps c a e); auto.
      * intros c Hc. apply H6, HL, Hc.
      * intros x Hx Hs'. rewrite H7, Em; [apply Z; auto|].
        intros (c & a & e & Hc & G). apply Hx. exists c, a, e. rewrite in_all_corners. split; [apply HL; auto|exact G].
Qed.
End V.
