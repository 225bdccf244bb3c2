(** The coupled mapper, and the functions near the corners of ring-like bases. *)
From Verif Require Import Common TopoModel BaseModel IndexSpec TopoSpec SmoothSpec SmoothSpec2 BaseModel2 BaseSpec2
  IndexProofs IndexTopoProofs ListLemmas TopoProofs PointProofs MapperProofs CountProofs GeometryProofs
  BaseProofs2 RingModel RingSpec.
From Coq Require Import ZifyBool.

Lemma dof_dec (x y : dof) : {x = y} + {x <> y}.
Proof. unfold dof in *. decide equality; apply Nat.eq_dec. Qed.
Lemma dof_eqb_iff (a b : dof) : dof_eqb a b = true <-> a = b.
Proof. destruct a, b. unfold dof_eqb. simpl. rewrite andb_true_iff, !Nat.eqb_eq. split; [intros [-> ->]|intros [= -> ->]]; auto. Qed.
Lemma dof_eqb_same (a : dof) : dof_eqb a a = true.
Proof. apply dof_eqb_iff. reflexivity. Qed.
Lemma dof_eqb_other (a b : dof) : a <> b -> dof_eqb a b = false.
Proof. intros H. destruct (dof_eqb a b) eqn:E; auto. apply dof_eqb_iff in E. contradiction. Qed.

Lemma nodup_length_eq {A} dec (l l' : list A) : (forall x, In x l <-> In x l') ->
  length (nodup dec l) = length (nodup dec l').
Proof.
  intros H. apply Permutation_length, NoDup_Permutation; try apply NoDup_nodup.
  intros x. rewrite !nodup_In. apply H.
Qed.
Lemma nodup_length_add {A} dec (l l' : list A) a : ~ In a l -> (forall x, In x l' <-> x = a \/ In x l) ->
  length (nodup dec l') = S (length (nodup dec l)).
Proof.
  intros Ha H. change (S (length (nodup dec l))) with (length (a :: nodup dec l)).
  apply Permutation_length, NoDup_Permutation; try apply NoDup_nodup.
  - constructor; [rewrite nodup_In; exact Ha|apply NoDup_nodup].
  - intros x. rewrite nodup_In, H. simpl. rewrite nodup_In. intuition.
Qed.

Lemma filter_count_change {A} (f g : A -> bool) (l : list A) a : NoDup l -> In a l ->
  f a = true -> g a = false -> (forall x, x <> a -> f x = g x) ->
  length (filter f l) = S (length (filter g l)).
Proof.
  intros HN Ha F G E. apply in_split in Ha. destruct Ha as (l1 & l2 & ->).
  rewrite !filter_app. cbn [filter]. rewrite F, G, !app_length. cbn [length].
  apply NoDup_remove_2 in HN.
  rewrite (filter_ext_in f g l1), (filter_ext_in f g l2); [lia| |];
    intros x Hx; apply E; intros ->; apply HN, in_app_iff; auto.
Qed.

(* ------------------------------------------------------------------ *)
(** * Operations of the mapper *)
Section CM.
Variable sizes : list nat.
Notation D := (dofs_from 0 sizes).

Definition cok (m : cmap) : Prop :=
  cmsizes m = sizes /\ (1 <= cmcouple m)%Z /\ (cmelim m < 0)%Z /\ (forall x, cmval m x < cmcouple m)%Z.

Lemma cvalid_in m x : cmsizes m = sizes -> cvalid m x = true <-> In x D.
Proof.
  intros E. unfold cvalid. rewrite E, dofs_from_flat, in_flat_map. destruct x as [p k]. simpl.
  destruct (nth_error sizes p) as [n|] eqn:F.
  - assert (p < length sizes) as Hp by (apply nth_error_Some; congruence).
    assert (nth p sizes 0 = n) as N by (apply nth_error_nth; exact F).
    rewrite Nat.ltb_lt. split.
    + intros H. exists p. split; [apply in_seq; lia|]. rewrite Nat.sub_0_r, N. apply in_map, in_seq. lia.
    + intros (q & _ & H). apply in_map_iff in H. destruct H as (k' & [= <- <-] & Hk). apply in_seq in Hk.
      rewrite Nat.sub_0_r, N in Hk. lia.
  - apply nth_error_None in F. split; [discriminate|]. intros (q & Hq & H). apply in_seq in Hq.
    apply in_map_iff in H. destruct H as (k' & [= <- <-] & Hk). lia.
Qed.

Lemma D_nodup : NoDup D.
Proof.
  generalize 0. induction sizes as [|n r IH]; intros a; simpl; [constructor|].
  apply NoDup_app_iff. split; [|split; [apply IH|]].
  - apply FinFun.Injective_map_NoDup; [|apply seq_NoDup]. intros x y [= ->]. reflexivity.
  - intros [p k] H1 H2. apply in_map_iff in H1. destruct H1 as (k' & [= <- <-] & _).
    rewrite dofs_from_flat in H2. apply in_flat_map in H2. destruct H2 as (q & Hq & H).
    apply in_seq in Hq. apply in_map_iff in H. destruct H as (k'' & [= <- <-] & _). lia.
Qed.

Lemma in_pos m z : In z (filter (fun z => 0 <? z)%Z (map (cmval m) D)) <-> (0 < z)%Z /\ exists x, In x D /\ cmval m x = z.
Proof.
  rewrite filter_In, in_map_iff, Z.ltb_lt. split; [intros [(x & H1 & H2) H3]|intros [H3 (x & H1 & H2)]]; split; auto; exists x; auto.
Qed.

Lemma free_elim m x v : cok m -> In x D -> cmval m x = 0%Z -> (v < 0)%Z -> forall m',
  cmsizes m' = sizes -> (forall y, cmval m' y = if dof_eqb y x then v else cmval m y) ->
  cfreeSize m' + 1 = cfreeSize m.
Proof.
  intros (ES & _) Hx H0 Hv m' S' Hm'. unfold cfreeSize. rewrite ES, S'.
  rewrite (filter_count_change (fun y => (cmval m y =? 0)%Z) (fun y => (cmval m' y =? 0)%Z) D x); auto using D_nodup.
  - rewrite (nodup_length_eq Z.eq_dec (filter _ (map (cmval m') D)) (filter (fun z => 0 <? z)%Z (map (cmval m) D))); [lia|].
    intros z. rewrite !in_pos. split; intros [Hz (y & Hy & E)]; split; auto; exists y; split; auto.
    + rewrite Hm' in E. destruct (dof_eqb y x); [lia|exact E].
    + rewrite Hm'. destruct (dof_eqb y x) eqn:Ey; [|exact E]. apply dof_eqb_iff in Ey. subst. lia.
  - lia.
  - rewrite Hm', dof_eqb_same. lia.
  - intros y Hy. rewrite Hm', dof_eqb_other by exact Hy. reflexivity.
Qed.

Lemma eliminate_zero m x : cok m -> In x D -> cmval m x = 0%Z ->
  exists m', celiminate m (snd x) (fst x) = Ok m' /\ cok m' /\ cfreeSize m' + 1 = cfreeSize m /\
    (cmval m' x < 0)%Z /\ forall y, y <> x -> cmval m' y = cmval m y.
Proof.
  intros Hok Hx H0. pose proof Hok as (ES & C1 & C2 & C3).
  unfold celiminate. replace (fst x, snd x) with x by (destruct x; reflexivity).
  rewrite (proj2 (cvalid_in m x ES) Hx), H0. cbn [Z.eqb].
  eexists. split; [reflexivity|]. unfold cok. cbn [cmsizes cmval cmcouple cmelim].
  assert (forall y, cset m x (cmelim m) y = if dof_eqb y x then cmelim m else cmval m y) as E by reflexivity.
  split; [|split; [|split]].
  - repeat split; auto; try lia. intros y. rewrite E. destruct (dof_eqb y x); [lia|apply C3].
  - eapply (free_elim m x (cmelim m)); eauto.
  - rewrite E, dof_eqb_same. exact C2.
  - intros y Hy. rewrite E, dof_eqb_other by exact Hy. reflexivity.
Qed.

Lemma eliminate_neg m x : cok m -> In x D -> (cmval m x < 0)%Z -> celiminate m (snd x) (fst x) = Ok m.
Proof.
  intros (ES & _) Hx H0. unfold celiminate. replace (fst x, snd x) with x by (destruct x; reflexivity).
  rewrite (proj2 (cvalid_in m x ES) Hx).
  assert ((cmval m x =? 0)%Z = false) as -> by lia. assert ((0 <? cmval m x)%Z = false) as -> by lia. reflexivity.
Qed.

(** eliminating a list of free or already eliminated functions *)
Lemma celimAll_ok (l k : list dof) : forall m, cok m -> (forall x, In x l -> In x D) ->
  (forall x, In x l -> (cmval m x <= 0)%Z) -> NoDup k ->
  (forall x, In x k <-> In x l /\ cmval m x = 0%Z) ->
  exists m', celimAll l m = Ok m' /\ cok m' /\ cfreeSize m' + length k = cfreeSize m /\
    (forall x, In x l -> (cmval m' x < 0)%Z) /\ (forall x, ~ In x l -> cmval m' x = cmval m x).
Proof.
  revert k. induction l as [|a l IH]; intros k m Hok Hv Hle HN Hk.
  - assert (k = []) as -> by (destruct k as [|b k]; auto; destruct (proj1 (Hk b) (or_introl eq_refl)) as [[] _]).
    exists m. split; [reflexivity|]. split; [exact Hok|]. split; [simpl; lia|]. split; [intros x []|auto].
  - unfold celimAll. cbn [foldM]. fold (celimAll l).
    destruct (Z.eq_dec (cmval m a) 0) as [H0|H0].
    + destruct (eliminate_zero m a Hok (Hv a (or_introl eq_refl)) H0) as (m1 & E1 & Hok1 & F1 & N1 & U1).
      rewrite E1. cbn [bind]. change (foldM _ l m1) with (celimAll l m1).
      assert (In a k) as Ha by (apply Hk; simpl; auto).
      destruct (NoDup_remove_perm k a Ha) as (k' & P).
      pose proof (Permutation_NoDup P HN) as HN2. apply NoDup_cons_iff in HN2. destruct HN2 as [Hna HN'].
      destruct (IH k' m1) as (m2 & E2 & Hok2 & F2 & N2 & U2); auto.
      * intros x Hx. apply Hv. right; auto.
      * intros x Hx. destruct (dof_eqb x a) eqn:Ex; [apply dof_eqb_iff in Ex; subst; lia|].
        rewrite U1; [apply Hle; right; auto|]. intros ->. rewrite dof_eqb_same in Ex. discriminate.
      * intros x. assert (In x k <-> x = a \/ In x k') as Q.
        { split; intros G; [apply (Permutation_in _ P) in G; destruct G; auto|apply (Permutation_in _ (Permutation_sym P)); destruct G; [left|right]; auto]. }
        specialize (Hk x). simpl in Hk. split.
        -- intros G. assert (x <> a) as Hx by (intros ->; auto). rewrite U1 by exact Hx.
           destruct (proj1 Hk (proj2 Q (or_intror G))) as [[?|?] ?]; [congruence|auto].
        -- intros [G1 G2]. assert (x <> a) as Hx by (intros ->; lia). rewrite U1 in G2 by exact Hx.
           destruct (proj1 Q (proj2 Hk (conj (or_intror G1) G2))); [contradiction|auto].
      * exists m2. split; [exact E2|]. split; [exact Hok2|]. split; [|split].
        -- apply Permutation_length in P. simpl in P. unfold dof in *. lia.
        -- intros x [<-|Hx]; [|auto]. destruct (in_dec dof_dec a l) as [G|G]; [auto|].
           rewrite U2 by exact G. exact N1.
        -- intros x Hx. simpl in Hx. rewrite U2 by tauto. apply U1. intros ->. tauto.
    + assert (cmval m a < 0)%Z as Hneg by (specialize (Hle a (or_introl eq_refl)); lia).
      rewrite (eliminate_neg m a Hok (Hv a (or_introl eq_refl)) Hneg). cbn [bind]. change (foldM _ l m) with (celimAll l m).
      destruct (IH k m) as (m2 & E2 & Hok2 & F2 & N2 & U2); auto.
      * intros x Hx. apply Hv. right; auto.
      * intros x Hx. apply Hle. right; auto.
      * intros x. rewrite (Hk x). simpl. split; intros [G1 G2]; [|auto]. destruct G1 as [<-|G1]; [contradiction|auto].
      * exists m2. split; [exact E2|]. split; [exact Hok2|]. split; [exact F2|]. split.
        -- intros x [<-|Hx]; [|auto]. destruct (in_dec dof_dec a l) as [G|G]; [auto|].
           rewrite U2 by exact G. exact Hneg.
        -- intros x Hx. apply U2. simpl in Hx. tauto.
Qed.

Lemma cmarkBoundary_all m p ks : cmarkBoundary m p ks = celimAll (map (fun k => (p, k)) ks) m.
Proof.
  unfold cmarkBoundary, celimAll. revert m. induction ks as [|k ks IH]; intros m; cbn [foldM map fst snd]; [reflexivity|].
  destruct (celiminate m k p); cbn [bind]; auto.
Qed.

(** coupling two free functions *)
Lemma match_zero m x y : cok m -> In x D -> In y D -> x <> y -> cmval m x = 0%Z -> cmval m y = 0%Z ->
  exists m', cmatch m (fst x) (snd x) (fst y) (snd y) = Ok m' /\ cok m' /\ cfreeSize m' + 1 = cfreeSize m /\
    cmval m' x = cmcouple m /\ cmval m' y = cmcouple m /\ (forall z, z <> x -> z <> y -> cmval m' z = cmval m z).
Proof.
  intros Hok Hx Hy Hxy X0 Y0. pose proof Hok as (ES & C1 & C2 & C3).
  unfold cmatch. replace (fst x, snd x) with x by (destruct x; reflexivity).
  replace (fst y, snd y) with y by (destruct y; reflexivity).
  rewrite (proj2 (cvalid_in m x ES) Hx), (proj2 (cvalid_in m y ES) Hy), X0, Y0. cbn [andb Z.ltb Z.compare]. rewrite X0, Y0. cbn [Z.ltb Z.eqb Z.compare].
  eexists. split; [reflexivity|]. unfold cok. cbn [cmsizes cmval cmcouple cmelim].
  rewrite (dof_eqb_same x), (dof_eqb_same y). rewrite orb_true_r. cbn [orb].
  split; [|split; [|split; [|split]]]; auto.
  - repeat split; auto; try lia. intros z. destruct (dof_eqb z x || dof_eqb z y); [lia|]. specialize (C3 z). lia.
  - unfold cfreeSize. cbn [cmsizes cmval]. rewrite ES.
    set (v1 := fun z : dof => if dof_eqb z x then cmcouple m else cmval m z).
    set (v2 := fun z : dof => if dof_eqb z x || dof_eqb z y then cmcouple m else cmval m z).
    assert (length (filter (fun z => (cmval m z =? 0)%Z) D) = S (length (filter (fun z => (v1 z =? 0)%Z) D))) as Q1.
    { apply (filter_count_change _ _ D x); auto using D_nodup.
      - lia.
      - unfold v1. rewrite dof_eqb_same. lia.
      - intros z Hz. unfold v1. rewrite dof_eqb_other by exact Hz. reflexivity. }
    assert (length (filter (fun z => (v1 z =? 0)%Z) D) = S (length (filter (fun z => (v2 z =? 0)%Z) D))) as Q2.
    { apply (filter_count_change _ _ D y); auto using D_nodup.
      - unfold v1. rewrite dof_eqb_other by congruence. lia.
      - unfold v2. rewrite (dof_eqb_same y), orb_true_r. lia.
      - intros z Hz. unfold v1, v2. rewrite (dof_eqb_other z y) by exact Hz. rewrite orb_false_r. reflexivity. }
    assert (length (nodup Z.eq_dec (filter (fun z => 0 <? z)%Z (map v2 D))) =
            S (length (nodup Z.eq_dec (filter (fun z => 0 <? z)%Z (map (cmval m) D))))) as Q3.
    { apply (nodup_length_add Z.eq_dec _ _ (cmcouple m)).
      - rewrite in_pos. intros [_ (z & _ & E)]. specialize (C3 z). lia.
      - intros z. rewrite in_pos. pose proof (in_pos (mkCM sizes v2 0 0) z) as Q. cbn [cmval] in Q. rewrite Q. clear Q.
        split.
        + intros [Hz (u & Hu & E)]. unfold v2 in E. destruct (dof_eqb u x || dof_eqb u y); [auto|right; eauto].
        + intros [->|[Hz (u & Hu & E)]].
          * split; [lia|]. exists x. split; auto. unfold v2. rewrite dof_eqb_same. reflexivity.
          * split; auto. exists u. split; auto. unfold v2.
            destruct (dof_eqb u x) eqn:E1; [apply dof_eqb_iff in E1; subst; lia|].
            destruct (dof_eqb u y) eqn:E2; [apply dof_eqb_iff in E2; subst; lia|]. exact E. }
    change (length (filter (fun z => (v2 z =? 0)%Z) D) + length (nodup Z.eq_dec (filter (fun z => 0 <? z)%Z (map v2 D))) + 1 =
      length (filter (fun z => (cmval m z =? 0)%Z) D) + length (nodup Z.eq_dec (filter (fun z => 0 <? z)%Z (map (cmval m) D)))).
    lia.
  - intros z Hz1 Hz2. rewrite !dof_eqb_other by assumption. reflexivity.
Qed.

(** coupling a coupled function with a free one *)
Lemma match_group m x y : cok m -> In x D -> In y D -> (0 < cmval m x)%Z -> cmval m y = 0%Z ->
  exists m', cmatch m (fst x) (snd x) (fst y) (snd y) = Ok m' /\ cok m' /\ cfreeSize m' + 1 = cfreeSize m /\
    cmval m' y = cmval m x /\ (forall z, z <> y -> cmval m' z = cmval m z).
Proof.
  intros Hok Hx Hy X0 Y0. pose proof Hok as (ES & C1 & C2 & C3).
  unfold cmatch. replace (fst x, snd x) with x by (destruct x; reflexivity).
  replace (fst y, snd y) with y by (destruct y; reflexivity).
  rewrite (proj2 (cvalid_in m x ES) Hx), (proj2 (cvalid_in m y ES) Hy). cbn [andb].
  assert ((cmval m y <? cmval m x)%Z = true) as -> by lia. rewrite Y0. cbn [Z.ltb Z.eqb Z.compare].
  assert ((cmval m x =? 0)%Z = false) as -> by lia.
  eexists. split; [reflexivity|]. unfold cok. cbn [cmsizes cmval cmcouple cmelim].
  assert (forall z, cset m y (cmval m x) z = if dof_eqb z y then cmval m x else cmval m z) as E by reflexivity.
  split; [|split; [|split]].
  - repeat split; auto. intros z. rewrite E. destruct (dof_eqb z y); apply C3.
  - unfold cfreeSize. cbn [cmsizes cmval]. rewrite ES.
    rewrite (filter_count_change (fun z => (cmval m z =? 0)%Z) (fun z => (cset m y (cmval m x) z =? 0)%Z) D y); auto using D_nodup.
    + rewrite (nodup_length_eq Z.eq_dec (filter _ (map (cset m y (cmval m x)) D)) (filter (fun z => 0 <? z)%Z (map (cmval m) D))); [lia|].
      intros z. rewrite in_pos. pose proof (in_pos (mkCM sizes (cset m y (cmval m x)) 0 0) z) as Q. cbn [cmval] in Q. rewrite Q. clear Q.
      split; intros [Hz (u & Hu & G)]; (split; [exact Hz|]).
      * rewrite E in G. destruct (dof_eqb u y); [exists x; auto|exists u; auto].
      * exists u. split; auto. rewrite E. destruct (dof_eqb u y) eqn:G2; auto. apply dof_eqb_iff in G2. subst. lia.
    + lia.
    + rewrite E, dof_eqb_same. lia.
    + intros z Hz. rewrite E, dof_eqb_other by exact Hz. reflexivity.
  - rewrite E, dof_eqb_same. reflexivity.
  - intros z Hz. rewrite E, dof_eqb_other by exact Hz. reflexivity.
Qed.

Lemma cmap_of_ok : cok (cmap_of sizes).
Proof. unfold cok. simpl. repeat split; lia. Qed.
Lemma cmap_of_free : cfreeSize (cmap_of sizes) = sumN sizes.
Proof.
  unfold cfreeSize. simpl. rewrite filter_all by reflexivity. rewrite dofs_from_length.
  replace (filter _ (map _ D)) with (@nil Z); [simpl; lia|].
  symmetry. apply filter_none. intros z Hz. apply in_map_iff in Hz. destruct Hz as (x & <- & _). reflexivity.
Qed.
End CM.

(* ------------------------------------------------------------------ *)
(** * Ring-like bases *)
Lemma cside_touches c d : touches c (cside c d).
Proof. apply touches_on, on_side_cside. Qed.
Lemma cside_neq c : cside c 0 <> cside c 1.
Proof. destruct c; discriminate. Qed.
Lemma cside_dir c c' d : side_dir (cside c d) = side_dir (cside c' d).
Proof. destruct c, c', d; reflexivity. Qed.
Lemma cside_inj c c' : cside c 0 = cside c' 0 -> cside c 1 = cside c' 1 -> c = c'.
Proof. destruct c, c'; simpl; congruence. Qed.

(** the function in row a of the side of direction 0 and row e of the side of direction 1 *)
Definition rblk (b : rbasis) (c : corner) (a e : nat) : nat := rifv b e c (cside c 0) a.

Section RB.
Variable b : rbasis.
Hypothesis Hb : ring_like b.

Lemma rblk_meet c a e x : a < 2 -> e < 2 ->
  x = rblk b c a e <-> In x (roff b (cside c 0) a) /\ In x (roff b (cside c 1) e).
Proof.
  intros Ha He. unfold rblk. symmetry. apply (rl_meet b Hb); auto using cside_touches, cside_neq.
Qed.
Lemma rifv_blk0 c k o : rifv b k c (cside c 0) o = rblk b c o k.
Proof. reflexivity. Qed.
Lemma rifv_blk1 c k o : k < 2 -> o < 2 -> rifv b k c (cside c 1) o = rblk b c k o.
Proof.
  intros Hk Ho. apply rblk_meet; auto.
  destruct (proj2 (rl_meet b Hb c (cside c 1) (cside c 0) k o (rifv b k c (cside c 1) o)
     (cside_touches c 1) (cside_touches c 0) (fun E => cside_neq c (eq_sym E)) Hk Ho) eq_refl) as [H1 H2]. auto.
Qed.
Lemma rcorner_blk c : rcorner b c = rblk b c 0 0.
Proof. apply (rl_corner b Hb c (cside c 0)). apply cside_touches. Qed.
Lemma rblk_range c a e : a < 2 -> e < 2 -> rblk b c a e < rsize b.
Proof.
  intros Ha He. destruct (proj1 (rblk_meet c a e _ Ha He) eq_refl) as [H _]. apply (rl_range b Hb (cside c 0) a); auto.
Qed.
Lemma roff_row s o s' o' x : o < 2 -> o' < 2 -> side_dir s = side_dir s' ->
  In x (roff b s o) -> In x (roff b s' o') -> s = s' /\ o = o'.
Proof.
  intros Ho Ho' Hd H H'. destruct (side_eqb s s') eqn:E1.
  - assert (s = s') by (destruct s, s'; simpl in *; congruence). destruct (Nat.eq_dec o o'); auto.
    exfalso. apply (rl_disjoint b Hb s o s' o' x Ho Ho' Hd); auto. congruence.
  - exfalso. apply (rl_disjoint b Hb s o s' o' x Ho Ho' Hd); auto. intros [= -> ->]. destruct s'; discriminate.
Qed.
Lemma rblk_inj c a e c' a' e' : a < 2 -> e < 2 -> a' < 2 -> e' < 2 ->
  rblk b c a e = rblk b c' a' e' -> c = c' /\ a = a' /\ e = e'.
Proof.
  intros Ha He Ha' He' E. destruct (proj1 (rblk_meet c a e _ Ha He) eq_refl) as [H1 H2].
  destruct (proj1 (rblk_meet c' a' e' _ Ha' He') E) as [H3 H4].
  destruct (roff_row _ _ _ _ _ Ha Ha' (cside_dir c c' 0) H1 H3) as [S1 ->].
  destruct (roff_row _ _ _ _ _ He He' (cside_dir c c' 1) H2 H4) as [S2 ->].
  split; [apply cside_inj; auto|auto].
Qed.

(** the four functions of a boundary row that belong to its corners *)
Definition rsel (s : side) : list nat :=
  flat_map (fun c => [rifv b 0 c s 0; rifv b 1 c s 0]) (contained_corners s).
Definition rstrip (s : side) : list nat := without (roff b s 0) (rsel s).

Lemma rifv_row c s k : on_side c s = true -> k < 2 -> In (rifv b k c s 0) (roff b s 0).
Proof.
  intros Hs Hk. apply on_side_iff_cside in Hs. destruct Hs as [->| ->].
  - rewrite rifv_blk0. apply (proj1 (rblk_meet c 0 k _ ltac:(lia) Hk) eq_refl).
  - rewrite rifv_blk1 by lia. apply (proj1 (rblk_meet c k 0 _ Hk ltac:(lia)) eq_refl).
Qed.
Lemma in_rsel s x : In x (rsel s) <-> exists c k, on_side c s = true /\ k < 2 /\ x = rifv b k c s 0.
Proof.
  unfold rsel. rewrite in_flat_map. split.
  - intros (c & Hc & Hx). apply contained_corners_on in Hc. destruct Hx as [<-|[<-|[]]]; exists c; [exists 0|exists 1]; auto.
  - intros (c & k & Hc & Hk & ->). exists c. split; [apply contained_corners_on; exact Hc|].
    assert (k = 0 \/ k = 1) as [->| ->] by lia; simpl; auto.
Qed.
Lemma rifv_inj s c c' k k' : on_side c s = true -> on_side c' s = true -> k < 2 -> k' < 2 ->
  rifv b k c s 0 = rifv b k' c' s 0 -> c = c' /\ k = k'.
Proof.
  intros Hc Hc' Hk Hk' E. apply on_side_iff_cside in Hc. apply on_side_iff_cside in Hc'.
  destruct Hc as [S|S], Hc' as [S'|S'].
  - rewrite S in E at 1. rewrite S' in E. rewrite !rifv_blk0 in E. apply rblk_inj in E; lia || tauto.
  - exfalso. rewrite S in S'. apply (f_equal side_dir) in S'. rewrite !side_dir_cside in S' by lia. lia.
  - exfalso. rewrite S in S'. apply (f_equal side_dir) in S'. rewrite !side_dir_cside in S' by lia. lia.
  - rewrite S in E at 1. rewrite S' in E. rewrite !rifv_blk1 in E by lia. apply rblk_inj in E; lia || tauto.
Qed.
Lemma rsel_nodup s : NoDup (rsel s).
Proof.
  unfold rsel. rewrite contained_corners_at. cbn [flat_map app].
  assert (corner_at s false <> corner_at s true) as N by (destruct s; discriminate).
  repeat constructor; simpl; intuition;
    match goal with H : rifv b _ _ _ _ = _ |- _ => apply rifv_inj in H; auto using on_side_corner_at; try lia; destruct H; congruence end.
Qed.
Lemma rsel_incl s : incl (rsel s) (roff b s 0).
Proof. intros x Hx. apply in_rsel in Hx. destruct Hx as (c & k & Hc & Hk & ->). apply rifv_row; auto. Qed.
Lemma in_rstrip s x : In x (rstrip s) <-> In x (roff b s 0) /\ ~ In x (rsel s).
Proof.
  unfold rstrip, without. rewrite filter_In, negb_true_iff. apply and_iff_compat_l.
  rewrite existsb_false. split.
  - intros H G. specialize (H x G). rewrite Nat.eqb_refl in H. discriminate.
  - intros H y Hy. apply Nat.eqb_neq. intros ->. contradiction.
Qed.
Lemma rstrip_nodup s : NoDup (rstrip s).
Proof. apply NoDup_filter, (rl_nodup b Hb). lia. Qed.
Lemma rstrip_length s : length (rstrip s) + 4 = length (roff b s 0).
Proof.
  assert (length (rsel s) = 4) as E by (unfold rsel; rewrite contained_corners_at; reflexivity).
  rewrite <- E, <- app_length. apply Permutation_length, NoDup_Permutation.
  - apply NoDup_app_iff. split; [apply rstrip_nodup|]. split; [apply rsel_nodup|].
    intros x Hx. apply in_rstrip in Hx. tauto.
  - apply (rl_nodup b Hb). lia.
  - intros x. rewrite in_app_iff, in_rstrip. split; [intros [?|?]; [tauto|apply rsel_incl; auto]|].
    intros H. destruct (in_dec Nat.eq_dec x (rsel s)); tauto.
Qed.
Lemma rstrip_blk s c a e : a < 2 -> e < 2 -> ~ In (rblk b c a e) (rstrip s).
Proof.
  intros Ha He H. apply in_rstrip in H. destruct H as [H1 H2].
  destruct (proj1 (rblk_meet c a e _ Ha He) eq_refl) as [G1 G2].
  assert (side_dir s = 0 \/ side_dir s = 1) as [Hd|Hd] by (pose proof (side_dir_lt s); lia).
  - assert (side_dir s = side_dir (cside c 0)) as Hd' by (rewrite side_dir_cside by lia; exact Hd).
    destruct (roff_row s 0 (cside c 0) a _ (Nat.lt_0_succ 1) Ha Hd' H1 G1) as [-> <-].
    apply H2, in_rsel. exists c, e. auto using on_side_cside.
  - assert (side_dir s = side_dir (cside c 1)) as Hd' by (rewrite side_dir_cside by lia; exact Hd).
    destruct (roff_row s 0 (cside c 1) e _ (Nat.lt_0_succ 1) He Hd' H1 G2) as [-> <-].
    apply H2, in_rsel. exists c, a. split; [apply on_side_cside|]. split; [lia|]. rewrite rifv_blk1 by lia. reflexivity.
Qed.
Lemma rstrip_disjoint s s' x : s <> s' -> In x (rstrip s) -> In x (rstrip s') -> False.
Proof.
  intros Hs H H'. apply in_rstrip in H. apply in_rstrip in H'. destruct H as [H1 H2], H' as [H1' H2'].
  destruct (Nat.eq_dec (side_dir s) (side_dir s')) as [Hd|Hd].
  - destruct (roff_row s 0 s' 0 x) as [G _]; auto.
  - assert (exists c, touches c s /\ touches c s') as (c & T1 & T2).
    { destruct s, s'; simpl in *; try congruence;
      first [exists SW; simpl; tauto|exists SE; simpl; tauto|exists NW; simpl; tauto|exists NE; simpl; tauto]. }
    apply H2, in_rsel. exists c, 0. split; [apply touches_on; auto|]. split; [lia|].
    apply (rl_meet b Hb c s s'); auto.
Qed.
Lemma rsize_big : 16 <= rsize b.
Proof.
  set (l := flat_map (fun c => [rblk b c 0 0; rblk b c 0 1; rblk b c 1 0; rblk b c 1 1]) [SW; SE; NW; NE]).
  assert (length l <= length (seq 0 (rsize b))) as H; [|rewrite seq_length in H; exact H].
  apply NoDup_incl_length.
  - unfold l. cbn [flat_map app].
    repeat constructor; cbn [In]; intuition;
    match goal with H : rblk b _ _ _ = _ |- _ => apply rblk_inj in H; try lia; destruct H as (? & ? & ?); congruence end.
  - intros x Hx. apply in_flat_map in Hx. destruct Hx as (c & _ & Hx). apply in_seq.
    destruct Hx as [<-|[<-|[<-|[<-|[]]]]]; (split; [lia|]); apply rblk_range; lia.
Qed.
End RB.
