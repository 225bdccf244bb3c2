(** The walk around an inner vertex meets every corner once. *)
From Verif Require Import Common ListLemmas TopoModel TopoSpec IndexProofs TopoProofs PiSpec EvModel EvSpec.
Open Scope nat_scope.

Lemma forallb_false {A} (f : A -> bool) l : forallb f l = false -> exists x, In x l /\ f x = false.
Proof.
  induction l as [|a l IH]; [discriminate|]. cbn [forallb]. intros F. apply andb_false_iff in F. destruct F as [F|F]; [exists a; split; [now left|exact F]|].
  destruct (IH F) as (x & Hx & Q). exists x. split; [now right|exact Q].
Qed.

Section W.
Context (t : topo) (Hc : consistent t).

Lemma across_dnext c s c' s' : across t c s c' s' <-> on_side (snd c) s = true /\ dnext t (c, side_dir s) = Some (c', side_dir s') /\ on_side (snd c') s' = true.
Proof.
  destruct c as [p c], c' as [p' c']. unfold across. cbn [fst snd]. split.
  - intros (f & u & F & -> & -> & E). split; [apply on_side_corner_at|]. split; [|apply on_side_corner_at].
    unfold dnext. rewrite cside_of_on by apply on_side_corner_at.
    assert (G : glue t (p, s) = Some ((p', s'), ifflip f)) by (apply (glue_some t Hc); exists f; split; [exact F|]; split; [reflexivity|tauto]).
    rewrite G. unfold mapc. cbn [fst snd]. rewrite pos_on_corner_at. do 3 f_equal. f_equal. destruct (ifflip f), u; reflexivity.
  - intros (O & D & O'). destruct (dnext_spec t _ _ _ _ _ D) as (ps' & fl & G & E1 & E2 & E3 & E4 & E5). rewrite (cside_of_on c s O) in *. cbn [fst snd] in *.
    assert (S' : snd ps' = s') by (rewrite <- E4; symmetry; rewrite <- (cside_of_on c' s' O') at 1; reflexivity).
    apply (glue_some t Hc) in G. destruct G as (f & F & FL & E). exists f, (pos_on s' c'). split; [exact F|].
    assert (PS : ps' = (p', s')) by (destruct ps'; cbn in *; congruence). subst ps'. unfold mapc in E1. cbn [fst snd] in E1. injection E1 as E1. rewrite FL.
    split; [|split; [symmetry; now apply corner_at_pos_on|exact E]].
    rewrite E1, pos_on_corner_at. rewrite <- xorb_assoc, xorb_nilpotent, xorb_false_l. symmetry. now apply corner_at_pos_on.
Qed.

Lemma across_sym c s c' s' : across t c s c' s' -> across t c' s' c s.
Proof.
  intros (f & u & F & E & E' & H). exists f, (xorb (ifflip f) u). split; [exact F|]. split; [|split; [exact E|tauto]].
  rewrite <- xorb_assoc, xorb_nilpotent, xorb_false_l. exact E'.
Qed.
Lemma across_det c s c1 s1 c2 s2 : across t c s c1 s1 -> across t c s c2 s2 -> c1 = c2 /\ s1 = s2.
Proof.
  rewrite !across_dnext. intros (_ & D1 & O1) (_ & D2 & O2). rewrite D1 in D2. injection D2 as <- E. split; [reflexivity|].
  rewrite <- (cside_of_on _ _ O1), <- (cside_of_on _ _ O2). now rewrite E.
Qed.

Lemma other_on c s : on_side (snd c) (otherSideAt c s) = true. Proof. unfold otherSideAt. apply on_side_cside. Qed.
Lemma other_dir c s : side_dir (otherSideAt c s) = 1 - side_dir s.
Proof. unfold otherSideAt. apply side_dir_cside. destruct s; cbn; lia. Qed.
Lemma other_other c s : on_side (snd c) s = true -> otherSideAt c (otherSideAt c s) = s.
Proof. intros O. unfold otherSideAt at 1. rewrite other_dir. replace (1 - (1 - side_dir s)) with (side_dir s) by (destruct s; reflexivity). now apply cside_of_on. Qed.
Lemma other_neq c s : otherSideAt c s <> s. Proof. intros E. pose proof (other_dir c s). rewrite E in H. destruct s; cbn in H; lia. Qed.

(** *** One step *)
Notation dart := (pcorner * side)%type.
Definition stepd (x : dart) : dart :=
  match dnext t (fst x, side_dir (snd x)) with Some (c', d') => (c', cside (snd c') (1 - d')) | None => x end.

Context (c0 : pcorner) (Hv : fst c0 < tnp t) (Hin : vertex_inner t (cls t c0) = true).
Notation l := (cls t c0).
Definition good (x : dart) : Prop := In (fst x) l /\ on_side (snd (fst x)) (snd x) = true.

Lemma step_across x : good x -> exists s', across t (fst x) (snd x) (fst (stepd x)) s' /\ snd (stepd x) = otherSideAt (fst (stepd x)) s' /\ good (stepd x).
Proof.
  destruct x as [c s]. intros [I O]. cbn [fst snd] in *.
  assert (VC : validc t c) by (eapply cls_valid; [apply Hc|exact Hv|exact I]).
  assert (IF : isInterface t (fst c, cside (snd c) (side_dir s)) = true).
  { apply (inner_iface t Hc c (side_dir s) VC). rewrite (inner_cls t Hc c0 c Hv I). exact Hin. }
  apply dnext_iface in IF. destruct IF as ([c' d'] & D). pose proof (dnext_dir _ _ _ _ D) as D2.
  exists (cside (snd c') d'). unfold stepd. cbn [fst snd]. rewrite D. cbn [fst snd].
  assert (DD : side_dir (cside (snd c') d') = d') by now apply side_dir_cside.
  split; [|split].
  - apply across_dnext. split; [exact O|]. rewrite DD. split; [exact D|apply on_side_cside].
  - unfold otherSideAt. now rewrite DD.
  - split; [|apply on_side_cside]. cbn [fst]. apply (cls_closed t Hc c0 c Hv I). apply in_cn. exists (side_dir s), d'. split; [destruct s; cbn; lia|exact D].
Qed.

Lemma step_inj x y : good x -> good y -> stepd x = stepd y -> x = y.
Proof.
  intros Gx Gy E. destruct (step_across x Gx) as (s & A & S1 & _). destruct (step_across y Gy) as (s' & A' & S2 & _). rewrite <- E in A', S2.
  assert (s = s').
  { destruct (proj1 (across_dnext _ _ _ _) A) as (_ & _ & O). destruct (proj1 (across_dnext _ _ _ _) A') as (_ & _ & O').
    rewrite <- (other_other _ _ O), <- (other_other _ _ O'). congruence. }
  subst s'. destruct x as [c s1], y as [c' s1']. cbn [fst snd] in *. destruct (across_det _ _ _ _ _ _ (across_sym _ _ _ _ A) (across_sym _ _ _ _ A')) as (-> & ->). reflexivity.
Qed.

Definition flipd (x : dart) : dart := (fst x, otherSideAt (fst x) (snd x)).
Fixpoint iter (k : nat) (x : dart) : dart := match k with 0 => x | S k => iter k (stepd x) end.
Lemma iter_S k x : iter (S k) x = stepd (iter k x).
Proof. revert x. induction k as [|k IH]; intros x; [reflexivity|]. cbn [iter] in *. now rewrite <- IH. Qed.
Lemma iter_good k x : good x -> good (iter k x).
Proof. revert x. induction k as [|k IH]; intros x G; [exact G|]. cbn [iter]. apply IH. destruct (step_across x G) as (_ & _ & _ & G'). exact G'. Qed.
Lemma iter_add a b x : iter (a + b) x = iter a (iter b x).
Proof. revert x. induction b as [|b IH]; intros x; [now rewrite Nat.add_0_r|]. rewrite Nat.add_succ_r. cbn [iter]. apply IH. Qed.
Lemma iter_inj k x y : good x -> good y -> iter k x = iter k y -> x = y.
Proof.
  revert x y. induction k as [|k IH]; intros x y Gx Gy E; [exact E|]. cbn [iter] in E. apply step_inj; try assumption. apply IH; [apply (iter_good 1 x Gx)|apply (iter_good 1 y Gy)|exact E].
Qed.

(** the walk never comes back the other way *)
Lemma no_reverse : forall k x, good x -> iter k x <> flipd x.
Proof.
  intros k. induction k as [k IH] using (well_founded_induction lt_wf). intros x G E.
  destruct k as [|[|k]].
  - cbn in E. unfold flipd in E. destruct x as [c s]. cbn in E. assert (Q : otherSideAt c s = s) by congruence. exact (other_neq _ _ Q).
  - cbn [iter] in E. destruct (step_across x G) as (s' & A & S1 & _). rewrite E in A, S1. unfold flipd in A, S1. cbn [fst snd] in *.
    destruct (proj1 (across_dnext _ _ _ _) A) as (O & D & O'). 
    apply (dnext_neq t Hc) in D; [congruence|destruct (snd x); cbn; lia].
  - apply (IH k ltac:(lia) (stepd x)); [apply (iter_good 1 x G)|].
    destruct (step_across x G) as (s' & A & S1 & G1).
    assert (Gf : good (flipd (stepd x))) by (destruct G1 as [I1 O1]; split; [exact I1|apply other_on]).
    assert (GI : good (iter k (stepd x))) by now apply iter_good.
    apply step_inj; [exact GI|exact Gf|]. rewrite <- iter_S. cbn [iter] in *. rewrite E.
    (* stepd (flipd (stepd x)) = flipd x *)
    destruct (step_across _ Gf) as (s2 & A2 & S2 & _). unfold flipd at 1 in A2. cbn [fst snd flipd] in A2. rewrite S1 in A2.
    destruct (proj1 (across_dnext _ _ _ _) A) as (O & _ & O'). rewrite (other_other _ _ O') in A2.
    destruct (across_det _ _ _ _ _ _ A2 (across_sym _ _ _ _ A)) as (E1 & ->).
    unfold flipd at 1. rewrite (surjective_pairing (stepd (flipd (stepd x)))), S2, E1. reflexivity.
Qed.

Definition start : dart := (c0, cside (snd c0) 0).
Lemma start_good : good start. Proof. split; [now apply cls_self|apply on_side_cside]. Qed.
Definition wd (i : nat) : dart := iter i start.
Lemma wd_good i : good (wd i). Proof. apply iter_good, start_good. Qed.
Lemma wd_S i : wd (S i) = stepd (wd i). Proof. apply iter_S. Qed.

Lemma two_sides c s s' : on_side (snd c) s = true -> on_side (snd c) s' = true -> s' = s \/ s' = otherSideAt c s.
Proof. unfold otherSideAt. destruct (snd c), s, s'; cbn; intros; try discriminate; auto. Qed.

Lemma same_corner i j : fst (wd i) = fst (wd j) -> wd i = wd j.
Proof.
  assert (W : forall i k, fst (wd i) = fst (wd (k + i)) -> wd i = wd (k + i)).
  { clear i j. intros i k E. assert (Q : wd (k + i) = iter k (wd i)) by (unfold wd; apply iter_add). rewrite Q in *.
    pose proof (wd_good i) as G. pose proof (iter_good k _ G) as G'. pose proof (no_reverse k _ G) as NR. 
    clear Q. revert E G G' NR. generalize (wd i) as x. intros x. generalize (iter k x) as y. intros [c' s'] E G G' NR. destruct x as [c s]. cbn [fst] in E. subst c'.
    destruct G as [_ Go], G' as [_ Go']. cbn [fst snd] in *.
    destruct (two_sides c s s' Go Go') as [->|F]; [reflexivity|]. exfalso. subst s'. apply NR. reflexivity. }
  intros E. destruct (Nat.le_ge_cases i j) as [L|L].
  - replace j with (j - i + i) in * by lia. now apply W.
  - replace i with (i - j + j) in * by lia. symmetry. apply W. now symmetry.
Qed.

Notation N := (length l).
Definition cseq : list dart := map wd (seq 0 N).

Lemma returns : exists n, 1 <= n <= N /\ wd n = wd 0.
Proof.
  assert (X : ~ NoDup (map (fun i => fst (wd i)) (seq 0 (S N)))).
  { intros ND. assert (L : length (map (fun i => fst (wd i)) (seq 0 (S N))) <= N).
    { apply NoDup_incl_length; [exact ND|]. intros c I. apply in_map_iff in I. destruct I as (i & <- & _). apply wd_good. }
    rewrite map_length, seq_length in L. lia. }
  assert (Y : exists i j, i < j <= N /\ wd i = wd j).
  { destruct (Bool.bool_dec (forallb (fun i => forallb (fun j => negb (pc_eqb (fst (wd i)) (fst (wd j))) || (j <=? i)) (seq 0 (S N))) (seq 0 (S N))) true) as [T|F].
    - exfalso. apply X. rewrite forallb_forall in T.
      assert (G : forall a m, (forall i, In i (seq a m) -> In i (seq 0 (S N))) -> NoDup (map (fun i => fst (wd i)) (seq a m))).
      { intros a m. revert a. induction m as [|m IH]; intros a H; [constructor|]. cbn [seq map]. constructor.
        - intros I. apply in_map_iff in I. destruct I as (j & E & J). pose proof (T a (H a (or_introl eq_refl))) as TA. rewrite forallb_forall in TA. specialize (TA j (H j (or_intror J))). apply in_seq in J.
          assert (PE : pc_eqb (fst (wd a)) (fst (wd j)) = true) by (apply pc_eqb_eq; now symmetry). rewrite PE in TA. cbn [negb orb] in TA. apply Nat.leb_le in TA. lia.
        - apply IH. intros i I. apply H. now right. }
      apply G. auto.
    - apply Bool.not_true_is_false in F. 
      assert (E : exists i, In i (seq 0 (S N)) /\ forallb (fun j => negb (pc_eqb (fst (wd i)) (fst (wd j))) || (j <=? i)) (seq 0 (S N)) = false).
      { now apply forallb_false. }
      destruct E as (i & I & E).
      assert (E' : exists j, In j (seq 0 (S N)) /\ negb (pc_eqb (fst (wd i)) (fst (wd j))) || (j <=? i) = false).
      { now apply forallb_false. }
      destruct E' as (j & J & Q). apply orb_false_iff in Q. destruct Q as (Q1 & Q2). apply negb_false_iff, pc_eqb_eq in Q1. apply Nat.leb_gt in Q2. apply in_seq in J. exists i, j. split; [lia|]. now apply same_corner. }
  destruct Y as (i & j & L & E). exists (j - i). split; [lia|]. replace j with (i + (j - i)) in E by lia. unfold wd in E. rewrite (iter_add i (j - i)) in E.
  symmetry. apply (iter_inj i); [apply start_good|apply (wd_good (j - i))|]. exact E.
Qed.

Lemma around : exists n, 1 <= n <= N /\ wd n = wd 0 /\ incl l (map (fun i => fst (wd i)) (seq 0 n)).
Proof.
  destruct returns as (n & Hn & E). exists n. split; [exact Hn|]. split; [exact E|].
  set (W := map (fun i => fst (wd i)) (seq 0 n)).
  assert (CL : forall c c', In c W -> In c' (cn t c) -> In c' W).
  { intros c c' I J. apply in_map_iff in I. destruct I as (i & <- & I). apply in_seq in I. apply in_cn in J. destruct J as (d & d' & D & DN).
    pose proof (wd_good i) as [GI GO]. 
    assert (SD : side_dir (snd (wd i)) < 2) by apply side_dir_lt.
    destruct (Nat.eq_dec d (side_dir (snd (wd i)))) as [->|ND].
    - (* forward *)
      assert (F : fst (wd (S i)) = c') by (rewrite wd_S; unfold stepd; rewrite DN; reflexivity).
      destruct (Nat.eq_dec (S i) n) as [Q|Q].
      + rewrite <- F, Q, E. apply in_map_iff. exists 0. split; [reflexivity|apply in_seq; lia].
      + rewrite <- F. apply in_map_iff. exists (S i). split; [reflexivity|apply in_seq; lia].
    - (* backward *)
      assert (exists j, j < n /\ wd (S j) = wd i) as (j & Lj & Ej).
      { destruct i as [|i]; [exists (n - 1); split; [lia|]; replace (S (n - 1)) with n by lia; exact E|exists i; split; [lia|reflexivity]]. }
      destruct (step_across (wd j) (wd_good j)) as (s' & A & S1 & _). rewrite <- wd_S, Ej in A, S1.
      assert (side_dir s' = d). { rewrite S1, other_dir in ND, SD. assert (side_dir s' < 2) by apply side_dir_lt. lia. }
      apply across_sym, across_dnext in A. destruct A as (_ & A & _). rewrite H, DN in A. injection A as -> _. apply in_map_iff. exists j. split; [reflexivity|apply in_seq; lia]. }
  intros c I. apply (in_cls t Hc c0 c Hv) in I.
  assert (I0 : In c0 W) by (apply in_map_iff; exists 0; split; [reflexivity|apply in_seq; lia]).
  revert I0. generalize W CL I. clear. intros W CL I. induction I; [auto|]. intros H1. eauto.
Qed.

Theorem walk_ring : ring t l cseq /\ wd N = wd 0 /\ NoDup (map fst cseq) /\ length cseq = N.
Proof.
  destruct around as (n & Hn & E & INC).
  assert (NDL : NoDup l) by now apply cls_nodup.
  assert (n = N). { pose proof (NoDup_incl_length NDL INC) as L. rewrite map_length, seq_length in L. lia. } subst n.
  assert (M : map fst cseq = map (fun i => fst (wd i)) (seq 0 N)) by (unfold cseq; now rewrite map_map).
  assert (ND : NoDup (map fst cseq)). { rewrite M. apply (NoDup_incl_NoDup NDL); [rewrite map_length, seq_length; lia|exact INC]. }
  assert (LC : length cseq = N) by (unfold cseq; now rewrite map_length, seq_length).
  split; [|split; [exact E|split; [exact ND|exact LC]]]. split.
  - apply NoDup_Permutation_bis; [exact ND| |].
    + rewrite M, map_length, seq_length. lia.
    + intros c I. rewrite M in I. apply in_map_iff in I. destruct I as (i & <- & _). apply wd_good.
  - intros i x X. assert (Li : i < N) by (rewrite <- LC; apply nth_error_Some; congruence).
    assert (NE : forall k, k < N -> nth_error cseq k = Some (wd k)).
    { intros k K. unfold cseq. rewrite nth_error_map. rewrite (nth_error_nth' _ 0) by (rewrite seq_length; exact K). rewrite seq_nth by exact K. reflexivity. }
    rewrite (NE i Li) in X. injection X as <-. split; [apply wd_good|].
    destruct (step_across (wd i) (wd_good i)) as (s' & A & S1 & _). rewrite <- wd_S in A, S1. exists (wd (S i)), s'. split; [|split; [exact A|exact S1]].
    rewrite LC. destruct (Nat.eq_dec (i + 1) N) as [Q|Q].
    + rewrite Q, Nat.mod_same by lia. rewrite NE by lia. f_equal. rewrite <- E. f_equal. lia.
    + rewrite Nat.mod_small by lia. rewrite NE by lia. f_equal. f_equal. lia.
Qed.

End W.
