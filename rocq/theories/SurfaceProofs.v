(** Proofs about the surface of re-parameterised patches. *)
From Verif Require Import Common TopoModel ListLemmas ReparamModel ReparamSpec ReparamProofs ReparamProofs3 SurfaceSpec.
From Coq Require Import Qfield Lqa Permutation.
Open Scope Q_scope.

Lemma bspl_ext d : forall k k' t t', (forall i, (i <= S d)%nat -> k i == k' i) -> t == t' -> bspl d k t == bspl d k' t'.
Proof.
  induction d as [|d IH]; intros k k' t t' H E; cbn [bspl].
  - assert (Qle_bool (k 0%nat) t = Qle_bool (k' 0%nat) t') as ->.
    { apply eq_true_iff_eq. rewrite !Qle_bool_iff. rewrite (H 0%nat) by lia. rewrite E. reflexivity. }
    assert (Qle_bool (k 1%nat) t = Qle_bool (k' 1%nat) t') as ->.
    { apply eq_true_iff_eq. rewrite !Qle_bool_iff. rewrite (H 1%nat) by lia. rewrite E. reflexivity. }
    reflexivity.
  - rewrite (IH k k' t t') by (auto; intros; apply H; lia).
    rewrite (IH (fun i => k (S i)) (fun i => k' (S i)) t t') by (auto; intros; apply H; lia).
    rewrite (H 0%nat), (H (S d)), (H (S (S d))), (H 1%nat), E by lia. reflexivity.
Qed.

Lemma Qle_flip c k t : Qle_bool (c - k) (c - t) = Qle_bool t k.
Proof. apply eq_true_iff_eq. rewrite !Qle_bool_iff. split; intros; lra. Qed.

Lemma bspl_reflect d : forall k c t, (forall i, (i <= S d)%nat -> ~ k i == t) ->
  bspl d (fun i => c - k (S d - i)%nat) (c - t) == bspl d k t.
Proof.
  induction d as [|d IH]; intros k c t H.
  - cbn [bspl]. rewrite !Qle_flip. cbn [Nat.sub].
    pose proof (H 0%nat ltac:(lia)) as H0. pose proof (H 1%nat ltac:(lia)) as H1.
    destruct (Qle_bool t (k 1%nat)) eqn:E1, (Qle_bool t (k 0%nat)) eqn:E0, (Qle_bool (k 0%nat) t) eqn:F0, (Qle_bool (k 1%nat) t) eqn:F1;
      cbn [andb negb]; try reflexivity; exfalso;
      repeat match goal with
      | X : Qle_bool _ _ = true |- _ => apply Qle_bool_iff in X
      | X : Qle_bool ?a ?b = false |- _ =>
          assert (b < a) by (apply Qnot_le_lt; intros Y; apply Qle_bool_iff in Y; congruence); clear X
      end; try lra; try (apply H0; lra); try (apply H1; lra).
  - assert (A : bspl d (fun i => c - k (S (S d) - i)%nat) (c - t) == bspl d (fun i => k (S i)) t).
    { rewrite <- (IH (fun i => k (S i)) c t) by (intros; apply H; lia).
      apply bspl_ext; [|reflexivity]. intros i Hi. replace (S (S d) - i)%nat with (S (S d - i)) by lia. reflexivity. }
    assert (B : bspl d (fun i => c - k (S (S d) - S i)%nat) (c - t) == bspl d k t).
    { rewrite <- (IH k c t) by (intros; apply H; lia). apply bspl_ext; [|reflexivity].
      intros i Hi. cbn [Nat.sub]. reflexivity. }
    change (bspl (S d) (fun i => c - k (S (S d) - i)%nat) (c - t)) with
      ((c - t - (c - k (S (S d) - 0)%nat)) / (c - k (S (S d) - S d)%nat - (c - k (S (S d) - 0)%nat)) * bspl d (fun i => c - k (S (S d) - i)%nat) (c - t)
       + (c - k (S (S d) - S (S d))%nat - (c - t)) / (c - k (S (S d) - S (S d))%nat - (c - k (S (S d) - 1)%nat)) * bspl d (fun i => c - k (S (S d) - S i)%nat) (c - t)).
    rewrite A, B.
    replace (S (S d) - 0)%nat with (S (S d)) by lia. replace (S (S d) - S d)%nat with 1%nat by lia.
    replace (S (S d) - S (S d))%nat with 0%nat by lia. replace (S (S d) - 1)%nat with (S d) by lia.
    cbn [bspl].
    assert (D1 : c - k 1%nat - (c - k (S (S d))) == k (S (S d)) - k 1%nat) by ring.
    assert (D2 : c - k 0%nat - (c - k (S d)) == k (S d) - k 0%nat) by ring.
    assert (N1 : c - t - (c - k (S (S d))) == k (S (S d)) - t) by ring.
    assert (N2 : c - k 0%nat - (c - t) == t - k 0%nat) by ring.
    rewrite D1, D2, N1, N2. ring.
Qed.

Lemma knot_krev c i : (i < length (cknots c))%nat -> knot (krev c) i = span c - knot c (length (cknots c) - 1 - i).
Proof.
  intros H. unfold knot, krev. cbn [cknots]. rewrite rev_nth by (rewrite map_length; assumption).
  rewrite map_length. rewrite (nth_indep _ 0 (span c - 0)) by (rewrite map_length; lia).
  change (span c - 0) with ((fun t => hd 0 (cknots c) + last (cknots c) 0 - t) 0).
  rewrite (map_nth (fun t => hd 0 (cknots c) + last (cknots c) 0 - t)). unfold span. f_equal. f_equal. lia.
Qed.

Lemma krev_len c : length (cknots (krev c)) = length (cknots c).
Proof. unfold krev. cbn. rewrite rev_length, map_length. reflexivity. Qed.

Lemma off_knots_nth c t i : off_knots c t -> (i < length (cknots c))%nat -> ~ knot c i == t.
Proof. intros H Hi. unfold off_knots in H. rewrite Forall_forall in H. apply H. apply nth_In. assumption. Qed.

Lemma bfun_krev c i t : spline_comp c -> (i < csize c)%nat -> off_knots c t ->
  bfun (krev c) i (span c - t) == bfun c (csize c - 1 - i) t.
Proof.
  intros SC Hi OK. unfold bfun. unfold spline_comp in SC.
  assert (D : cdegree (krev c) = cdegree c) by (unfold cdegree; rewrite krev_len; reflexivity). rewrite D.
  assert (L : (length (cknots c) = csize c + cdegree c + 1)%nat) by (unfold cdegree; lia).
  rewrite <- (bspl_reflect (cdegree c) (fun k => knot c (csize c - 1 - i + k)) (span c) t).
  - apply bspl_ext; [|reflexivity]. intros k Hk. rewrite knot_krev by lia.
    replace (csize c - 1 - i + (S (cdegree c) - k))%nat with (length (cknots c) - 1 - (i + k))%nat by lia. reflexivity.
  - intros k Hk. apply off_knots_nth; [assumption|lia].
Qed.

Lemma knot_same c c' i : same_comp c c' -> knot c i == knot c' i.
Proof.
  intros [_ H]. unfold knot. revert i. induction H as [|x y l l' E H IH]; intros [|i]; simpl; try reflexivity; auto.
Qed.
Lemma len_same c c' : same_comp c c' -> length (cknots c) = length (cknots c').
Proof. intros [_ H]. induction H; simpl; auto. Qed.
Lemma bfun_same c c' i t t' : same_comp c c' -> t == t' -> bfun c i t == bfun c' i t'.
Proof.
  intros H E. unfold bfun, cdegree. rewrite (len_same _ _ H). destruct H as [S H]. rewrite S.
  apply bspl_ext; [|assumption]. intros. apply knot_same. split; assumption.
Qed.

(** what a component becomes under the operations: span and knots *)
Lemma knots_ends c : cknots c <> [] -> hd 0 (cknots c) = knot c 0 /\ last (cknots c) 0 = knot c (length (cknots c) - 1).
Proof.
  unfold knot. intros H. split; [destruct (cknots c); reflexivity|].
  destruct (exists_last H) as (l & x & E). rewrite E. rewrite last_last, app_length. cbn [length].
  rewrite app_nth2 by lia. replace (length l + 1 - 1 - length l)%nat with 0%nat by lia. reflexivity.
Qed.
Lemma krev_span c : cknots c <> [] -> span (krev c) == span c.
Proof.
  intros H. destruct (knots_ends c H) as [A B].
  assert (H' : cknots (krev c) <> []).
  { intros E. apply (f_equal (@length Q)) in E. rewrite krev_len in E. destruct (cknots c); [contradiction|discriminate]. }
  destruct (knots_ends _ H') as [A' B'].
  assert (Lp : (0 < length (cknots c))%nat) by (destruct (cknots c); [contradiction|simpl; lia]).
  unfold span at 1. rewrite A', B', krev_len, !knot_krev by lia.
  replace (length (cknots c) - 1 - 0)%nat with (length (cknots c) - 1)%nat by lia.
  replace (length (cknots c) - 1 - (length (cknots c) - 1))%nat with 0%nat by lia.
  unfold span. rewrite A, B. ring.
Qed.
Lemma krev_off c t : off_knots c t -> off_knots (krev c) (span c - t).
Proof.
  intros H. unfold off_knots, krev. cbn [cknots]. apply Forall_rev. apply Forall_map.
  eapply Forall_impl; [|exact H]. cbn. intros k Hk E. apply Hk. unfold span in E. lra.
Qed.

Lemma sum_flip (f : nat -> Q) n : sumQ (map (fun u => f (n - 1 - u)%nat) (seq 0 n)) == sumQ (map f (seq 0 n)).
Proof.
  rewrite <- (map_map (fun u => n - 1 - u)%nat f). apply sumQ_perm. apply Permutation_map.
  apply NoDup_Permutation_bis.
  - apply NoDup_map_on; [apply seq_NoDup|]. intros x y Hx Hy. apply in_seq in Hx, Hy. lia.
  - rewrite map_length. lia.
  - intros x Hx. apply in_map_iff in Hx. destruct Hx as (u & <- & Hu). apply in_seq in Hu. apply in_seq. lia.
Qed.

Section Surf.
Context {A : Type} (coord : A -> Q).
Notation surf := (surface coord).
Definition co (p : patch A) u v : Q := match at_ p u v with Some a => coord a | None => 0 end.

Definition good (p : patch A) (s xy : Q * Q) : Prop :=
  full p /\ spline_comp (pU p) /\ spline_comp (pV p) /\ fst s == span (pU p) /\ snd s == span (pV p) /\
  off_knots (pU p) (fst xy) /\ off_knots (pV p) (snd xy).

Lemma surf_spec p xy : surf p xy == sumQ (map (fun v => sumQ (map (fun u =>
   co p u v * bfun (pU p) u (fst xy) * bfun (pV p) v (snd xy)) (seq 0 (csize (pU p))))) (seq 0 (csize (pV p)))).
Proof. reflexivity. Qed.

Ltac sums := apply sumQ_map_ext; intros ? ?H; apply in_seq in H; apply sumQ_map_ext; intros ? ?H0; apply in_seq in H0.

Lemma off_eq c t t' : t == t' -> off_knots c t -> off_knots c t'.
Proof. intros E H. eapply Forall_impl; [|exact H]. cbn. intros k Hk E'. apply Hk. rewrite E. assumption. Qed.
Lemma knots_ne c : spline_comp c -> cknots c <> [].
Proof. unfold spline_comp. destruct (cknots c); simpl; [lia|discriminate]. Qed.
Lemma krev_spline c : spline_comp c -> spline_comp (krev c).
Proof. unfold spline_comp. rewrite krev_len. auto. Qed.

Lemma surf_op o (p q : patch A) s xy : good p s xy -> op_patch (geoK o) o p = Ok q ->
  surf q (move o s xy) == surf p xy /\ good q (move_spans o s) (move o s xy).
Proof.
  intros (F & SU & SV & EU & EV & OU & OV) E.
  destruct (op_patch_ok geoK o p geoK_size F) as (q' & E' & F' & KK & SZ & AT). rewrite E in E'. injection E' as <-.
  destruct s as [sU sV], xy as [x y]. cbn [fst snd] in *.
  assert (CO : forall u v, (u < csize (pU q))%nat -> (v < csize (pV q))%nat ->
     co q u v = co p (fst (from o (csize (pU p)) (csize (pV p)) u v)) (snd (from o (csize (pU p)) (csize (pV p)) u v))).
  { intros u v Hu Hv. unfold co. rewrite AT by assumption. reflexivity. }
  clear AT. rewrite !surf_spec.
  assert (BU : forall i, (i < csize (pU p))%nat -> bfun (krev (pU p)) i (sU - x) == bfun (pU p) (csize (pU p) - 1 - i) x).
  { intros i Hi. rewrite <- bfun_krev by assumption. apply bspl_ext; [reflexivity|]. rewrite EU. reflexivity. }
  assert (BV : forall i, (i < csize (pV p))%nat -> bfun (krev (pV p)) i (sV - y) == bfun (pV p) (csize (pV p) - 1 - i) y).
  { intros i Hi. rewrite <- bfun_krev by assumption. apply bspl_ext; [reflexivity|]. rewrite EV. reflexivity. }
  assert (KU : off_knots (krev (pU p)) (sU - x)) by (eapply off_eq; [|apply krev_off; exact OU]; rewrite EU; reflexivity).
  assert (KV : off_knots (krev (pV p)) (sV - y)) by (eapply off_eq; [|apply krev_off; exact OV]; rewrite EV; reflexivity).
  pose proof (krev_span _ (knots_ne _ SU)) as PU. pose proof (krev_span _ (knots_ne _ SV)) as PV.
  destruct o; cbn [geoK move move_spans from sizes fst snd] in *; injection KK as QU QV; injection SZ as NU NV;
    rewrite QU, QV in *; cbn [krev csize] in *.
  - split; [|repeat split; cbn [fst snd]; rewrite ?QU, ?QV; auto].
    rewrite sumQ_swap. sums. rewrite CO by lia. ring.
  - split; [|repeat split; cbn [fst snd]; rewrite ?QU, ?QV; auto using krev_spline; rewrite PU; assumption].
    rewrite sumQ_swap.
    transitivity (sumQ (map (fun v => sumQ (map (fun u => co p (csize (pU p) - 1 - u) v * bfun (pU p) (csize (pU p) - 1 - u) x * bfun (pV p) v y) (seq 0 (csize (pU p))))) (seq 0 (csize (pV p))))).
    + sums. rewrite CO, BU by lia. ring.
    + apply sumQ_map_ext. intros v _. apply (sum_flip (fun u => co p u v * bfun (pU p) u x * bfun (pV p) v y)).
  - split; [|repeat split; cbn [fst snd]; rewrite ?QU, ?QV; auto using krev_spline; rewrite PV; assumption].
    rewrite (sumQ_swap (fun v u => co p u v * bfun (pU p) u x * bfun (pV p) v y)).
    transitivity (sumQ (map (fun u => sumQ (map (fun v => co p u (csize (pV p) - 1 - v) * bfun (pU p) u x * bfun (pV p) (csize (pV p) - 1 - v) y) (seq 0 (csize (pV p))))) (seq 0 (csize (pU p))))).
    + sums. rewrite CO, BV by lia. ring.
    + apply sumQ_map_ext. intros u _. apply (sum_flip (fun v => co p u v * bfun (pU p) u x * bfun (pV p) v y)).
  - split; [|repeat split; cbn [fst snd]; rewrite ?QU, ?QV; auto using krev_spline; rewrite ?PU, ?PV; assumption].
    transitivity (sumQ (map (fun v => sumQ (map (fun u => co p (csize (pU p) - 1 - u) v * bfun (pU p) (csize (pU p) - 1 - u) x * bfun (pV p) v y) (seq 0 (csize (pU p))))) (seq 0 (csize (pV p))))).
    + rewrite <- (sum_flip (fun v => sumQ (map (fun u => co p (csize (pU p) - 1 - u) v * bfun (pU p) (csize (pU p) - 1 - u) x * bfun (pV p) v y) (seq 0 (csize (pU p)))))).
      sums. rewrite CO, BU, BV by lia. ring.
    + apply sumQ_map_ext. intros v _. apply (sum_flip (fun u => co p u v * bfun (pU p) u x * bfun (pV p) v y)).
Qed.

Lemma surf_run h : forall (a b : aux A) s xy, good (geo a) s xy -> run h a = Ok b ->
  surf (geo b) (moves h s xy) == surf (geo a) xy.
Proof.
  induction h as [|o h IH]; intros a b s xy G E.
  - cbn in E. assert (a = b) as -> by congruence. reflexivity.
  - unfold run in E. cbn [foldM] in E. unfold run1 in E at 1.
    destruct (op_patch (geoK o) o (geo a)) as [q|] eqn:Eq; [|discriminate]. cbn [bind] in E.
    destruct (surf_op o (geo a) q s xy G Eq) as (S1 & G1). cbn [moves]. rewrite <- S1.
    match type of E with foldM _ _ ?a1 = _ => exact (IH a1 b (move_spans o s) (move o s xy) G1 E) end.
Qed.

Lemma surf_history h (p : patch A) ng a xy : full p -> spline_comp (pU p) -> spline_comp (pV p) ->
  off_knots (pU p) (fst xy) -> off_knots (pV p) (snd xy) -> run h (newAux p ng) = Ok a ->
  surf (geo a) (moves h (span (pU p), span (pV p)) xy) == surf p xy.
Proof.
  intros F SU SV OU OV E. apply (surf_run h (newAux p ng) a); [|assumption].
  repeat split; auto; reflexivity.
Qed.

(** gsG1AuxiliaryPatch: no reversal of knots *)
Definition sym2 (p : patch A) : Prop := ReparamSpec.symmetric (pU p) /\ ReparamSpec.symmetric (pV p).

Lemma surf_same (p q : patch A) xy xy' : pC p = pC q -> same_comp (pU p) (pU q) -> same_comp (pV p) (pV q) ->
  fst xy == fst xy' -> snd xy == snd xy' -> surf p xy == surf q xy'.
Proof.
  intros C HU HV E1 E2. rewrite !surf_spec. rewrite (proj1 HU), (proj1 HV).
  apply sumQ_map_ext; intros v Hv. apply sumQ_map_ext; intros u Hu.
  rewrite (bfun_same _ _ u _ _ HU E1), (bfun_same _ _ v _ _ HV E2).
  assert (co p u v = co q u v) as ->; [|reflexivity].
  unfold co, at_. rewrite C, (proj1 HU), (proj1 HV). reflexivity.
Qed.

Lemma surf_op1 o (p q : patch A) s xy : good p s xy -> sym2 p -> op_patch (basK o) o p = Ok q ->
  surf q (move o s xy) == surf p xy /\ good q (move_spans o s) (move o s xy) /\ sym2 q.
Proof.
  intros G (SyU & SyV) E. pose proof G as (F & SU & SV & EU & EV & OU & OV).
  unfold op_patch in E. destruct (opC o (csize (pU p)) (csize (pV p)) (pC p)) as [c|] eqn:EC; [|discriminate]. cbn [bind] in E.
  assert (Q : q = mkPatch (fst (basK o (pU p) (pV p))) (snd (basK o (pU p) (pV p))) c) by congruence. clear E.
  set (q' := mkPatch (fst (geoK o (pU p) (pV p))) (snd (geoK o (pU p) (pV p))) c).
  assert (E' : op_patch (geoK o) o p = Ok q') by (unfold op_patch; rewrite EC; reflexivity).
  destruct (surf_op o p q' s xy G E') as (S1 & (F' & SU' & SV' & EU' & EV' & OU' & OV')).
  assert (C1 : same_comp (pU q') (pU q)).
  { subst q q'. destruct o; cbn; auto; split; auto; try reflexivity; try apply SyU; try apply SyV; clear; induction (cknots _); constructor; auto; reflexivity. }
  assert (C2 : same_comp (pV q') (pV q)).
  { subst q q'. destruct o; cbn; auto; split; auto; try reflexivity; try apply SyU; try apply SyV; clear; induction (cknots _); constructor; auto; reflexivity. }
  assert (SS : sym2 q) by (subst q; unfold sym2; destruct o; cbn; auto).
  split; [|split; [|exact SS]].
  - rewrite <- S1. symmetry. apply surf_same; auto; try reflexivity. subst q q'. reflexivity.
  - assert (HO : forall c c' t, same_comp c c' -> off_knots c t -> off_knots c' t).
    { intros a b t [_ H]. unfold off_knots. induction H as [|x y l l' EQ H IH]; intros HF; [constructor|].
      inversion HF; subst. constructor; auto. rewrite <- EQ. assumption. }
    assert (HS : forall c c', same_comp c c' -> span c == span c').
    { intros a b [_ H]. unfold span. rewrite (forall2_hd _ _ H), (forall2_last _ _ H). reflexivity. }
    assert (HL : forall c c', same_comp c c' -> spline_comp c -> spline_comp c').
    { intros a b H. unfold spline_comp. rewrite (len_same _ _ H), (proj1 H). auto. }
    split; [unfold full in *; rewrite <- (proj1 C1), <- (proj1 C2); subst q q'; exact F'|].
    split; [apply (HL _ _ C1 SU')|]. split; [apply (HL _ _ C2 SV')|].
    split; [rewrite EU'; apply HS; assumption|]. split; [rewrite EV'; apply HS; assumption|].
    split; [apply (HO _ _ _ C1 OU')|apply (HO _ _ _ C2 OV')].
Qed.

Lemma surf_run1 h : forall (a b : aux1 A) s xy, good (geo1 a) s xy -> sym2 (geo1 a) -> run_1 h a = Ok b ->
  surf (geo1 b) (moves h s xy) == surf (geo1 a) xy.
Proof.
  induction h as [|o h IH]; intros a b s xy G SY E.
  - cbn in E. assert (a = b) as -> by congruence. reflexivity.
  - unfold run_1 in E. cbn [foldM] in E. unfold run1_1 in E at 1.
    destruct (op_patch (basK o) o (geo1 a)) as [q|] eqn:Eq; [|discriminate]. cbn [bind] in E.
    destruct (surf_op1 o (geo1 a) q s xy G SY Eq) as (S1 & G1 & SY1). cbn [moves]. rewrite <- S1.
    match type of E with foldM _ _ ?a1 = _ => exact (IH a1 b (move_spans o s) (move o s xy) G1 SY1 E) end.
Qed.

Lemma surf_history1 h (p : patch A) ng a xy : full p -> spline_comp (pU p) -> spline_comp (pV p) ->
  ReparamSpec.symmetric (pU p) -> ReparamSpec.symmetric (pV p) ->
  off_knots (pU p) (fst xy) -> off_knots (pV p) (snd xy) -> run_1 h (newAux1 p ng) = Ok a ->
  surf (geo1 a) (moves h (span (pU p), span (pV p)) xy) == surf p xy.
Proof.
  intros F SU SV YU YV OU OV E. apply (surf_run1 h (newAux1 p ng) a); [|split; assumption|assumption].
  repeat split; auto; reflexivity.
Qed.

(** a swap alone needs no symmetry *)
Lemma surf_swap1 (p : patch A) ng a xy : full p -> spline_comp (pU p) -> spline_comp (pV p) ->
  off_knots (pU p) (fst xy) -> off_knots (pV p) (snd xy) -> run_1 [OSwap] (newAux1 p ng) = Ok a ->
  surf (geo1 a) (snd xy, fst xy) == surf p xy.
Proof.
  intros F SU SV OU OV E. unfold run_1 in E. cbn [foldM] in E. unfold run1_1 in E. cbn [newAux1 geo1] in E.
  destruct (op_patch (basK OSwap) OSwap p) as [q|] eqn:Eq; [|discriminate]. cbn [bind] in E.
  assert (geo1 a = q) as -> by (assert (X : Ok (geo1 a) = Ok q) by (injection E as <-; reflexivity); congruence).
  apply (surf_op OSwap p q (span (pU p), span (pV p)) xy); [repeat split; auto; reflexivity|exact Eq].
Qed.

(** the table-driven re-parameterisations *)
Lemma reparam_runs (a : aux A) ix first : exists h1 h2 h3,
  (forall b, reparametrizeSingle ix a = Ok b -> run h1 a = Ok b) /\
  (forall b, reparametrizeInterface first ix a = Ok b -> run h2 a = Ok b) /\
  (forall b, reparametrizeVertex ix a = Ok b -> run h3 a = Ok b).
Proof.
  unfold reparametrizeSingle, reparametrizeInterface, reparametrizeVertex.
  destruct (run (orientOps (neg a)) a) as [a1|] eqn:E; cbn [bind].
  - exists (orientOps (neg a) ++ singleOps (orient a1) ix), (orientOps (neg a) ++ interfaceOps first ix), (orientOps (neg a) ++ vertexOps (orient a1) ix).
    unfold run in *. repeat split; intros b Hb; rewrite foldM_app, E; exact Hb.
  - exists [], [], []. repeat split; discriminate.
Qed.

Lemma surf_tables (p : patch A) ng ix first a : full p -> spline_comp (pU p) -> spline_comp (pV p) ->
  reparametrizeSingle ix (newAux p ng) = Ok a \/ reparametrizeInterface first ix (newAux p ng) = Ok a \/
  reparametrizeVertex ix (newAux p ng) = Ok a ->
  exists h, forall xy, off_knots (pU p) (fst xy) -> off_knots (pV p) (snd xy) ->
    surf (geo a) (moves h (span (pU p), span (pV p)) xy) == surf p xy.
Proof.
  intros F SU SV H. destruct (reparam_runs (newAux p ng) ix first) as (h1 & h2 & h3 & R1 & R2 & R3).
  destruct H as [H|[H|H]]; [exists h1|exists h2|exists h3]; intros xy O1 O2; eapply surf_history; eauto.
Qed.
End Surf.

(** witness: knots 0,0,1/4,1,1 *)
Definition skewedQ : patch Q := mkPatch (mkComp [0; 0; 1 # 4; 1; 1] 3) (mkComp [0; 0; 1; 1] 2) [10; 11; 12; 13; 14; 15].
Lemma surf_G1_fails : exists a, run_1 [OTwice] (newAux1 skewedQ false) = Ok a /\
  ~ surface (fun x => x) (geo1 a) (move OTwice (span (pU skewedQ), span (pV skewedQ)) (1 # 2, 1 # 2)) == surface (fun x => x) skewedQ (1 # 2, 1 # 2).
Proof. eexists. split; [vm_compute; reflexivity|]. vm_compute. discriminate. Qed.
