(** Proofs for C74: if no patch asks for boxes, the active functions match. *)
From Coq Require Import Sorting.Sorted ZifyBool.
From Verif Require Import Common ListLemmas TopoModel TopoSpec IndexProofs TopoProofs HbModel HbSpec HbProofs HbProofs2 HbProofs3 HbProofs4.

Lemma addBoundaryBox_length h incr s a b l x x' : addBoundaryBox h incr s a b l x = Ok x' -> length (fst x') = S (length (fst x)).
Proof.
  intros H. unfold addBoundaryBox in H. cbv zeta in H. destruct x as (bs, chk). cbn [fst].
  assert (G : forall u0 v0 u1 v1 bs', addFunBox h u0 v0 u1 v1 l bs = Ok bs' -> length bs' = S (length bs)).
  { intros u0 v0 u1 v1 bs' Q. unfold addFunBox in Q. destruct (_ && _) in Q; [|discriminate Q]. cbn in Q. injection Q as <-. rewrite app_length. cbn. lia. }
  destruct s; cbn [side_dir] in H; try (destruct (ensure _) in H; [|discriminate H]; cbn [bind] in H); destruct (addFunBox _ _ _ _ _ _ _) as [bs'|] eqn:E in H; try discriminate H; cbn [bind] in H; injection H as <-; cbn [fst]; eapply G; exact E.
Qed.
Definition no_fewer (x y : list hbox * list bool) : Prop := length (fst x) <= length (fst y).
Lemma foldM_boxes h incr s l : forall R x x', foldM (fun x ab => addBoundaryBox h incr s (fst ab) (snd ab) l x) R x = Ok x' -> length (fst x') = length R + length (fst x).
Proof.
  induction R as [|ab R IH]; intros x x' H; cbn [foldM] in H; [injection H as <-; reflexivity|]. destruct (addBoundaryBox _ _ _ _ _ _ _) as [y|] eqn:E in H; [|discriminate H]. cbn [bind] in H. apply IH in H. apply addBoundaryBox_length in E. cbn [length]. lia.
Qed.
Lemma matchLevel_length h n incr s sn fl x l x' : 1 <= hpu h -> 1 <= hpv h -> 1 <= l -> side_count h l s = side_count n l sn -> matchLevel h n incr s sn fl x l = Ok x' ->
  no_fewer x x' /\ (length (fst x') = length (fst x) -> forall k, k < side_count n l sn -> on_side_fun active_fun n l sn (opposite fl (side_count n l sn) k) -> on_side_fun active_fun h l s k).
Proof.
  intros PU PV L C H. unfold matchLevel in H. cbv zeta in H. change (if fl then rev (activeBoundary n l sn) else activeBoundary n l sn) with (nbr_flags n l sn fl) in H.
  rewrite activeBoundary_length, nbr_flags_length, C, Nat.leb_refl in H. cbn [ensure bind] in H. set (r := map _ (seq 0 (side_count n l sn))) in H. set (x0 := (fst x, _)) in H.
  assert (NE : r <> []). { intros Q. apply (f_equal (@length bool)) in Q. unfold r in Q. rewrite map_length, seq_length, <- C in Q. cbn [length] in Q. destruct s; cbn [side_count] in Q; lia. }
  destruct (scan_ok r NE) as (R & (HR & _) & Sc). rewrite Sc in H. apply foldM_boxes in H. change (fst x0) with (fst x) in H. split; [unfold no_fewer; lia|]. intros E k K A.
  destruct R as [|ab R]; [|cbn [length] in H; lia]. apply activeBoundary_nth; [exact L|rewrite C; exact K|]. apply Bool.not_false_iff_true. intros F.
  assert (Rk : nth k r false = true). { unfold r. rewrite nth_map_seq by exact K. rewrite F. apply (nbr_flags_nth n l sn fl k L K) in A. rewrite A. reflexivity. }
  destruct (in_some_run r k Rk) as (a & b & Run & _). apply HR in Run. destruct Run.
Qed.
Lemma foldM_quiet {A S} (m : S -> nat) (f : S -> A -> res S) l : (forall s x s', In x l -> f s x = Ok s' -> m s <= m s') ->
  forall s s', foldM f l s = Ok s' -> m s <= m s' /\ forall x, In x l -> exists s1 s2, f s1 x = Ok s2 /\ m s <= m s1 /\ m s1 <= m s2 /\ m s2 <= m s'.
Proof.
  induction l as [|a l IH]; intros Rf s s' H; cbn [foldM] in H.
  - injection H as <-. split; [lia|intros x []].
  - destruct (f s a) as [s1|] eqn:E; [|discriminate H]. cbn [bind] in H. destruct (IH (fun s x s' Hx => Rf s x s' (or_intror Hx)) s1 s' H) as (R1 & C). pose proof (Rf _ _ _ (or_introl eq_refl) E) as R0. split; [lia|].
    intros x [<-|Hx]; [exists s, s1; auto|]. destruct (C x Hx) as (u & v & Q & Q1 & Q2 & Q3). exists u, v. split; [exact Q|lia].
Qed.

Section QUIET.
Context (t : topo) (incr : nat) (bs : list hbasis).
Hypothesis IN : hb_input t incr bs.

Lemma quiet_side p h c f s q s' : vget bs p = Ok h -> matchNeighbours t bs incr p = Ok ([], c) -> In f (tif t) -> joins f p s q s' ->
  forall l k, 1 <= l -> k < side_count h l s -> on_side_fun active_fun (nth q bs nobasis) l s' (opposite (ifflip f) (side_count h l s) k) -> on_side_fun active_fun h l s k.
Proof.
  intros Gp H F J. destruct (joins_other t incr bs IN f p s q s' F J) as (Gi & Io). pose proof (fun l => joins_count t incr bs IN f p s q s' l F J) as C. destruct (vget_nth_hb bs p h Gp) as (Lp & Np). rewrite Np in C.
  destruct (hi_degree _ _ _ IN h) as (PU & PV); [rewrite <- Np; apply nth_In; exact Lp|].
  unfold matchNeighbours in H. rewrite Gp in H. cbn [bind] in H. set (side_step := fun x s => _) in H. destruct (foldM side_step _ _) as [y|] eqn:E in H; [|discriminate H]. cbn [bind] in H. destruct (mapM _ _) as [nb|] in H; [|discriminate H]. cbn [bind] in H. assert (Y0 : fst y = []) by congruence. clear H.
  assert (Inner : forall n sn fl s0 N u v, (forall l, side_count h l s0 = side_count n l sn) -> foldM (matchLevel h n incr s0 sn fl) (seq 1 N) u = Ok v ->
    length (fst u) <= length (fst v) /\ forall l, In l (seq 1 N) -> exists s1 s2, matchLevel h n incr s0 sn fl s1 l = Ok s2 /\ length (fst u) <= length (fst s1) /\ length (fst s1) <= length (fst s2) /\ length (fst s2) <= length (fst v)).
  { intros n sn fl s0 N u v Cn Q. apply (foldM_quiet (fun x => length (fst x)) _ _) in Q; [exact Q|]. intros a l b Hl Em. apply in_seq in Hl. apply matchLevel_length in Em; [apply Em|exact PU|exact PV|lia|apply Cn]. }
  assert (Out : forall u s0 v, In s0 [West; East; South; North] -> side_step u s0 = Ok v -> length (fst u) <= length (fst v)).
  { intros u s0 v _ Q. unfold side_step in Q. destruct (getInterface t (p, s0)) as [f0|] eqn:G0; [|injection Q as <-; lia].
    apply getInterface_joins in G0. destruct G0 as (F0 & q0 & s0' & Io0 & J0). rewrite Io0 in Q. cbn [bind fst snd] in Q. destruct (vget bs q0) as [n0|] eqn:V0; [|discriminate Q]. cbn [bind] in Q.
    destruct (vget_nth_hb _ _ _ V0) as (_ & Nq0). apply Inner in Q; [apply Q|]. intros l. rewrite <- Np, <- Nq0. apply (joins_count t incr bs IN f0 p s0 q0 s0' l F0 J0). }
  apply (foldM_quiet (fun x => length (fst x)) side_step _ Out) in E. destruct E as (_ & St). rewrite Y0 in St. cbn [length] in St.
  destruct (St s) as (u & v & Q & _ & Q1 & Q2); [destruct s; cbn; auto|]. unfold side_step in Q. rewrite Gi, Io in Q. cbn [bind fst snd] in Q. destruct (vget bs q) as [n|] eqn:Vq; [|discriminate Q]. cbn [bind] in Q.
  destruct (vget_nth_hb bs q n Vq) as (Lq & Nq). rewrite Nq in *. apply Inner in Q; [|exact C]. destruct Q as (_ & Q).
  intros l k L K A. rewrite C in K, A.
  assert (Lm : l <= maxLevel n).
  { destruct (hi_size _ _ _ IN n) as (SU & SV); [rewrite <- Nq; apply nth_In; exact Lq|]. destruct (hi_degree _ _ _ IN n) as (DU & DV); [rewrite <- Nq; apply nth_In; exact Lq|].
    assert (U : 1 <= hnu n) by lia. assert (V : 1 <= hnv n) by lia. pose proof (pow2_pos l). pose proof (opposite_lt (ifflip f) _ k K) as K'.
    rewrite on_side_sideFun in A. destruct A as (A & _). eapply present_level; [exact L|exact U|exact V| | |exact A]; destruct s'; cbn [sideFun fst snd side_count] in *; unfold funs, elems; nia. }
  destruct (Q l ltac:(apply in_seq; lia)) as (s1 & s2 & Em & B1 & B2 & B3). apply matchLevel_length in Em; [|exact PU|exact PV|exact L|apply C]. destruct Em as (_ & Em). apply Em; [lia|exact K|exact A].
Qed.
Lemma quiet_matched : (forall p, p < length bs -> exists c, matchNeighbours t bs incr p = Ok ([], c)) -> matched t bs.
Proof.
  intros Q f F. unfold at_iface. destruct (if1 f) as (p, s) eqn:E1, (if2 f) as (q, s') eqn:E2. cbn [fst snd].
  assert (Lp : p < length bs) by (rewrite <- (hi_np _ _ _ IN); change p with (fst (p, s)); apply (pside_lt t (p, s) f (hi_topo _ _ _ IN) F); auto).
  assert (Lq : q < length bs) by (rewrite <- (hi_np _ _ _ IN); change q with (fst (q, s')); apply (pside_lt t (q, s') f (hi_topo _ _ _ IN) F); auto).
  destruct (vget_lt bs p Lp) as (h & Vp), (vget_lt bs q Lq) as (n & Vq). destruct (vget_nth_hb bs p h Vp) as (_ & Np), (vget_nth_hb bs q n Vq) as (_ & Nq).
  assert (J1 : joins f p s q s') by (left; auto). assert (J2 : joins f q s' p s) by (right; auto). destruct (Q p Lp) as (c & Qp), (Q q Lq) as (c' & Qq).
  pose proof (quiet_side p h c f s q s' Vp Qp F J1) as A. pose proof (quiet_side q n c' f s' p s Vq Qq F J2) as B. rewrite Np, Nq in *. pose proof (fun l => joins_count t incr bs IN f p s q s' l F J1) as C. rewrite Np, Nq in C.
  intros l k L K. split; intros H.
  - apply (B l _ L); [rewrite <- C; apply opposite_lt; exact K|]. rewrite <- C, opposite_inv by exact K. exact H.
  - apply (A l k L K). exact H.
Qed.
End QUIET.
