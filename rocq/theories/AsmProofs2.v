(** Proofs for C77: the solution. *)
From Coq Require Import Reals Lra Permutation ZifyBool.
From Verif Require Import Common SurfGDSpec SurfGDProofs KernProofs KernProofs2 ListLemmas AsmModel AsmSpec AsmProofs.
Open Scope R_scope.

Definition coef (m : mapper) (sol : nat -> R) (i : nat) : R := if mfixed m i then 0 else sol (gi m i).
Lemma construct_ok m sol : exists c, constructSolution m sol = Ok c /\ length c = msize m /\ forall i, (i < msize m)%nat -> nth i c 0 = coef m sol i.
Proof.
  unfold constructSolution. destruct (mapM_ok_all (fun i => do g <- mindex m i; Ok (if (g <? mfree m)%nat then sol g else 0)) (fun i y => (i < msize m)%nat -> y = coef m sol i) (seq 0 (msize m))) as (c & E & L & P).
  - intros i x Hx. assert (Li : (i < msize m)%nat) by (rewrite <- (seq_length (msize m) 0); apply nth_error_Some; congruence).
    assert (x = i) as -> by (apply (nth_error_nth _ _ 0%nat) in Hx; rewrite seq_nth in Hx by exact Li; lia).
    rewrite (mindex_ok m i Li). cbn [bind]. eexists. split; [reflexivity|]. intros _. rewrite (gi_free m i Li). unfold coef. now destruct (mfixed m i).
  - exists c. rewrite seq_length in L. split; [exact E|]. split; [exact L|]. intros i Li. apply (P i); [apply nth_error_nth'; lia|exact Li].
Qed.

Definition nodes_ok (m : mapper) (els : list element) : Prop := forall n, In n (allNodes els) -> forall a, In a (fst n) -> (a < msize m)%nat.
Lemma nodes_of m els : els_ok (msize m) els -> nodes_ok m els.
Proof.
  intros O n Hn a Ha. unfold allNodes in Hn. apply in_flat_map in Hn. destruct Hn as (e & He & Hn). apply in_map_iff in Hn. destruct Hn as (k & <- & _). apply (O e a He Ha).
Qed.

Lemma hit_sum m sol act p : (p < length act)%nat -> (nth p act 0 < msize m)%nat -> sumTo (mfree m) (fun h => hit m act p h * sol h) = coef m sol (nth p act 0%nat).
Proof.
  intros Lp La. unfold hit, coef. set (a := nth p act 0%nat) in *. pose proof (gi_free m a La) as G. destruct (mfixed m a); cbn [negb andb] in *.
  - apply sumTo_0. intros; ring.
  - rewrite (sumTo_single _ _ (gi m a)); [rewrite Nat.eqb_refl; ring|lia|]. intros i _ N. replace (gi m a =? i)%nat with false by lia. ring.
Qed.
Lemma spline_global m sol n : (forall a, In a (fst n) -> (a < msize m)%nat) -> sumTo (mfree m) (fun h => gval m h n * sol h) = spline (coef m sol) n.
Proof.
  intros A. unfold gval, spline.
  transitivity (sumTo (mfree m) (fun h => sumTo (length (fst n)) (fun p => aval (snd n) p * (hit m (fst n) p h * sol h)))).
  - apply sumTo_ext. intros h _. rewrite Rmult_comm, <- sumTo_scal. apply sumTo_ext. intros; ring.
  - rewrite sumTo_swap. apply sumTo_ext. intros p Lp. rewrite sumTo_scal. f_equal. apply hit_sum; [exact Lp|apply A, nth_In, Lp].
Qed.

Lemma total_sub {A} (f g : A -> R) l : total (fun x => f x - g x) l = total f l - total g l.
Proof. induction l as [|a l IH]; cbn [total]; [ring|rewrite IH; ring]. Qed.

Lemma orthogonal m els s S sol : nodes_ok m els -> described m els s S -> solves (mfree m) (smat S) (srhs S) sol -> forall i, free m i ->
  total (fun n => weight n * ((spline (coef m sol) n - target s n) * fnval i n)) (allNodes els) = 0.
Proof.
  intros O (D1 & D2) H i F. assert (G : (gi m i < mfree m)%nat) by (apply Nat.ltb_lt; rewrite gi_free by apply F; destruct F as (_ & ->); reflexivity).
  specialize (H (gi m i) G). rewrite D1 in H.
  transitivity (total (fun n => weight n * (gval m (gi m i) n * spline (coef m sol) n)) (allNodes els) - total (fun n => weight n * (gval m (gi m i) n * target s n)) (allNodes els)).
  - rewrite <- total_sub. apply total_ext. intros n Hn. rewrite gval_fn by (try exact F; now apply O). ring.
  - rewrite <- H. apply Rminus_diag_eq. transitivity (sumTo (mfree m) (fun h => total (fun n => weight n * (gval m (gi m i) n * gval m h n) * sol h) (allNodes els))).
    + rewrite sumTo_total. apply total_ext. intros n Hn. rewrite <- (spline_global m sol n) by now apply O. rewrite <- Rmult_assoc, <- sumTo_scal. apply sumTo_ext. intros; ring.
    + apply sumTo_ext. intros h _. rewrite D2. rewrite Rmult_comm, <- total_scal. apply total_ext. intros; ring.
Qed.

Lemma spline_functions m d n : (forall a, In a (fst n) -> (a < msize m)%nat) -> spline d n = sumTo (msize m) (fun i => d i * fnval i n).
Proof.
  intros A. unfold fnval, spline.
  transitivity (sumTo (length (fst n)) (fun p => sumTo (msize m) (fun i => d i * (aval (snd n) p * unit i (nth p (fst n) 0%nat))))).
  - apply sumTo_ext. intros p Lp. set (a := nth p (fst n) 0%nat). rewrite (sumTo_single _ _ a).
    + unfold unit. rewrite Nat.eqb_refl. ring.
    + apply A, nth_In, Lp.
    + intros i _ N. unfold unit. replace (a =? i)%nat with false by lia. ring.
  - rewrite sumTo_swap. apply sumTo_ext. intros i _. now rewrite sumTo_scal.
Qed.
Lemma orthogonal_all m els s c : nodes_ok m els -> (forall i, free m i -> total (fun n => weight n * ((spline c n - target s n) * fnval i n)) (allNodes els) = 0) ->
  forall d, admissible m d -> total (fun n => weight n * ((spline c n - target s n) * spline d n)) (allNodes els) = 0.
Proof.
  intros O H d A. transitivity (sumTo (msize m) (fun i => d i * total (fun n => weight n * ((spline c n - target s n) * fnval i n)) (allNodes els))).
  - transitivity (sumTo (msize m) (fun i => total (fun n => d i * (weight n * ((spline c n - target s n) * fnval i n))) (allNodes els))).
    + rewrite sumTo_total. apply total_ext. intros n Hn. rewrite (spline_functions m d n) by now apply O. rewrite <- Rmult_assoc, <- sumTo_scal. apply sumTo_ext. intros; ring.
    + apply sumTo_ext. intros i _. apply total_scal.
  - apply sumTo_0. intros i Li. destruct (mfixed m i) eqn:F; [rewrite (A i F); ring|]. rewrite H by now split. ring.
Qed.
Lemma spline_sub c d n : spline (fun i => d i - c i) n = spline d n - spline c n.
Proof. unfold spline. assert (SD : forall f g k, sumTo k (fun i => f i - g i) = sumTo k f - sumTo k g) by (clear; intros f g k; induction k as [|k IH]; cbn [sumTo]; [|rewrite IH]; ring). rewrite <- SD. apply sumTo_ext. intros; ring. Qed.
Lemma total_nonneg {A} (f : A -> R) l : (forall x, In x l -> 0 <= f x) -> 0 <= total f l.
Proof. induction l as [|a l IH]; intros H; cbn [total]; [lra|]. pose proof (H a (or_introl eq_refl)). assert (0 <= total f l) by (apply IH; intros; apply H; now right). lra. Qed.

Lemma least m els s S sol c : nodes_ok m els -> described m els s S -> solves (mfree m) (smat S) (srhs S) sol -> (forall i, (i < msize m)%nat -> c i = coef m sol i) -> (forall i, (msize m <= i)%nat -> c i = 0) ->
  least_squares m els s c.
Proof.
  intros O D H C C0. assert (AD : admissible m c).
  { intros i F. destruct (le_lt_dec (msize m) i) as [G|G]; [now apply C0|]. rewrite (C i G). unfold coef. now rewrite F. }
  assert (OR : forall i, free m i -> total (fun n => weight n * ((spline c n - target s n) * fnval i n)) (allNodes els) = 0).
  { intros i F. rewrite <- (orthogonal m els s S sol O D H i F). apply total_ext. intros n Hn. do 3 f_equal. apply spline_ext. intros a Ha. apply C. now apply (O n). }
  split; [exact AD|]. split; [exact OR|].
  intros W d Ad. set (e := fun i => d i - c i).
  assert (Z : total (fun n => weight n * ((spline c n - target s n) * spline e n)) (allNodes els) = 0).
  { apply (orthogonal_all m els s c O OR). intros i F. unfold e. rewrite (AD i F), (Ad i F). ring. }
  assert (Q : total (fun n => weight n * ((spline d n - target s n) * (spline d n - target s n))) (allNodes els) =
    total (fun n => weight n * ((spline c n - target s n) * (spline c n - target s n))) (allNodes els) + 2 * total (fun n => weight n * ((spline c n - target s n) * spline e n)) (allNodes els) + total (fun n => weight n * (spline e n * spline e n)) (allNodes els)).
  { rewrite <- total_scal, <- !total_add. apply total_ext. intros n Hn. unfold e. rewrite spline_sub. ring. }
  rewrite Q, Z. assert (0 <= total (fun n => weight n * (spline e n * spline e n)) (allNodes els)); [|lra].
  apply total_nonneg. intros n Hn. apply Rmult_le_pos; [now apply W|]. pose proof (Rle_0_sqr (spline e n)) as SQ. exact SQ.
Qed.

Theorem vertex_solution_pf : forall solver m els, els_ok (msize m) els ->
  (forall f S, applyAll m 6 els (repeat zeroSys 6) = Ok f -> In S f -> solver_ok solver (mfree m) (smat S) (srhs S)) ->
  exists st result, setVertex solver m els (mkVBS [] []) = Ok (st, result) /\ length result = 6%nat /\
    forall s c, nth_error result s = Some c -> length c = msize m /\ least_squares m els s (fun i => nth i c 0).
Proof.
  intros solver m els O SO. unfold setVertex. cbn [vf vsol app].
  destruct (run_all m 6 6 els _ [] (le_n 6) O (zero_described m 6)) as (f & E & L & D). cbn [app] in D. rewrite E. cbn [bind]. specialize (SO f).
  destruct (mapM_ok_all (fun i => do X <- vget f i; Ok (solver (mfree m) (smat X) (srhs X))) (fun i y => forall S, nth_error f i = Some S -> y = solver (mfree m) (smat S) (srhs S)) (seq 0 6)) as (new & EN & LN & PN).
  { intros i x Hx. assert (Li : (i < 6)%nat) by (apply (f_equal (fun o => o)) in Hx; rewrite <- (seq_length 6 0); apply nth_error_Some; congruence).
    assert (x = i) as -> by (apply (nth_error_nth _ _ 0%nat) in Hx; rewrite seq_nth in Hx by exact Li; lia).
    unfold vget. destruct (nth_error f i) as [X|] eqn:EX; [|apply nth_error_None in EX; lia]. cbn [bind]. eexists. split; [reflexivity|]. intros S HS. now injection HS as <-. }
  rewrite EN. cbn [bind]. rewrite seq_length in LN.
  destruct (mapM_ok_all (fun p => do _ <- vget f p; do x <- vget new p; constructSolution m x) (fun p c => length c = msize m /\ least_squares m els p (fun i => nth i c 0)) (seq 0 6)) as (result & ER & LR & PR).
  { intros i x Hx. assert (Li : (i < 6)%nat) by (rewrite <- (seq_length 6 0); apply nth_error_Some; congruence).
    assert (x = i) as -> by (apply (nth_error_nth _ _ 0%nat) in Hx; rewrite seq_nth in Hx by exact Li; lia).
    unfold vget. destruct (nth_error f i) as [X|] eqn:EX; [|apply nth_error_None in EX; lia]. cbn [bind]. destruct (nth_error new i) as [y|] eqn:EY; [|apply nth_error_None in EY; lia]. cbn [bind].
    destruct (construct_ok m y) as (c & EC & LC & PC). exists c. split; [exact EC|]. split; [exact LC|].
    apply (least m els i X y (fun i => nth i c 0)); [now apply nodes_of|now apply D| |exact PC|intros j Hj; apply nth_overflow; lia].
    rewrite (PN i y EY X EX). apply SO; [exact E|]. eapply nth_error_In; exact EX. }
  rewrite ER. cbn [bind]. eexists _, result. split; [reflexivity|]. rewrite seq_length in LR. split; [exact LR|exact PR].
Qed.

Theorem edge_solution_pf : forall solver m els, els_ok (msize m) els ->
  (forall f S, applyAll m 1 els [zeroSys] = Ok f -> In S f -> solver_ok solver (mfree m) (smat S) (srhs S)) ->
  exists c, setEdge solver m els = Ok c /\ length c = msize m /\ least_squares m els 0 (fun i => nth i c 0).
Proof.
  intros solver m els O SO. unfold setEdge.
  destruct (run_all m 1 1 els _ [] (le_n 1) O (zero_described m 1)) as (f & E & L & D). cbn [app] in D. cbn [repeat] in E. rewrite E. cbn [bind]. unfold vget.
  destruct (nth_error f 0) as [X|] eqn:EX; [|apply nth_error_None in EX; lia]. cbn [bind].
  destruct (construct_ok m (solver (mfree m) (smat X) (srhs X))) as (c & EC & LC & PC). exists c. split; [exact EC|]. split; [exact LC|].
  apply (least m els 0 X (solver (mfree m) (smat X) (srhs X)) (fun i => nth i c 0)); [now apply nodes_of|now apply D| |exact PC|intros j Hj; apply nth_overflow; lia].
  apply (SO f); [exact E|]. eapply nth_error_In; exact EX.
Qed.

Theorem exact_pf : forall m els s c d, least_squares m els s c -> admissible m d -> (forall n, In n (allNodes els) -> 0 < weight n) ->
  (forall n, In n (allNodes els) -> spline d n = target s n) -> forall n, In n (allNodes els) -> spline c n = target s n.
Proof.
  intros m els s c d (_ & _ & H) A W E n Hn. specialize (H (fun n Hn => Rlt_le _ _ (W n Hn)) d A).
  assert (Z : total (fun n => weight n * ((spline d n - target s n) * (spline d n - target s n))) (allNodes els) = 0).
  { rewrite <- (total_zero (allNodes els)). apply total_ext. intros q Q. rewrite (E q Q). ring. }
  assert (NN : forall q, In q (allNodes els) -> 0 <= weight q * ((spline c q - target s q) * (spline c q - target s q))).
  { intros q Q. specialize (W q Q). pose proof (Rle_0_sqr (spline c q - target s q)) as SQ. unfold Rsqr in SQ. apply Rmult_le_pos; lra. }
  assert (Z' : total (fun n => weight n * ((spline c n - target s n) * (spline c n - target s n))) (allNodes els) = 0) by (pose proof (total_nonneg _ _ NN); lra).
  pose proof (total_pos_zero _ _ NN Z' n Hn) as X. cbv beta in X. specialize (W n Hn). apply Rmult_integral in X. destruct X as [X|X]; [lra|]. apply Rmult_integral in X. lra.
Qed.

Theorem edge_free_pf : forall du dv uv k, (1 <= du)%nat -> free (edgeMapper du dv uv) k <-> (k < du * dv)%nat /\ (match uv with O => k / du | _ => k mod du end < 2)%nat.
Proof.
  intros du dv uv k D. unfold free, edgeMapper. cbn [msize mfixed].
  assert (X : forall x n, existsb (fun i => (x =? i)%nat) (seq 2 (n - 2)) = false <-> (x < 2 \/ n <= x)%nat).
  { intros x n. split.
    - intros H. destruct (le_lt_dec 2 x) as [G|G]; [|now left]. right. destruct (le_lt_dec n x) as [G'|G']; [exact G'|]. exfalso.
      assert (existsb (fun i => (x =? i)%nat) (seq 2 (n - 2)) = true) by (apply existsb_exists; exists x; split; [apply in_seq; lia|apply Nat.eqb_refl]). congruence.
    - intros H. apply Bool.not_true_is_false. intros E. apply existsb_exists in E. destruct E as (i & I & E). apply in_seq in I. apply Nat.eqb_eq in E. lia. }
  split; intros (L & H); split; try exact L.
  - destruct uv; apply X in H; destruct H as [H|H]; try exact H.
    + exfalso. pose proof (Nat.div_lt_upper_bound k du dv ltac:(lia) L). lia.
    + exfalso. pose proof (Nat.mod_upper_bound k du ltac:(lia)). lia.
  - destruct uv; apply X; now left.
Qed.
Theorem vertex_free_pf : forall n k, free (vertexMapper n) k <-> (k < n)%nat.
Proof. intros n k. unfold free, vertexMapper. cbn. tauto. Qed.

Lemma mapM_err {A B} (f : A -> res B) l x : In x l -> f x = Err -> mapM f l = Err.
Proof. induction l as [|a l IH]; intros I E; [destruct I|]. cbn [mapM]. destruct I as [<-|I]; [now rewrite E|]. destruct (f a); [|reflexivity]. cbn [bind]. now rewrite (IH I E). Qed.
Theorem twice_pf : forall solver m els st r, els <> [] -> setVertex solver m els (mkVBS [] []) = Ok (st, r) -> setVertex solver m els st = Err.
Proof.
  intros solver m els st r N H. unfold setVertex in H at 1. cbn [vf vsol app] in H. destruct (applyAll m 6 els (repeat zeroSys 6)) as [f|] eqn:E; [|discriminate]. cbn [bind] in H.
  destruct (mapM _ (seq 0 6)) as [new|] eqn:EN in H; [|discriminate]. cbn [bind] in H. destruct (mapM _ (seq 0 6)) as [rs|] eqn:ER in H; [|discriminate]. cbn [bind] in H. injection H as <- <-.
  unfold setVertex. cbn [vf]. destruct els as [|e els]; [contradiction|]. unfold applyAll. cbn [foldM].
  assert (L : (6 <= length f)%nat).
  { destruct (le_lt_dec 6 (length f)) as [G|G]; [exact G|]. exfalso. rewrite (mapM_err _ (seq 0 6) 5%nat) in EN; [discriminate|apply in_seq; lia|]. unfold vget. rewrite (proj2 (nth_error_None f 5)) by lia. reflexivity. }
  assert (X : runElement m 6 (f ++ repeat zeroSys 6) e = Err).
  { unfold runElement. set (F := f ++ repeat zeroSys 6). assert (LF : (6 < length F)%nat) by (unfold F; rewrite app_length, repeat_length; lia).
    destruct (nth_error F 6) as [S|] eqn:ES; [|apply nth_error_None in ES; lia]. apply (mapM_err _ _ (6%nat, S)); [|reflexivity].
    apply (nth_error_In _ 6). rewrite nth_error_combine_seq, ES. reflexivity. }
  rewrite X. reflexivity.
Qed.

Lemma mapM_seq_ok {B} (f : nat -> res B) (P : nat -> B -> Prop) a k : (forall i, (a <= i < a + k)%nat -> exists y, f i = Ok y /\ P i y) ->
  exists l, mapM f (seq a k) = Ok l /\ length l = k /\ forall i y, nth_error l i = Some y -> P (a + i)%nat y.
Proof.
  revert a. induction k as [|k IH]; intros a H; cbn [seq mapM].
  - exists []. split; [reflexivity|]. split; [reflexivity|]. intros [|i] y E; discriminate E.
  - destruct (H a ltac:(lia)) as (y & E & Py). rewrite E. cbn [bind]. destruct (IH (S a)) as (l & El & L & P'); [intros i I; apply H; lia|]. rewrite El. cbn [bind].
    exists (y :: l). split; [reflexivity|]. split; [cbn; lia|]. intros [|i] z Ez; cbn in Ez; [injection Ez as <-; now rewrite Nat.add_0_r|]. replace (a + S i)%nat with (S a + i)%nat by lia. now apply P'.
Qed.
Theorem edges_pf : forall solver m np nm els, (forall b i, els_ok (msize m) (els b i)) ->
  (forall b i f S, applyAll m 1 (els b i) [zeroSys] = Ok f -> In S f -> solver_ok solver (mfree m) (smat S) (srhs S)) ->
  exists l, setEdges solver m np nm els = Ok l /\ length l = (np - 6 + (nm - 4))%nat /\
    (forall i, (3 <= i)%nat -> (i + 3 < np)%nat -> exists c, nth_error l (i - 3) = Some c /\ length c = msize m /\ least_squares m (els true i) 0 (fun k => nth k c 0)) /\
    (forall i, (2 <= i)%nat -> (i + 2 < nm)%nat -> exists c, nth_error l (np - 6 + (i - 2)) = Some c /\ length c = msize m /\ least_squares m (els false i) 0 (fun k => nth k c 0)).
Proof.
  intros solver m np nm els O SO. unfold setEdges.
  set (P := fun b i c => length c = msize m /\ least_squares m (els b i) 0 (fun k => nth k c 0)).
  assert (ONE : forall b i, exists c, setEdge solver m (els b i) = Ok c /\ P b i c) by (intros b i; apply edge_solution_pf; [apply O|apply SO]).
  destruct (mapM_seq_ok (fun i => setEdge solver m (els true i)) (P true) 3 (np - 3 - 3)) as (l1 & E1 & L1 & P1); [intros; apply ONE|].
  destruct (mapM_seq_ok (fun i => setEdge solver m (els false i)) (P false) 2 (nm - 2 - 2)) as (l2 & E2 & L2 & P2); [intros; apply ONE|].
  rewrite E1. cbn [bind]. rewrite E2. cbn [bind]. exists (l1 ++ l2). split; [reflexivity|]. split; [rewrite app_length; lia|]. split; intros i A B.
  - destruct (nth_error l1 (i - 3)) as [c|] eqn:E; [|apply nth_error_None in E; lia]. exists c. split; [rewrite nth_error_app1 by lia; exact E|].
    specialize (P1 _ _ E). now replace (3 + (i - 3))%nat with i in P1 by lia.
  - destruct (nth_error l2 (i - 2)) as [c|] eqn:E; [|apply nth_error_None in E; lia]. exists c. split; [rewrite nth_error_app2 by lia; replace (np - 6 + (i - 2) - length l1)%nat with (i - 2)%nat by lia; exact E|].
    specialize (P2 _ _ E). now replace (2 + (i - 2))%nat with i in P2 by lia.
Qed.
