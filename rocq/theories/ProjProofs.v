(** Proofs for C86. *)
From Coq Require Import Reals Lra ZifyBool.
From Verif Require Import Common SplineModel GluingModel SurfGDSpec SurfGDProofs KernProofs KernProofs2 ListLemmas AsmModel AsmSpec AsmProofs AsmProofs2 BihModel BihSpec BihProofs BihProofs2 EdgeModel EdgeSpec EdgeProofs EdgeProofs2 ProjModel ProjSpec.
Open Scope R_scope.

Section Solver.
Variable solver : nat -> (nat -> nat -> R) -> (nat -> R) -> nat -> R.

Lemma mass_ok n els : acts_ok n els -> exists X, assembleJobs (freeMapper n) (fun _ => 0) (map (fun e => JMat (massElem e)) els) = Ok X.
Proof.
  intros A. assert (OM : jobs_ok (msize (freeMapper n)) (map (fun e => JMat (massElem e)) els)) by (intros j a I J; apply in_map_iff in I; destruct I as (e & <- & I); exact (A e a I J)).
  destruct (run_jobs (freeMapper n) (fun _ => 0) _ OM) as (X & EX & _). now exists X.
Qed.
Lemma fun_ok n els X f g : acts_ok n els -> free_solver solver n els -> assembleJobs (freeMapper n) (fun _ => 0) (map (fun e => JMat (massElem e)) els) = Ok X -> has_values els f g ->
  exists c, edgeFunction solver (freeMapper n) X els f = Ok c /\ length c = n /\ forall d, lhsE els (fun i => nth i c 0) d = rhsE els g d.
Proof.
  intros A SG EX F. destruct (function_ok solver (freeMapper n) els X f g A EX (SG X EX) F) as (c & E & L & _ & P). exists c. split; [exact E|]. split; [exact L|]. intros d. apply P. intros i _ Q. discriminate.
Qed.
Lemma closest_ok els g c : weights_pos els -> (forall d, lhsE els (fun i => nth i c 0) d = rhsE els g d) -> closest els g c.
Proof.
  intros W P d. rewrite (dist_split els g (fun i => nth i c 0) d), P.
  assert (0 <= total (fun n => qw (snd n) * (comb (fst n) (qv (snd n)) (fun i => d i - nth i c 0) * comb (fst n) (qv (snd n)) (fun i => d i - nth i c 0))) (nodes els)) by (apply total_nonneg; intros n I; apply Rmult_le_pos; [apply Rlt_le, W, I|apply sq_pos]).
  lra.
Qed.
(** a combination with vanishing product with itself vanishes *)
Lemma zero_ok n els e : weights_pos els -> sees_all n els -> lhsE els e e = 0 -> forall i, (i < n)%nat -> e i = 0.
Proof.
  intros W V Z. apply V. intros k I. unfold lhsE in Z.
  assert (Q : qw (snd k) * (comb (fst k) (qv (snd k)) e * comb (fst k) (qv (snd k)) e) = 0).
  { apply (total_pos_zero (fun n => qw (snd n) * (comb (fst n) (qv (snd n)) e * comb (fst n) (qv (snd n)) e)) (nodes els)); [|exact Z|exact I]. intros j J. apply Rmult_le_pos; [apply Rlt_le, W, J|apply sq_pos]. }
  pose proof (W k I). apply Rmult_integral in Q as [Q|Q]; [lra|]. apply Rmult_integral in Q as [Q|Q]; exact Q.
Qed.
Lemma lhs_sub els a b d : lhsE els (fun i => a i - b i) d = lhsE els a d - lhsE els b d.
Proof. unfold lhsE. rewrite <- total_sub. apply total_ext. intros n _. rewrite comb_sub. ring. Qed.
Lemma exact_ok n els g c d : weights_pos els -> sees_all n els -> length c = n -> (forall d, lhsE els (fun i => nth i c 0) d = rhsE els g d) -> is_spline els g d -> coefs_are n c d.
Proof.
  intros W V L P S. split; [exact L|]. intros i Li. assert (Z : nth i c 0 - d i = 0); [|lra]. apply (zero_ok n els (fun i => nth i c 0 - d i) W V); [|exact Li].
  rewrite lhs_sub, P. unfold rhsE, lhsE. rewrite <- total_sub. rewrite (total_ext _ (fun _ => 0)); [apply total_zero|]. intros k I. rewrite (S k I). ring.
Qed.

Theorem one_pf : forall n els f g, acts_ok n els -> free_solver solver n els -> weights_pos els -> has_values els f g ->
  exists c, projectOne solver n els f = Ok c /\ length c = n /\ closest els g c /\ forall d, sees_all n els -> is_spline els g d -> coefs_are n c d.
Proof.
  intros n els f g A SG W F. destruct (mass_ok n els A) as (X & EX). destruct (fun_ok n els X f g A SG EX F) as (c & E & L & P). exists c. unfold projectOne. rewrite EX. cbn [bind]. split; [exact E|]. split; [exact L|]. split; [now apply closest_ok|]. intros d V S. now apply (exact_ok n els g).
Qed.
Lemma comb_lin act v x y a b : comb act v (fun i => x * a i + y * b i) = x * comb act v a + y * comb act v b.
Proof. unfold comb. rewrite <- !sumTo_scal, <- sumTo_add. apply sumTo_ext. intros. ring. Qed.
Theorem linear_pf : forall n els f1 f2 f3 g1 g2 x y c1 c2 c3, acts_ok n els -> free_solver solver n els -> weights_pos els -> sees_all n els ->
  has_values els f1 g1 -> has_values els f2 g2 -> has_values els f3 (fun p => x * g1 p + y * g2 p) ->
  projectOne solver n els f1 = Ok c1 -> projectOne solver n els f2 = Ok c2 -> projectOne solver n els f3 = Ok c3 -> forall i, (i < n)%nat -> nth i c3 0 = x * nth i c1 0 + y * nth i c2 0.
Proof.
  intros n els f1 f2 f3 g1 g2 x y c1 c2 c3 A SG W V F1 F2 F3. unfold projectOne. destruct (mass_ok n els A) as (X & EX). rewrite EX. cbn [bind].
  destruct (fun_ok n els X f1 _ A SG EX F1) as (a1 & E1 & _ & P1). destruct (fun_ok n els X f2 _ A SG EX F2) as (a2 & E2 & _ & P2). destruct (fun_ok n els X f3 _ A SG EX F3) as (a3 & E3 & _ & P3).
  rewrite E1, E2, E3. intros H1 H2 H3. injection H1 as <-. injection H2 as <-. injection H3 as <-. intros i Li.
  assert (Z : nth i a3 0 - (x * nth i a1 0 + y * nth i a2 0) = 0); [|lra]. apply (zero_ok n els (fun i => nth i a3 0 - (x * nth i a1 0 + y * nth i a2 0)) W V); [|exact Li].
  set (e := fun j => nth j a3 0 - (x * nth j a1 0 + y * nth j a2 0)). rewrite (lhs_sub els (fun j => nth j a3 0) (fun j => x * nth j a1 0 + y * nth j a2 0)), P3. fold e.
  assert (Q : lhsE els (fun j => x * nth j a1 0 + y * nth j a2 0) e = x * rhsE els g1 e + y * rhsE els g2 e).
  { rewrite <- P1, <- P2. unfold lhsE. rewrite <- !total_scal, <- total_add. apply total_ext. intros k _. rewrite comb_lin. ring. }
  rewrite Q. unfold rhsE. rewrite <- !total_scal, <- total_add, <- total_sub. rewrite (total_ext _ (fun _ => 0)); [apply total_zero|]. intros. ring.
Qed.

Lemma vset_some {A} (l : list A) i a : (i < length l)%nat -> exists l', vset l i a = Ok l' /\ length l' = length l /\ nth_error l' i = Some a /\ forall k, k <> i -> nth_error l' k = nth_error l k.
Proof.
  intros L. unfold vset. rewrite (proj2 (Nat.ltb_lt _ _) L). exists (upd l i a). split; [reflexivity|]. revert i L. induction l as [|y l IH]; intros i L; [cbn in L; lia|].
  destruct i as [|i]; cbn; [split; [reflexivity|]; split; [reflexivity|]; intros [|k] K; [congruence|reflexivity]|]. cbn in L. destruct (IH i ltac:(lia)) as (L1 & L2 & L3). split; [lia|]. split; [exact L2|]. intros [|k] K; [reflexivity|]. cbn. apply L3. congruence.
Qed.
Theorem gluing_pf : forall n els alpha beta ga gb dir As Bs, acts_ok n els -> free_solver solver n els -> weights_pos els -> has_values els alpha ga -> has_values els beta gb ->
  (dir < length As)%nat -> (dir < length Bs)%nat ->
  exists As' Bs' a b, setGluingData solver n els alpha beta dir (As, Bs) = Ok (As', Bs') /\ length As' = length As /\ length Bs' = length Bs /\
    nth_error As' dir = Some a /\ nth_error Bs' dir = Some b /\ (forall k, k <> dir -> nth_error As' k = nth_error As k /\ nth_error Bs' k = nth_error Bs k) /\
    length a = n /\ length b = n /\ closest els ga a /\ closest els gb b /\
    (sees_all n els -> (forall d, is_spline els ga d -> coefs_are n a d) /\ (forall d, is_spline els gb d -> coefs_are n b d)).
Proof.
  intros n els alpha beta ga gb dir As Bs A SG W FA FB LA LB. destruct (one_pf n els alpha ga A SG W FA) as (a & EA & NA & CA & XA). destruct (one_pf n els beta gb A SG W FB) as (b & EB & NB & CB & XB).
  destruct (vset_some As dir a LA) as (As' & VA & L1 & I1 & K1). destruct (vset_some Bs dir b LB) as (Bs' & VB & L2 & I2 & K2).
  exists As', Bs', a, b. unfold setGluingData. cbn [fst snd]. rewrite EA. cbn [bind]. rewrite VA. cbn [bind]. rewrite EB. cbn [bind]. rewrite VB. cbn [bind].
  split; [reflexivity|]. split; [exact L1|]. split; [exact L2|]. split; [exact I1|]. split; [exact I2|]. split; [intros k K; split; [apply K1, K|apply K2, K]|]. split; [exact NA|]. split; [exact NB|]. split; [exact CA|]. split; [exact CB|].
  intros V. split; intros d S; [now apply XA|now apply XB].
Qed.
Theorem vertex_pf : forall n els fs gs, acts_ok n els -> free_solver solver n els -> weights_pos els -> (forall j, (j < 6)%nat -> has_values els (fs j) (gs j)) ->
  exists cs, vertexFunctions solver n els fs = Ok cs /\ length cs = 6%nat /\ forall j, (j < 6)%nat -> exists c, nth_error cs j = Some c /\ length c = n /\ closest els (gs j) c /\
    projectOne solver n els (fs j) = Ok c /\ forall d, sees_all n els -> is_spline els (gs j) d -> coefs_are n c d.
Proof.
  intros n els fs gs A SG W F. unfold vertexFunctions. destruct (mass_ok n els A) as (X & EX). rewrite EX. cbn [bind].
  destruct (mapM_ok_all (fun bfID => edgeFunction solver (freeMapper n) X els (fs bfID)) (fun j c => length c = n /\ closest els (gs j) c /\ projectOne solver n els (fs j) = Ok c /\ forall d, sees_all n els -> is_spline els (gs j) d -> coefs_are n c d) (seq 0 6)) as (cs & E & L & P).
  { intros k x H. apply nth_seq in H. destruct H as (-> & K). destruct (one_pf n els (fs k) (gs k) A SG W (F k K)) as (c & E & R1 & R2 & R3). exists c. unfold projectOne in E |- *. rewrite EX in E |- *. cbn [bind] in E |- *. split; [exact E|]. auto. }
  exists cs. rewrite seq_length in L. split; [exact E|]. split; [exact L|]. intros j J. destruct (nth_error cs j) as [c|] eqn:N; [|apply nth_error_None in N; lia]. exists c. split; [reflexivity|]. exact (P j c N).
Qed.
End Solver.
