(** Proofs for C83. *)
From Coq Require Import Reals Lra ZifyBool.
From Verif Require Import Common SplineModel GluingModel SurfGDSpec SurfGDProofs KernProofs KernProofs2 ListLemmas AsmModel AsmSpec AsmProofs AsmProofs2 BihModel BihSpec BihProofs BihProofs2 EdgeModel EdgeSpec.
Open Scope R_scope.

(** ** The mapper *)
Lemma offset_range nu nv dir i x : (i < across nu nv dir)%nat -> In x (offsetFns nu nv dir i) -> (x < nu * nv)%nat /\ layer nu dir x = i.
Proof.
  unfold offsetFns, across, layer. destruct dir; intros L I; apply in_map_iff in I; destruct I as (y & <- & I); apply in_seq in I.
  - split; [nia|]. rewrite Nat.mul_comm, Nat.div_add by lia. rewrite Nat.div_small; lia.
  - split; [nia|]. rewrite Nat.mul_comm, Nat.mod_add by lia. apply Nat.mod_small. lia.
Qed.
Lemma offset_has nu nv dir x : (x < nu * nv)%nat -> (layer nu dir x < across nu nv dir)%nat /\ In x (offsetFns nu nv dir (layer nu dir x)).
Proof.
  intros L. assert (N : nu <> 0%nat) by lia. pose proof (Nat.div_mod x nu N) as D. pose proof (Nat.mod_upper_bound x nu N) as M. assert (Q : (x / nu < nv)%nat) by (apply Nat.div_lt_upper_bound; lia).
  unfold offsetFns, across, layer. destruct dir; (split; [assumption|]); apply in_map_iff; [exists (x mod nu)%nat|exists (x / nu)%nat]; (split; [lia|apply in_seq; lia]).
Qed.
Theorem free_pf : forall nu nv dir, exists m, edgeMapper nu nv dir = Ok m /\ msize m = (nu * nv)%nat /\ forall i, (i < nu * nv)%nat -> (mfixed m i = false <-> (layer nu dir i < 2)%nat).
Proof.
  intros nu nv dir. unfold edgeMapper. destruct (marks_ok (map (offsetFns nu nv dir) (seq 2 (across nu nv dir - 2))) (mkMap (nu * nv) (fun _ => false))) as (m & E & S & F).
  - intros l i I J. apply in_map_iff in I. destruct I as (k & <- & I). apply in_seq in I. cbn [msize]. apply (offset_range nu nv dir k i); [lia|exact J].
  - exists m. split; [exact E|]. split; [exact S|]. intros i L. rewrite F. cbn [mfixed orb]. destruct (offset_has nu nv dir i L) as (A & B). split.
    + intros H. destruct (lt_dec (layer nu dir i) 2) as [G|G]; [exact G|]. exfalso. apply Bool.not_true_iff_false in H. apply H. apply existsb_exists. exists (offsetFns nu nv dir (layer nu dir i)). split.
      * apply in_map. apply in_seq. lia.
      * apply existsb_exists. exists i. split; [exact B|apply Nat.eqb_refl].
    + intros G. apply Bool.not_true_iff_false. intros H. apply existsb_exists in H. destruct H as (l & I & J). apply in_map_iff in I. destruct I as (k & <- & I). apply in_seq in I.
      apply existsb_exists in J. destruct J as (j & J & Q). apply Nat.eqb_eq in Q. subst j. destruct (offset_range nu nv dir k i ltac:(lia) J) as (_ & Y). lia.
Qed.

(** ** One function *)
Definition loadE (g : R * R -> R) (e : qelem) : kelem := mkKE (fst e) (map (fun k => mkKN (qw k) (qv k) (qv k) (g (qx k))) (snd e)).
Lemma mapM_map {A B} (f : A -> res B) (g : A -> B) l : (forall x, In x l -> f x = Ok (g x)) -> mapM f l = Ok (map g l).
Proof. induction l as [|a l IH]; intros H; [reflexivity|]. cbn [mapM map]. rewrite (H a (or_introl eq_refl)). cbn [bind]. rewrite IH; [reflexivity|]. intros x I. apply H. now right. Qed.
Lemma in_nodes {A} (els : list (list nat * list A)) e k : In e els -> In k (snd e) -> In (fst e, k) (nodes els).
Proof. intros I K. unfold nodes. apply in_flat_map. exists e. split; [exact I|]. apply in_map_iff. exists k. auto. Qed.
Lemma load_ok f g els : (forall n, In n (nodes els) -> f (qx (snd n)) = Ok (g (qx (snd n)))) -> mapM (loadElem f) els = Ok (map (loadE g) els).
Proof.
  intros H. apply mapM_map. intros e I. unfold loadElem. rewrite (mapM_map _ (fun k => mkKN (qw k) (qv k) (qv k) (g (qx k)))); [reflexivity|].
  intros k K. pose proof (H (fst e, k) (in_nodes els e k I K)) as Q. cbn [snd] in Q. rewrite Q. reflexivity.
Qed.

Definition lhsE (els : list qelem) (c d : nat -> R) : R := total (fun n => qw (snd n) * (comb (fst n) (qv (snd n)) c * comb (fst n) (qv (snd n)) d)) (nodes els).
Definition rhsE (els : list qelem) (g : R * R -> R) (d : nat -> R) : R := total (fun n => qw (snd n) * (comb (fst n) (qv (snd n)) d * g (qx (snd n)))) (nodes els).
Definition jobsE (els : list qelem) (g : R * R -> R) : list job := map (fun e => JMat (massElem e)) els ++ map (fun e => JRhs (loadE g e)) els.
Lemma lhs_E els g c d : lhs (jobsE els g) c d = lhsE els c d.
Proof.
  unfold lhs, lhsE, jobsM, jobsE. rewrite flat_map_app, !flat_map_map, flat_nil, app_nil_r.
  rewrite (total_elems massElem (fun k => mkKN (qw k) (qv k) (qv k) 0) _ els) by reflexivity. reflexivity.
Qed.
Lemma rhs_E els g d : rhs (jobsE els g) d = rhsE els g d.
Proof.
  unfold rhs, rhsE, jobsR, jobsE. rewrite flat_map_app, !flat_map_map, flat_nil. cbn [app].
  rewrite (total_elems (loadE g) (fun k => mkKN (qw k) (qv k) (qv k) (g (qx k))) _ els) by reflexivity. reflexivity.
Qed.

Lemma function_ok solver m els X f g : acts_ok (msize m) els -> assembleJobs m (fun _ => 0) (map (fun e => JMat (massElem e)) els) = Ok X ->
  (forall b, solves (mfree m) (smat X) b (solver (mfree m) (smat X) b)) -> (forall n, In n (nodes els) -> f (qx (snd n)) = Ok (g (qx (snd n)))) ->
  exists c, edgeFunction solver m X els f = Ok c /\ length c = msize m /\ (forall i, (i < msize m)%nat -> mfixed m i = true -> nth i c 0 = 0) /\
    forall d, (forall i, (i < msize m)%nat -> mfixed m i = true -> d i = 0) -> lhsE els (fun i => nth i c 0) d = rhsE els g d.
Proof.
  intros A EX SG F. unfold edgeFunction. rewrite (load_ok f g els F). cbn [bind].
  assert (OM : jobs_ok (msize m) (map (fun e => JMat (massElem e)) els)) by (intros j a I J; apply in_map_iff in I; destruct I as (e & <- & I); exact (A e a I J)).
  assert (OR : jobs_ok (msize m) (map JRhs (map (loadE g) els))) by (intros j a I J; rewrite map_map in I; apply in_map_iff in I; destruct I as (e & <- & I); exact (A e a I J)).
  destruct (run_jobs m (fun _ => 0) _ OM) as (X' & EX' & D1 & D2). rewrite EX in EX'. injection EX' as <-.
  destruct (run_jobs m (fun _ => 0) _ OR) as (Y & EY & D3 & D4). rewrite EY. cbn [bind].
  set (y := solver (mfree m) (smat X) (srhs Y)). destruct (construct_ok m y) as (c & EC & LC & PC). exists c. split; [exact EC|]. split; [exact LC|].
  split; [intros i L Fi; rewrite (PC i L); unfold coef; now rewrite Fi|].
  assert (J : jobs_ok (msize m) (jobsE els g)) by (intros j a I; unfold jobsE in I; apply in_app_or in I; destruct I as [I|I]; [apply (OM j a I)|apply (OR j a); rewrite map_map; exact I]).
  assert (Z : forall act v, comb act v (fixv m (fun _ => 0)) = 0) by (intros act v; unfold comb; apply sumTo_zero; intros p _; unfold fixv; destruct (mfixed m _); ring).
  assert (D : descr m (fun _ => 0) (jobsE els g) (mkSys (smat X) (srhs Y))).
  { unfold descr, jobsE, jobsM, jobsR. cbn [smat srhs]. rewrite !flat_map_app, !flat_map_map, !flat_nil. cbn [app]. rewrite app_nil_r. split.
    - intros k. rewrite D3. unfold jobsM, jobsR. rewrite !flat_map_map, flat_nil. cbn [total map fold_right].
      rewrite (total_ext (fun n => kw (snd n) * (gv m k (fst n) (kD (snd n)) * comb (fst n) (kD (snd n)) (fixv m (fun _ => 0)))) (fun _ => 0)) by (intros n _; rewrite Z; ring). rewrite total_zero. unfold total. cbn. ring.
    - intros k h. rewrite D2. unfold jobsM. rewrite flat_map_map. reflexivity. }
  intros d OD. rewrite <- (lhs_E els g), <- rhs_E. apply (equation_all m); [exact J| |exact OD].
  intros i Fi. apply (equation m (fun _ => 0) _ (mkSys (smat X) (srhs Y)) y); [exact J|exact D|apply SG| |exact Fi].
  intros j Lj. rewrite (PC j Lj). unfold fixv. destruct (mfixed m j); ring.
Qed.

(** ** All functions *)
Lemma nth_seq a n k x : nth_error (seq a n) k = Some x -> x = (a + k)%nat /\ (k < n)%nat.
Proof.
  intros H. assert (L : (k < n)%nat) by (rewrite <- (seq_length n a); apply nth_error_Some; congruence). split; [|exact L].
  apply (nth_error_nth _ _ 0%nat) in H. rewrite seq_nth in H by exact L. lia.
Qed.
Lemma all_ok solver nu nv dir els comp bp bm alpha beta bdy : acts_ok (nu * nv) els -> edge_solver solver nu nv dir els ->
  (forall k n, (k < how_many bp bm)%nat -> In n (nodes els) -> exists y, target comp bp bm alpha beta bdy dir k (qx (snd n)) = Ok y) ->
  exists cs, edgeFunctionsOf solver nu nv dir els comp bp bm alpha beta bdy = Ok cs /\ length cs = how_many bp bm /\
    forall k, (k < how_many bp bm)%nat -> exists c, nth_error cs k = Some c /\ length c = (nu * nv)%nat /\ (forall i, (i < nu * nv)%nat -> (2 <= layer nu dir i)%nat -> nth i c 0 = 0) /\
      forall g, (forall n, In n (nodes els) -> target comp bp bm alpha beta bdy dir k (qx (snd n)) = Ok (g (qx (snd n)))) -> forall d, two_layers nu dir d -> lhsE els (fun i => nth i c 0) d = rhsE els g d.
Proof.
  intros A SG T. destruct (free_pf nu nv dir) as (m & EM & SM & FM). unfold edgeFunctionsOf. rewrite EM. cbn [bind]. rewrite <- SM in A.
  assert (OM : jobs_ok (msize m) (map (fun e => JMat (massElem e)) els)) by (intros j a I J; apply in_map_iff in I; destruct I as (e & <- & I); exact (A e a I J)).
  destruct (run_jobs m (fun _ => 0) _ OM) as (X & EX & _). rewrite EX. cbn [bind]. pose proof (SG m X EM EX) as SX.
  assert (ONE : forall k, (k < how_many bp bm)%nat -> exists c, edgeFunction solver m X els (target comp bp bm alpha beta bdy dir k) = Ok c /\ length c = (nu * nv)%nat /\ (forall i, (i < nu * nv)%nat -> (2 <= layer nu dir i)%nat -> nth i c 0 = 0) /\
    forall g, (forall n, In n (nodes els) -> target comp bp bm alpha beta bdy dir k (qx (snd n)) = Ok (g (qx (snd n)))) -> forall d, two_layers nu dir d -> lhsE els (fun i => nth i c 0) d = rhsE els g d).
  { intros k K. set (f := target comp bp bm alpha beta bdy dir k). set (g0 := fun x => match f x with Ok y => y | Err => 0 end).
    assert (G0 : forall n, In n (nodes els) -> f (qx (snd n)) = Ok (g0 (qx (snd n)))) by (intros n I; destruct (T k n K I) as (y & Y); unfold g0; fold f in Y; now rewrite Y).
    destruct (function_ok solver m els X f g0 A EX SX G0) as (c & E & L & Z & P). exists c. split; [exact E|]. split; [congruence|].
    assert (FX : forall i, (i < nu * nv)%nat -> mfixed m i = true -> (2 <= layer nu dir i)%nat). { intros i Li Fi. destruct (le_lt_dec 2 (layer nu dir i)) as [B|B]; [exact B|]. apply (FM i Li) in B. congruence. }
    split; [intros i Li B; apply Z; [lia|]; destruct (mfixed m i) eqn:Q; [reflexivity|apply (FM i Li) in Q; lia]|].
    intros g G d OD. rewrite P by (intros i Li Fi; apply OD, FX; [lia|exact Fi]). unfold rhsE. apply total_ext. intros n I. specialize (G0 n I). specialize (G n I). rewrite G in G0. injection G0 as ->. reflexivity. }
  set (P := fun k c => length c = (nu * nv)%nat /\ (forall i, (i < nu * nv)%nat -> (2 <= layer nu dir i)%nat -> nth i c 0 = 0) /\
    forall g, (forall n, In n (nodes els) -> target comp bp bm alpha beta bdy dir k (qx (snd n)) = Ok (g (qx (snd n)))) -> forall d, two_layers nu dir d -> lhsE els (fun i => nth i c 0) d = rhsE els g d) in *.
  destruct (mapM_ok_all (fun i => edgeFunction solver m X els (traceEval comp bp beta bdy i dir)) P (seq 3 (bsize bp - 6))) as (a & EA & LA & PA).
  { intros k x H. apply nth_seq in H. destruct H as (-> & L). destruct (ONE k ltac:(unfold how_many; lia)) as (c & E & R). exists c. split; [|exact R].
    rewrite <- E. unfold edgeFunction. f_equal. f_equal. unfold loadElem, target. replace (k <? bsize bp - 6)%nat with true by lia. reflexivity. }
  destruct (mapM_ok_all (fun i => edgeFunction solver m X els (normalEval comp bm alpha bdy i dir)) (fun k => P ((bsize bp - 6) + k)%nat) (seq 2 (bsize bm - 4))) as (b & EB & LB & PB).
  { intros k x H. apply nth_seq in H. destruct H as (-> & L). destruct (ONE ((bsize bp - 6) + k)%nat ltac:(unfold how_many; lia)) as (c & E & R). exists c. split; [|exact R].
    rewrite <- E. unfold edgeFunction. f_equal. f_equal. unfold loadElem, target. replace (bsize bp - 6 + k <? bsize bp - 6)%nat with false by lia. replace (bsize bp - 6 + k - (bsize bp - 6))%nat with k by lia. reflexivity. }
  rewrite seq_length in LA, LB. rewrite EA. cbn [bind]. rewrite EB. cbn [bind]. exists (a ++ b). split; [reflexivity|]. split; [rewrite app_length, LA, LB; reflexivity|].
  intros k K. unfold how_many in K. destruct (lt_dec k (bsize bp - 6)) as [L|L].
  - destruct (nth_error a k) as [c|] eqn:N; [|apply nth_error_None in N; lia]. exists c. rewrite nth_error_app1 by lia. split; [exact N|exact (PA k c N)].
  - destruct (nth_error b (k - (bsize bp - 6))) as [c|] eqn:N; [|apply nth_error_None in N; lia]. exists c. rewrite nth_error_app2 by lia. rewrite LA. split; [exact N|].
    pose proof (PB _ c N) as Q. replace (bsize bp - 6 + (k - (bsize bp - 6)))%nat with k in Q by lia. exact Q.
Qed.
