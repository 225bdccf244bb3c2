(** Proofs for C73: the whole computation. *)
From Coq Require Import Reals Qreals Lra.
From Verif Require Import Common TopoModel BaseModel BaseModel2 IndexSpec TopoSpec SmoothSpec SmoothSpec2 RingModel RingSpec DpModel DpSpec
  IndexProofs IndexTopoProofs ListLemmas TopoProofs PointProofs MapperProofs CountProofs MatrixProofs HandlerProofs ResultProofs GeometryProofs
  RingProofs RingProofs2 RingProofs3 DpProofs DpProofs2 DpProofs3 DpProofs4 PiModel PiSpec PiProofs EvModel EvSpec EvProofs3 DpEvModel DpEvSpec DpEvProofs.
From Verif Require EvProofs2 AcProofs7.
From Coq Require Import ZifyBool.
Open Scope nat_scope.

Lemma check_ok nr nc A : (forall c, c < nc -> colSum nr A c = 1%R) -> checkMatrix nr nc A = true.
Proof.
  intros H. apply forallb_forall. intros c Hc. apply in_seq in Hc. specialize (H c ltac:(lia)). unfold colSum in H. cbv zeta. rewrite H.
  assert (P : (0 < 1 / 10 ^ 8)%R) by (apply Rdiv_lt_0_compat; [lra|apply pow_lt; lra]).
  destruct (Rlt_dec (1 - 1) (1 / 10 ^ 8)); [|exfalso; lra]. destruct (Rlt_dec (- (1 / 10 ^ 8)) (1 - 1)); [reflexivity|exfalso; lra].
Qed.

Section Whole.
Context (I : dinput) (DP : dp_input I).
Notation t := (ritopo (dring I)).
Notation np := (length (ribases (dring I))).
Notation oc := (column_of (ribases (dring I))).
Let RI := dp_ring I DP.
Let RM := dp_rows I DP.
Let SU := dp_supported I DP.
Let Hc : consistent t := ri_topo _ RI.
Let Hnp : tnp t = np := ri_np _ RI.

Lemma result_ex : exists D, dCompute I = Ok D.
Proof. destruct (matrix_thm I RI RM SU) as (D & E & _). now exists D. Qed.
Lemma coarse_sums D k : dCompute I = Ok D -> k < drCols D -> colSum (drRows D) (fun r c => Q2R (dentry D r c)) k = 1%R.
Proof.
  intros E K. unfold colSum. rewrite (AcProofs7.rsum_Q (drRows D) (fun r => dentry D r k)), (Qeq_eqR _ _ (proj1 (unity_thm I RI RM SU D k E K))). unfold Q2R. cbn. lra.
Qed.

Section Ev.
Context (EM : ends_matched I) (D : dresult) (ED : dCompute I = Ok D) (evs : list (list pcorner)) (VT : vertices t evs).

Definition row_at (c : pcorner) (a b : nat) : nat :=
  match cindex (drMap D) (function_at (basis_at I (fst c)) (snd c) a b) (fst c) with Ok r => r | Err => 0 end.
Lemma rows_exist : rows_of I D evs row_at.
Proof.
  intros c a b Ic H. apply in_concat in Ic. destruct Ic as (l & Il & Ic). destruct (vt_vertex t evs VT l Il) as (c0 & L0 & EL & IN0).
  destruct (own_fun I DP EM D ED c0 L0 l EL IN0 c a b Ic H) as (r & E & _). unfold row_at. now rewrite E.
Qed.

Context (fine : list rbasis) (LF : length fine = np) (SP : forall b, In b fine -> separated b).
Context (opt : Z) (beta : R) (level : nat) (rw : pcorner -> nat -> nat -> nat) (RW : rows_of I D evs rw).
Lemma in_np l c : In l evs -> In c l -> fst c < np.
Proof. intros Il Ic. destruct (vt_vertex t evs VT l Il) as (c0 & L0 & EL & IN0). exact (l_np I DP c0 L0 l EL c Ic). Qed.
Lemma in_np' c : In c (concat evs) -> fst c < np.
Proof. intros Ic. apply in_concat in Ic. destruct Ic as (l & Il & Ic). now apply (in_np l). Qed.
Lemma fine_numbering : numbering (dEv I fine (drMap D) opt beta level) evs (column_of fine) rw.
Proof.
  constructor.
  - intros l c s k o Il Ic ON K O'. pose proof (in_np l c Il Ic) as L. rewrite <- LF in L. pose proof (sep_at fine SP _ L) as S'. cbn [ev_ix ev_mo dEv].
    exists (rifv (nth (fst c) fine nobasis) k (snd c) s o). split.
    + unfold vget. rewrite (nth_error_nth' fine nobasis L). reflexivity.
    + pose proof (sp_range _ S' k (snd c) s o ON K O') as X. pose proof (fine_index fine (fst c) _ L X) as E. rewrite along_column; [|exact (sp_swap _ S')|exact ON|exact K|exact O'].
      assert (FR : cis_free (cmap_of (map rsize fine)) (rifv (nth (fst c) fine nobasis) k (snd c) s o) (fst c) = true) by reflexivity. rewrite FR. cbn [ensure bind]. exact E.
  - intros l c s k Il Ic ON K. pose proof (in_np l c Il Ic) as L. destruct (vt_vertex t evs VT l Il) as (c0 & L0 & EL & IN0). cbn [ev_ix0 ev_mm dEv].
    exists (rifv (basis_at I (fst c)) k (snd c) s 1). split; [unfold rbasisOf, vget; rewrite (nth_error_nth' _ nobasis L); reflexivity|].
    rewrite <- (fun_side (basis_at I (fst c)) (swap_at I DP _ L) (snd c) s k 1 ON) by lia. unfold EvSpec.along.
    assert (IC : In c (concat evs)) by (apply in_concat; now exists l).
    assert (G : forall a b, (a = 1 /\ b = 1) \/ (a = 1 /\ b = 2) \/ (a = 2 /\ b = 1) -> (do _ <- ensure (cis_free (drMap D) (function_at (basis_at I (fst c)) (snd c) a b) (fst c)); cindex (drMap D) (function_at (basis_at I (fst c)) (snd c) a b) (fst c)) = Ok (rw c a b)).
    { intros a b H. rewrite (RW c a b IC H). pose proof (own_fun I DP EM D ED c0 L0 l EL IN0 c a b Ic H) as O'. destruct (own_valid I DP D ED _ _ O') as (_ & _ & _ & ->). reflexivity. }
    destruct (side_dir s); destruct K as [-> | ->]; apply G; auto.
  - intros c c' a b a' b' Ic Ic' NR NR' E. apply in_np' in Ic, Ic'. rewrite <- LF in Ic, Ic'. exact (column_inj fine SP c c' a b a' b' Ic Ic' NR NR' E).
Qed.
Lemma coarse_others l : In l evs -> others_ok t oc rw l (fun r c => Q2R (dentry D r c)).
Proof.
  intros Il. destruct (vt_vertex t evs VT l Il) as (c0 & L0 & EL & IN0). apply (others_coarse I DP EM D ED c0 L0 l EL IN0 rw). intros c a b Ic. apply RW. apply in_concat. now exists l.
Qed.
End Ev.

Theorem vertices_thm D fine T evs opt beta level tau rw : ends_matched I -> length fine = np -> (forall b, In b fine -> separated b) ->
  vertices t evs -> evs <> [] -> (opt = 0 \/ opt = 1)%Z -> insertion tau ->
  transfer (drCols D) T evs (column_of fine) oc tau -> (forall c, c < sumN (map rsize fine) -> rsum (drCols D) (T c) = 1%R) ->
  dCompute I = Ok D -> rows_of I D evs rw ->
  exists A', dPatch I fine T evs opt beta level = Ok (drRows D, sumN (map rsize fine), A') /\
    (forall c, c < sumN (map rsize fine) -> colSum (drRows D) A' c = 1%R) /\
    (forall l, In l evs -> exists cs Pi, ring t l cs /\ makePi opt beta level (length l) = Ok Pi /\
      (forall r, dpatch_at t (column_of fine) beta level cs A' r) /\
      (forall r x, x < 3 * length l -> A' r (starCol (column_of fine) cs x) = papply (3 * length l) Pi (fun y => refined (drCols D) (fun r c => Q2R (dentry D r c)) T r (starCol (column_of fine) cs y)) x)) /\
    (forall r x, (forall l, In l evs -> ~ involved rw l r) \/ ~ written evs (column_of fine) x -> A' r x = refined (drCols D) (fun r c => Q2R (dentry D r c)) T r x).
Proof.
  intros EM LF SP VT NE OP IT TR TS ED RW. set (A := fun r c => Q2R (dentry D r c)). set (E := dEv I fine (drMap D) opt beta level).
  assert (NB : numbering E evs (column_of fine) rw) by (now apply fine_numbering).
  assert (OT : forall l, In l evs -> others_ok t (column_of fine) rw l (refined (drCols D) A T)).
  { apply (refined_pf t evs (column_of fine) oc rw tau (drCols D) A T VT IT TR). intros l Il. exact (coarse_others EM D ED evs VT rw RW l Il). }
  destruct (vertices_pf E evs (column_of fine) rw (drCols D) A T VT NB NE OP OT) as (A' & EA & H1 & H2).
  assert (CS : forall c, c < sumN (map rsize fine) -> colSum (drRows D) A' c = 1%R).
  { apply (unity_pf E evs (column_of fine) rw (drCols D) (drRows D) (sumN (map rsize fine)) A T A' VT NB NE OP OT); try assumption.
    - intros c a b Ic NR. apply column_lt; [exact SP|rewrite LF; now apply (in_np' evs VT)|exact NR].
    - intros k Hk. now apply coarse_sums. }
  exists A'. split; [|split; [exact CS|split; [exact H1|exact H2]]].
  unfold dPatch. rewrite ED. cbn [bind]. change (fun r c => Q2R (dentry D r c)) with A. rewrite (check_ok (drRows D) (drCols D) A) by (intros; now apply coarse_sums). cbn [ensure bind].
  change (dEv I fine (drMap D) opt beta level) with E. rewrite EA. cbn [bind]. destruct evs as [|l evs']; [congruence|]. rewrite (check_ok _ _ A' CS). reflexivity.
Qed.

Theorem none_thm fine T opt beta level : exists D A', dCompute I = Ok D /\
  dPatch I fine T [] opt beta level = Ok (drRows D, drCols D, A') /\ forall r c, A' r c = Q2R (dentry D r c).
Proof.
  destruct result_ex as (D & ED). exists D. unfold dPatch. rewrite ED. cbn [bind]. rewrite check_ok by (intros; now apply coarse_sums). cbn [ensure bind].
  cbn [computeEVs bind]. eexists. split; [reflexivity|]. rewrite check_ok by (intros; now apply coarse_sums). split; [reflexivity|]. reflexivity.
Qed.
End Whole.

Lemma check_iff nr nc A : checkMatrix nr nc A = true <-> forall c, c < nc -> (Rabs (colSum nr A c - 1) < 1 / 10 ^ 8)%R.
Proof.
  unfold checkMatrix. rewrite forallb_forall. split.
  - intros H c L. specialize (H c ltac:(apply in_seq; lia)). cbv beta zeta in H. change (rsum nr (fun r => A r c)) with (colSum nr A c) in H. apply Rabs_def1; [destruct (Rlt_dec (colSum nr A c - 1) (1 / 10 ^ 8))|destruct (Rlt_dec (- (1 / 10 ^ 8)) (colSum nr A c - 1))]; try assumption; try discriminate H. rewrite andb_false_r in H. discriminate H.
  - intros H c Ic. apply in_seq in Ic. specialize (H c ltac:(lia)). apply Rabs_def2 in H. cbv zeta. change (rsum nr (fun r => A r c)) with (colSum nr A c).
    destruct (Rlt_dec (colSum nr A c - 1) (1 / 10 ^ 8)); [|exfalso; lra]. destruct (Rlt_dec (- (1 / 10 ^ 8)) (colSum nr A c - 1)); [reflexivity|exfalso; lra].
Qed.
Theorem checked_thm I fine T evs opt beta level nr nc A' : dPatch I fine T evs opt beta level = Ok (nr, nc, A') ->
  (forall c, c < nc -> (Rabs (colSum nr A' c - 1) < 1 / 10 ^ 8)%R) /\
  exists D, dCompute I = Ok D /\ nr = drRows D /\ forall c, c < drCols D -> (Rabs (colSum nr (fun r c => Q2R (dentry D r c)) c - 1) < 1 / 10 ^ 8)%R.
Proof.
  unfold dPatch. destruct (dCompute I) as [D|] eqn:ED; [|discriminate]. cbn [bind]. destruct (checkMatrix (drRows D) (drCols D) _) eqn:C1; [|discriminate]. cbn [ensure bind].
  destruct (computeEVs _ _ _ _ _) as [B|]; [|discriminate]. cbn [bind]. destruct (checkMatrix (drRows D) _ B) eqn:C2; [|discriminate]. cbn [ensure bind]. intros [= <- <- <-].
  split; [now apply check_iff|]. exists D. split; [reflexivity|]. split; [reflexivity|]. now apply check_iff.
Qed.
