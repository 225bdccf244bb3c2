(** Proofs for C82: data, numbers and assembly. *)
From Coq Require Import Reals Lra ZifyBool.
From Verif Require Import Common SurfGDSpec SurfGDProofs KernProofs KernProofs2 ListLemmas AsmModel AsmSpec AsmProofs AsmProofs2 BihModel BihSpec.
Open Scope R_scope.

(** ** The default data *)
Lemma d_cos x : derivable_pt_lim (fun t => cos (1 * PI * t)) x (- (PI * sin (1 * PI * x))).
Proof.
  replace (- (PI * sin (1 * PI * x))) with (- sin (1 * PI * x) * (1 * PI)) by ring.
  apply (derivable_pt_lim_comp (fun t => 1 * PI * t) cos x (1 * PI) (- sin (1 * PI * x))); [|apply derivable_pt_lim_cos].
  pose proof (derivable_pt_lim_scal id (1 * PI) x 1 (derivable_pt_lim_id x)) as H. rewrite Rmult_1_r in H. exact H.
Qed.
Lemma d_sin x : derivable_pt_lim (fun t => sin (1 * PI * t)) x (PI * cos (1 * PI * x)).
Proof.
  replace (PI * cos (1 * PI * x)) with (cos (1 * PI * x) * (1 * PI)) by ring.
  apply (derivable_pt_lim_comp (fun t => 1 * PI * t) sin x (1 * PI) (cos (1 * PI * x))); [|apply derivable_pt_lim_sin].
  pose proof (derivable_pt_lim_scal id (1 * PI) x 1 (derivable_pt_lim_id x)) as H. rewrite Rmult_1_r in H. exact H.
Qed.
(** a + b cos + c sin *)
Lemma d_trig a b c x : derivable_pt_lim (fun t => a + b * cos (1 * PI * t) + c * sin (1 * PI * t)) x (- (b * PI * sin (1 * PI * x)) + c * PI * cos (1 * PI * x)).
Proof.
  replace (- (b * PI * sin (1 * PI * x)) + c * PI * cos (1 * PI * x)) with ((0 + b * - (PI * sin (1 * PI * x))) + c * (PI * cos (1 * PI * x))) by ring.
  apply (derivable_pt_lim_plus (fun t => a + b * cos (1 * PI * t)) (fun t => c * sin (1 * PI * t))).
  - apply (derivable_pt_lim_plus (fun _ => a) (fun t => b * cos (1 * PI * t))); [apply derivable_pt_lim_const|].
    apply (derivable_pt_lim_scal (fun t => cos (1 * PI * t))), d_cos.
  - apply (derivable_pt_lim_scal (fun t => sin (1 * PI * t))), d_sin.
Qed.
Lemma d_ext f g x l l' : (forall t, f t = g t) -> l = l' -> derivable_pt_lim f x l -> derivable_pt_lim g x l'.
Proof. intros E -> H eps P. destruct (H eps P) as (d & D). exists d. intros h H0 Hd. rewrite <- !E. now apply D. Qed.

Theorem data_pf : d_x bihSol bihDx /\ d_y bihSol bihDy /\ laplacian bihSol bihLap /\ laplacian bihLap bihSource.
Proof.
  assert (DX : d_x bihSol bihDx).
  { intros x y. apply (d_ext (fun t => (- (cos (1 * PI * y) - 1)) + (cos (1 * PI * y) - 1) * cos (1 * PI * t) + 0 * sin (1 * PI * t)) _ x _ _) with (3 := d_trig _ _ _ x); [intros t; unfold bihSol; ring|unfold bihDx; ring]. }
  assert (DY : d_y bihSol bihDy).
  { intros x y. apply (d_ext (fun t => (- (cos (1 * PI * x) - 1)) + (cos (1 * PI * x) - 1) * cos (1 * PI * t) + 0 * sin (1 * PI * t)) _ y _ _) with (3 := d_trig _ _ _ y); [intros t; unfold bihSol; ring|unfold bihDy; ring]. }
  split; [exact DX|]. split; [exact DY|]. split.
  - exists bihDx, (fun x y => - PI * PI * (cos (1 * PI * y) - 1) * cos (1 * PI * x)), bihDy, (fun x y => - PI * PI * (cos (1 * PI * x) - 1) * cos (1 * PI * y)).
    split; [exact DX|]. split; [|split; [exact DY|split]].
    + intros x y. apply (d_ext (fun t => 0 + 0 * cos (1 * PI * t) + (- PI * (cos (1 * PI * y) - 1)) * sin (1 * PI * t)) _ x _ _) with (3 := d_trig _ _ _ x); [intros t; unfold bihDx|]; ring.
    + intros x y. apply (d_ext (fun t => 0 + 0 * cos (1 * PI * t) + (- PI * (cos (1 * PI * x) - 1)) * sin (1 * PI * t)) _ y _ _) with (3 := d_trig _ _ _ y); [intros t; unfold bihDy|]; ring.
    + intros x y. unfold bihLap. ring.
  - exists (fun x y => PI * PI * PI * (2 * cos (1 * PI * y) - 1) * sin (1 * PI * x)), (fun x y => PI * PI * PI * PI * (2 * cos (1 * PI * y) - 1) * cos (1 * PI * x)),
      (fun x y => PI * PI * PI * (2 * cos (1 * PI * x) - 1) * sin (1 * PI * y)), (fun x y => PI * PI * PI * PI * (2 * cos (1 * PI * x) - 1) * cos (1 * PI * y)).
    split; [|split; [|split; [|split]]].
    + intros x y. apply (d_ext (fun t => PI * PI * cos (1 * PI * y) + (- PI * PI * (2 * cos (1 * PI * y) - 1)) * cos (1 * PI * t) + 0 * sin (1 * PI * t)) _ x _ _) with (3 := d_trig _ _ _ x); [intros t; unfold bihLap|]; ring.
    + intros x y. apply (d_ext (fun t => 0 + 0 * cos (1 * PI * t) + PI * PI * PI * (2 * cos (1 * PI * y) - 1) * sin (1 * PI * t)) _ x _ _) with (3 := d_trig _ _ _ x); [intros t|]; ring.
    + intros x y. apply (d_ext (fun t => PI * PI * cos (1 * PI * x) + (- PI * PI * (2 * cos (1 * PI * x) - 1)) * cos (1 * PI * t) + 0 * sin (1 * PI * t)) _ y _ _) with (3 := d_trig _ _ _ y); [intros t; unfold bihLap|]; ring.
    + intros x y. apply (d_ext (fun t => 0 + 0 * cos (1 * PI * t) + PI * PI * PI * (2 * cos (1 * PI * x) - 1) * sin (1 * PI * t)) _ y _ _) with (3 := d_trig _ _ _ y); [intros t|]; ring.
    + intros x y. unfold bihSource. ring.
Qed.

(** every side on the boundary gets a Dirichlet condition and exactly one of the two others *)
Theorem conds_pf : forall (A : Type) second (sides : list A) s t, In (s, t) (bihConds second sides) <-> In s sides /\ (t = BDirichlet \/ t = if second then BLaplace else BNeumann).
Proof.
  intros A second sides s t. unfold bihConds. rewrite in_flat_map. split.
  - intros (s' & I & [E|[E|[]]]); injection E as -> <-; auto.
  - intros (I & [-> | ->]); exists s; (split; [exact I|]); [now left|right; now left].
Qed.

(** ** Numbers *)
Lemma mark_ok m l : (forall i, In i l -> (i < msize m)%nat) -> exists m', mark m l = Ok m' /\ msize m' = msize m /\ forall i, mfixed m' i = mfixed m i || existsb (Nat.eqb i) l.
Proof.
  unfold mark. revert m. induction l as [|a l IH]; intros m H.
  - exists m. split; [reflexivity|]. split; [reflexivity|]. intros i. cbn. now rewrite orb_false_r.
  - cbn [foldM]. replace (a <? msize m)%nat with true by (specialize (H a (or_introl eq_refl)); lia). cbn [bind].
    destruct (IH (mkMap (msize m) (fun j => (j =? a)%nat || mfixed m j))) as (m' & E & S & F); [intros i I; apply H; now right|]. exists m'. split; [exact E|]. split; [exact S|].
    intros i. rewrite F. cbn [mfixed existsb]. destruct (i =? a)%nat, (mfixed m i); reflexivity.
Qed.
Lemma mark_err m l i : In i l -> (msize m <= i)%nat -> mark m l = Err.
Proof.
  unfold mark. revert m. induction l as [|a l IH]; intros m H G; [destruct H|]. cbn [foldM]. destruct (Nat.ltb_spec a (msize m)) as [L|L]; [|reflexivity]. cbn [bind]. apply IH; [|exact G]. destruct H as [->|H]; [lia|exact H].
Qed.
Lemma mark_size m l m' : mark m l = Ok m' -> msize m' = msize m /\ forall i, In i l -> (i < msize m)%nat.
Proof.
  intros E. assert (H : forall i, In i l -> (i < msize m)%nat) by (intros i I; destruct (le_lt_dec (msize m) i) as [G|G]; [rewrite (mark_err m l i I G) in E; discriminate|exact G]).
  split; [|exact H]. destruct (mark_ok m l H) as (x & E' & S & _). rewrite E in E'. injection E' as <-. exact S.
Qed.
Lemma marks_ok ls m : (forall l i, In l ls -> In i l -> (i < msize m)%nat) -> exists m', foldM mark ls m = Ok m' /\ msize m' = msize m /\ forall i, mfixed m' i = mfixed m i || existsb (fun l => existsb (Nat.eqb i) l) ls.
Proof.
  revert m. induction ls as [|l ls IH]; intros m H.
  - exists m. split; [reflexivity|]. split; [reflexivity|]. intros i. cbn. now rewrite orb_false_r.
  - cbn [foldM]. destruct (mark_ok m l) as (m1 & E1 & S1 & F1); [intros i; apply H; now left|]. rewrite E1. cbn [bind].
    destruct (IH m1) as (m2 & E2 & S2 & F2); [intros l' i I J; rewrite S1; apply (H l' i); [now right|exact J]|]. exists m2. split; [exact E2|]. split; [congruence|]. intros i. rewrite F2, F1. cbn [existsb]. now rewrite orb_assoc.
Qed.
Lemma marks_range ls m m' : foldM mark ls m = Ok m' -> msize m' = msize m /\ forall l i, In l ls -> In i l -> (i < msize m)%nat.
Proof.
  revert m. induction ls as [|l ls IH]; intros m E; cbn [foldM] in E; [injection E as <-; split; [reflexivity|intros l i []]|].
  destruct (mark m l) as [m1|] eqn:E1; [|discriminate]. cbn [bind] in E. destruct (mark_size m l m1 E1) as (S1 & R1). destruct (IH m1 E) as (S2 & R2). split; [congruence|].
  intros l' i [<-|I] J; [now apply R1|]. rewrite <- S1. now apply (R2 l').
Qed.
Theorem mapper_pf : forall n dirIx neuIx,
  (indices_ok n dirIx neuIx <-> exists m, setMapper n dirIx neuIx = Ok m) /\
  forall m, setMapper n dirIx neuIx = Ok m -> msize m = n /\ forall i, mfixed m i = true <-> prescribed dirIx neuIx i.
Proof.
  intros n dirIx neuIx.
  assert (A : indices_ok n dirIx neuIx -> exists m, setMapper n dirIx neuIx = Ok m /\ msize m = n /\ forall i, mfixed m i = true <-> prescribed dirIx neuIx i).
  { intros H. unfold setMapper. destruct (marks_ok dirIx (mkMap n (fun _ => false))) as (m1 & E1 & S1 & F1); [intros l i I J; apply H; exists l; auto|]. cbn [msize] in S1. rewrite E1. cbn [bind].
    destruct (marks_ok neuIx m1) as (m2 & E2 & S2 & F2); [intros l i I J; rewrite S1; apply H; exists l; auto|]. exists m2. split; [exact E2|]. split; [congruence|].
    intros i. rewrite F2, F1. cbn [mfixed orb]. rewrite orb_true_iff, !existsb_exists. unfold prescribed. split.
    - intros [(l & I & J)|(l & I & J)]; apply existsb_exists in J; destruct J as (j & J & Q); apply Nat.eqb_eq in Q; subst j; exists l; auto.
    - intros (l & [I|I] & J); [left|right]; exists l; (split; [exact I|]); apply existsb_exists; exists i; split; auto; apply Nat.eqb_refl. }
  assert (B : forall m, setMapper n dirIx neuIx = Ok m -> indices_ok n dirIx neuIx).
  { intros m E. unfold setMapper in E. destruct (foldM mark dirIx _) as [m1|] eqn:E1; [|discriminate]. cbn [bind] in E. destruct (marks_range _ _ _ E1) as (S1 & R1). destruct (marks_range _ _ _ E) as (S2 & R2). cbn [msize] in *.
    intros i (l & [I|I] & J); [now apply (R1 l)|]. rewrite <- S1. now apply (R2 l). }
  split; [split|].
  - intros H. destruct (A H) as (m & E & _). now exists m.
  - intros (m & E). now apply (B m).
  - intros m E. destruct (A (B m E)) as (m' & E' & S & F). rewrite E in E'. injection E' as <-. split; assumption.
Qed.

Lemma rank_ext p q i : (forall j, (j < i)%nat -> p j = q j) -> rankOf p i = rankOf q i.
Proof. induction i as [|i IH]; intros H; [reflexivity|]. rewrite !rank_S, IH, H; [reflexivity|lia|]. intros j L. apply H. lia. Qed.
Lemma rank_both p i : (rankOf p i + rankOf (fun j => negb (p j)) i = i)%nat.
Proof. induction i as [|i IH]; [reflexivity|]. rewrite !rank_S. destruct (p i); cbn [negb]; lia. Qed.
Lemma rank_onto p n k : (k < rankOf p n)%nat -> exists i, (i < n)%nat /\ p i = true /\ rankOf p i = k.
Proof.
  induction n as [|n IH]; [intros H; cbn in H; lia|]. rewrite rank_S. intros H. destruct (lt_dec k (rankOf p n)) as [L|L].
  - destruct (IH L) as (i & A & B & C). exists i. repeat split; [lia|exact B|exact C].
  - exists n. destruct (p n) eqn:E; [|lia]. repeat split; [lia|lia].
Qed.

Lemma bdy_ok m : exists mb, bdyMapper m = Ok mb /\ msize mb = msize m /\ forall i, (i < msize m)%nat -> mfixed mb i = negb (mfixed m i).
Proof.
  unfold bdyMapper. destruct (mark_ok (mkMap (msize m) (fun _ => false)) (findFree m)) as (mb & E & S & F).
  { intros i I. unfold findFree in I. apply filter_In in I. destruct I as (I & _). apply in_seq in I. cbn. lia. }
  exists mb. split; [exact E|]. split; [exact S|]. intros i L. rewrite F. cbn [mfixed orb]. destruct (mfixed m i) eqn:G; cbn [negb].
  - apply not_true_is_false. intros H. apply existsb_exists in H. destruct H as (j & J & Q). apply Nat.eqb_eq in Q. subst j. unfold findFree in J. apply filter_In in J. rewrite G in J. now destruct J.
  - apply existsb_exists. exists i. split; [|apply Nat.eqb_refl]. unfold findFree. apply filter_In. rewrite G. split; [apply in_seq; lia|reflexivity].
Qed.
Lemma bdy_numbers m mb : bdyMapper m = Ok mb -> msize mb = msize m /\ (forall i, (i < msize m)%nat -> mfixed mb i = negb (mfixed m i)) /\
  mfree mb = (msize m - mfree m)%nat /\ forall i, (i < msize m)%nat -> mfixed m i = true -> gi mb i = (gi m i - mfree m)%nat /\ (mfree m <= gi m i)%nat /\ (gi mb i < mfree mb)%nat.
Proof.
  intros E. destruct (bdy_ok m) as (mb' & E' & S & F). rewrite E in E'. injection E' as <-. split; [exact S|]. split; [exact F|].
  assert (N : mfree mb = rankOf (mfixed m) (msize m)).
  { unfold mfree. rewrite S. apply rank_ext. intros j L. rewrite (F j L). apply negb_involutive. }
  split; [rewrite N; pose proof (rank_both (mfixed m) (msize m)); unfold mfree; lia|].
  intros i L G. unfold gi. rewrite (F i L), G. cbn [negb].
  assert (Q : rankOf (fun j => negb (mfixed mb j)) i = rankOf (mfixed m) i) by (apply rank_ext; intros j Lj; rewrite (F j) by lia; apply negb_involutive).
  rewrite Q. repeat split; [lia|lia|]. rewrite N. now apply rank_lt.
Qed.
Theorem numbers_pf : forall m, exists mb, bdyMapper m = Ok mb /\ mfree mb = (msize m - mfree m)%nat /\
  (forall i, (i < msize m)%nat -> mfixed m i = true -> exists k, (k < mfree mb)%nat /\ mindex m i = Ok (mfree m + k)%nat /\ mindex mb i = Ok k) /\
  (forall k, (k < mfree mb)%nat -> exists i, (i < msize m)%nat /\ mfixed m i = true /\ mindex mb i = Ok k) /\
  (forall i j g, mindex m i = Ok g -> mindex m j = Ok g -> i = j) /\
  (forall i g, mindex m i = Ok g -> (g < msize m)%nat /\ ((g < mfree m)%nat <-> mfixed m i = false)).
Proof.
  intros m. destruct (bdy_ok m) as (mb & E & _). exists mb. split; [exact E|]. destruct (bdy_numbers m mb E) as (S & F & N & G). split; [exact N|].
  assert (FR : (mfree m <= msize m)%nat) by (unfold mfree; pose proof (rank_both (mfixed m) (msize m)); lia).
  split; [|split; [|split]].
  - intros i L P. destruct (G i L P) as (A & B & C). exists (gi mb i). split; [exact C|]. split; [rewrite mindex_ok by exact L; f_equal; lia|apply mindex_ok; lia].
  - intros k K. unfold mfree in K. rewrite S in K. destruct (rank_onto _ _ _ K) as (i & L & P & Q). exists i. split; [exact L|]. rewrite (F i L), negb_involutive in P. split; [exact P|].
    rewrite mindex_ok by lia. f_equal. unfold gi. rewrite (F i L), P. exact Q.
  - intros i j g A B. unfold mindex in *. destruct (Nat.ltb_spec i (msize m)) as [Li|]; [|discriminate]. destruct (Nat.ltb_spec j (msize m)) as [Lj|]; [|discriminate]. injection A as A. injection B as B.
    pose proof (gi_free m i Li) as Gi. pose proof (gi_free m j Lj) as Gj. unfold gi in Gi, Gj. rewrite A in Gi. rewrite B in Gj. rewrite Gi in Gj.
    destruct (mfixed m i) eqn:Fi, (mfixed m j) eqn:Fj; try discriminate Gj.
    + apply (rank_inj (mfixed m)); try assumption. lia.
    + apply (rank_inj (fun j => negb (mfixed m j))); cbv beta; [now rewrite Fi|now rewrite Fj|congruence].
  - intros i g A. unfold mindex in A. destruct (Nat.ltb_spec i (msize m)) as [Li|]; [|discriminate]. injection A as A. pose proof (gi_free m i Li) as Gi. unfold gi in Gi. rewrite A in Gi. split.
    + pose proof (rank_both (mfixed m) (msize m)) as RB. destruct (mfixed m i) eqn:Fi.
      * pose proof (rank_lt (mfixed m) i (msize m) Li Fi). unfold mfree in A. lia.
      * cbn [negb] in Gi. lia.
    + destruct (mfixed m i); cbn [negb] in Gi; split; intros; try lia; try discriminate; reflexivity.
Qed.

(** ** Assembly *)
Section Push.
Context (m : mapper) (elim : nat -> R) (lm : nat -> nat -> R) (lr : nat -> R) (act : list nat).
Hypothesis A : forall a, In a act -> (a < msize m)%nat.
(** value of a marked function, 0 for the others *)
Definition fixv (a : nat) : R := if mfixed m a then elim (gi m a - mfree m) else 0.

Lemma pushE_row p S : (p < length act)%nat -> mfixed m (nth p act 0%nat) = false -> exists S', foldM (fun S q =>
        do b <- vget act q; do h <- mindex m b;
        if (h <? mfree m)%nat then Ok (addMat S (gi m (nth p act 0%nat)) h (lm p q)) else Ok (addRhs S (gi m (nth p act 0%nat)) (- (lm p q * elim (h - mfree m)%nat))))
      (seq 0 (length act)) S = Ok S' /\ (forall g, srhs S' g = srhs S g - hit m act p g * sumTo (length act) (fun q => lm p q * fixv (nth q act 0%nat))) /\
   forall g h, smat S' g h = smat S g h + hit m act p g * sumTo (length act) (fun q => hit m act q h * lm p q).
Proof.
  intros L F. set (g0 := gi m (nth p act 0%nat)).
  destruct (foldM_seq (fun q S' => (forall g, srhs S' g = srhs S g - hit m act p g * sumTo q (fun q => lm p q * fixv (nth q act 0%nat))) /\ forall g h, smat S' g h = smat S g h + hit m act p g * sumTo q (fun q => hit m act q h * lm p q))
    (fun S q => do b <- vget act q; do h <- mindex m b; if (h <? mfree m)%nat then Ok (addMat S g0 h (lm p q)) else Ok (addRhs S g0 (- (lm p q * elim (h - mfree m)%nat)))) (length act) 0 S) as (S' & E & R1 & R2).
  - split; intros; cbn [sumTo]; ring.
  - intros q S1 Lq (I1 & I2). destruct (act_ok m act A q ltac:(lia)) as (V & M & G). rewrite V. cbn [bind]. rewrite M. cbn [bind]. rewrite G. unfold hit, fixv in *. set (a := nth q act 0%nat) in *. fold g0 in I1, I2. fold g0. rewrite F in *. cbn [negb andb] in *.
    destruct (mfixed m a) eqn:Fa; cbn [negb].
    + eexists. split; [reflexivity|]. cbn [addRhs srhs smat]. split.
      * intros g. rewrite (I1 g). cbn [sumTo]. fold a. rewrite Fa, (Nat.eqb_sym g). destruct (g0 =? g)%nat; ring.
      * intros g h. rewrite I2. cbn [sumTo]. fold a. rewrite Fa. cbn [negb andb]. ring.
    + eexists. split; [reflexivity|]. cbn [addMat srhs smat]. split.
      * intros g. rewrite (I1 g). cbn [sumTo]. fold a. rewrite Fa. ring.
      * intros g h. rewrite I2. cbn [sumTo]. fold a. rewrite Fa. cbn [negb andb].
        rewrite (Nat.eqb_sym h (gi m a)), (Nat.eqb_sym g g0). destruct (g0 =? g)%nat, (gi m a =? h)%nat; cbn [andb]; ring.
  - exists S'. split; [exact E|]. split; assumption.
Qed.
Lemma pushE_ok S : exists S', push m elim lm lr act S = Ok S' /\
   (forall g, srhs S' g = srhs S g + sumTo (length act) (fun p => hit m act p g * (lr p - sumTo (length act) (fun q => lm p q * fixv (nth q act 0%nat))))) /\
   forall g h, smat S' g h = smat S g h + sumTo (length act) (fun p => hit m act p g * sumTo (length act) (fun q => hit m act q h * lm p q)).
Proof.
  unfold push. match goal with |- exists S', foldM ?F _ _ = _ /\ _ =>
    destruct (foldM_seq (fun p S' => (forall g, srhs S' g = srhs S g + sumTo p (fun p => hit m act p g * (lr p - sumTo (length act) (fun q => lm p q * fixv (nth q act 0%nat))))) /\
      forall g h, smat S' g h = smat S g h + sumTo p (fun p => hit m act p g * sumTo (length act) (fun q => hit m act q h * lm p q))) F (length act) 0 S) as (S' & E & R1 & R2) end.
  - split; intros; cbn [sumTo]; ring.
  - intros p S1 Lp (I1 & I2). destruct (act_ok m act A p ltac:(lia)) as (V & M & G). cbv beta. rewrite V. cbn [bind]. rewrite M. cbn [bind]. rewrite G.
    destruct (mfixed m (nth p act 0%nat)) eqn:Fa; cbn [negb].
    + exists S1. split; [reflexivity|]. assert (H0 : forall g, hit m act p g = 0) by (intros g; unfold hit; rewrite Fa; reflexivity). split; intros; [rewrite I1|rewrite I2]; cbn [sumTo]; rewrite H0; ring.
    + destruct (pushE_row p (addRhs S1 (gi m (nth p act 0%nat)) (lr p)) ltac:(lia) Fa) as (S2 & E2 & A1 & A2). exists S2. split; [exact E2|]. split.
      * intros g. rewrite A1. cbn [addRhs srhs]. rewrite I1. cbn [sumTo]. replace (hit m act p g) with (if (gi m (nth p act 0%nat) =? g)%nat then 1 else 0) by (unfold hit; rewrite Fa; reflexivity). rewrite (Nat.eqb_sym g). destruct (gi m (nth p act 0%nat) =? g)%nat; ring.
      * intros g h. rewrite A2. cbn [addRhs smat]. rewrite I2. cbn [sumTo]. ring.
  - exists S'. split; [exact E|]. split; assumption.
Qed.
End Push.

(** value of the free function with number [g] *)
Definition gv (m : mapper) (g : nat) (act : list nat) (v : nat -> R) : R := sumTo (length act) (fun p => hit m act p g * v p).

Lemma sumTo_add n f g : sumTo n (fun i => f i + g i) = sumTo n f + sumTo n g.
Proof. induction n as [|n IH]; cbn [sumTo]; [ring|rewrite IH; ring]. Qed.
Lemma loc_mat e p q : locMat e p q = total (fun k => kw k * kD k p * kD k q) (knodes e).
Proof. unfold locMat. rewrite (fold_total (fun k => kw k * kD k p * kD k q)). ring. Qed.
Lemma loc_rhs e p : locRhs e p = total (fun k => kw k * kV k p * kf k) (knodes e).
Proof. unfold locRhs. rewrite (fold_total (fun k => kw k * kV k p * kf k)). ring. Qed.

Definition jobsM (l : list job) : list (list nat * knode) := flat_map (fun j => match j with JMat e => map (fun k => (kact e, k)) (knodes e) | JRhs _ => [] end) l.
Definition jobsR (l : list job) : list (list nat * knode) := flat_map (fun j => match j with JRhs e => map (fun k => (kact e, k)) (knodes e) | JMat _ => [] end) l.
Definition jact (j : job) : list nat := match j with JMat e | JRhs e => kact e end.
Definition jobs_ok (n : nat) (l : list job) : Prop := forall j a, In j l -> In a (jact j) -> (a < n)%nat.

Lemma elem_mat e (H : nat -> R) (K : nat -> R) : let L := length (kact e) in
  sumTo L (fun p => H p * sumTo L (fun q => K q * locMat e p q)) = total (fun k => kw k * (sumTo L (fun p => H p * kD k p) * sumTo L (fun q => K q * kD k q))) (knodes e).
Proof.
  intros L. transitivity (sumTo L (fun p => total (fun k => H p * sumTo L (fun q => K q * (kw k * kD k p * kD k q))) (knodes e))).
  - apply sumTo_ext. intros p Lp. rewrite total_scal. f_equal. rewrite <- sumTo_total. apply sumTo_ext. intros q Lq. rewrite total_scal, loc_mat. reflexivity.
  - rewrite sumTo_total. apply total_ext. intros k _.
    transitivity (sumTo L (fun p => kw k * sumTo L (fun q => K q * kD k q) * (H p * kD k p))).
    + apply sumTo_ext. intros p _. transitivity (H p * ((kw k * kD k p) * sumTo L (fun q => K q * kD k q))); [|ring]. f_equal. rewrite <- sumTo_scal. apply sumTo_ext. intros q _. ring.
    + rewrite sumTo_scal. ring.
Qed.
Lemma elem_rhs e (H : nat -> R) : let L := length (kact e) in sumTo L (fun p => H p * locRhs e p) = total (fun k => kw k * (sumTo L (fun p => H p * kV k p) * kf k)) (knodes e).
Proof.
  intros L. transitivity (sumTo L (fun p => total (fun k => H p * (kw k * kV k p * kf k)) (knodes e))).
  - apply sumTo_ext. intros p Lp. now rewrite total_scal, loc_rhs.
  - rewrite sumTo_total. apply total_ext. intros k _. transitivity (sumTo L (fun p => kw k * kf k * (H p * kV k p))); [apply sumTo_ext; intros; ring|]. rewrite sumTo_scal. ring.
Qed.

Definition descr (m : mapper) (elim : nat -> R) (done : list job) (X : sys) : Prop :=
  (forall g, srhs X g = total (fun n => kw (snd n) * (gv m g (fst n) (kV (snd n)) * kf (snd n))) (jobsR done)
                       - total (fun n => kw (snd n) * (gv m g (fst n) (kD (snd n)) * comb (fst n) (kD (snd n)) (fixv m elim))) (jobsM done)) /\
  forall g h, smat X g h = total (fun n => kw (snd n) * (gv m g (fst n) (kD (snd n)) * gv m h (fst n) (kD (snd n)))) (jobsM done).

Lemma run_job m elim done X j : (forall a, In a (jact j) -> (a < msize m)%nat) -> descr m elim done X -> exists X', runJob m elim X j = Ok X' /\ descr m elim (done ++ [j]) X'.
Proof.
  intros A (D1 & D2). assert (JM : jobsM (done ++ [j]) = jobsM done ++ jobsM [j]) by (unfold jobsM; apply flat_map_app). assert (JR : jobsR (done ++ [j]) = jobsR done ++ jobsR [j]) by (unfold jobsR; apply flat_map_app).
  destruct j as [e|e]; cbn [runJob jact] in *.
  - destruct (pushE_ok m elim (locMat e) (fun _ => 0) (kact e) A X) as (X' & E & R1 & R2). exists X'. split; [exact E|].
    cbn [jobsM jobsR flat_map] in JM, JR. rewrite app_nil_r in JM, JR. unfold descr. rewrite JM, JR. split.
    + intros g. rewrite R1, D1, total_app, total_map. cbn [fst snd]. unfold Rminus. rewrite Ropp_plus_distr. rewrite Rplus_assoc. f_equal. f_equal.
      transitivity (- sumTo (length (kact e)) (fun p => hit m (kact e) p g * sumTo (length (kact e)) (fun q => fixv m elim (nth q (kact e) 0%nat) * locMat e p q))).
      * replace (- sumTo (length (kact e)) (fun p => hit m (kact e) p g * sumTo (length (kact e)) (fun q => fixv m elim (nth q (kact e) 0%nat) * locMat e p q))) with ((-1) * sumTo (length (kact e)) (fun p => hit m (kact e) p g * sumTo (length (kact e)) (fun q => fixv m elim (nth q (kact e) 0%nat) * locMat e p q))) by ring.
        rewrite <- sumTo_scal. apply sumTo_ext. intros p _. rewrite (sumTo_ext _ (fun q => locMat e p q * fixv m elim (nth q (kact e) 0%nat)) (fun q => fixv m elim (nth q (kact e) 0%nat) * locMat e p q)) by (intros; ring). ring.
      * f_equal. rewrite (elem_mat e (fun p => hit m (kact e) p g) (fun q => fixv m elim (nth q (kact e) 0%nat))). apply total_ext. intros k _. unfold gv, comb. f_equal. f_equal. apply sumTo_ext. intros; ring.
    + intros g h. rewrite R2, D2, total_app, total_map. cbn [fst snd]. f_equal. apply (elem_mat e (fun p => hit m (kact e) p g) (fun q => hit m (kact e) q h)).
  - destruct (pushE_ok m elim (fun _ _ => 0) (locRhs e) (kact e) A X) as (X' & E & R1 & R2). exists X'. split; [exact E|].
    cbn [jobsM jobsR flat_map] in JM, JR. rewrite app_nil_r in JM, JR. unfold descr. rewrite JM, JR. split.
    + intros g. rewrite R1, D1, total_app, total_map. cbn [fst snd].
      assert (Q : sumTo (length (kact e)) (fun p => hit m (kact e) p g * (locRhs e p - sumTo (length (kact e)) (fun q => 0 * fixv m elim (nth q (kact e) 0%nat)))) = total (fun k => kw k * (gv m g (kact e) (kV k) * kf k)) (knodes e)).
      { unfold gv. rewrite <- (elem_rhs e (fun p => hit m (kact e) p g)). apply sumTo_ext. intros p _. rewrite sumTo_zero by (intros; ring). ring. }
      rewrite Q. ring.
    + intros g h. rewrite R2, D2. rewrite sumTo_zero; [ring|]. intros p _. rewrite sumTo_zero by (intros; ring). ring.
Qed.
Lemma run_jobs m elim l : jobs_ok (msize m) l -> exists X, assembleJobs m elim l = Ok X /\ descr m elim l X.
Proof.
  intros O. unfold assembleJobs. assert (D : descr m elim [] zeroSys) by (split; intros; cbn; ring). change l with ([] ++ l) in O |- * at 2. revert D O. generalize (@nil job) as done, zeroSys as X.
  induction l as [|j l IH]; intros done X D O; [exists X; rewrite app_nil_r; split; [reflexivity|exact D]|]. cbn [foldM].
  destruct (run_job m elim done X j) as (X1 & E1 & D1); [intros a I; apply (O j a); [apply in_or_app; right; now left|exact I]|exact D|]. rewrite E1. cbn [bind].
  replace (done ++ j :: l) with ((done ++ [j]) ++ l) in * by (rewrite <- app_assoc; reflexivity). now apply IH.
Qed.
