(** Right derivatives of B-splines and their values at 0. *)
From Coq Require Import Lra.
From Verif Require Import Common SplineModel SplineSpec.
Open Scope R_scope.

(** ** Right derivatives *)
Lemma rderiv_D f x d : rderiv f x d <-> D_in f (fun _ => d) (fun y => x < y) x.
Proof.
  unfold rderiv, D_in, limit1_in, limit_in, D_x. cbn [dist R_met Base]. unfold Rfunctions.R_dist. split; intros H eps E.
  - destruct (H eps E) as (del & P & K). exists del. split; [exact P|]. intros y ((Hy & _) & A). specialize (K (y - x)). replace (x + (y - x)) with y in K by ring. apply K. rewrite Rabs_right in A by lra. lra.
  - destruct (H eps E) as (del & P & K). exists del. split; [exact P|]. intros h Hh. specialize (K (x + h)). replace (x + h - x) with h in K by ring. apply K. split; [split; lra|]. rewrite Rabs_right; lra.
Qed.
Lemma rderiv_const c x : rderiv (fun _ => c) x 0.
Proof. apply rderiv_D. apply Dconst. Qed.
Lemma rderiv_id x : rderiv (fun y => y) x 1.
Proof. apply rderiv_D. apply Dx. Qed.
Lemma rderiv_add f g x a b : rderiv f x a -> rderiv g x b -> rderiv (fun y => f y + g y) x (a + b).
Proof. rewrite !rderiv_D. intros F G. exact (Dadd _ _ _ _ _ _ F G). Qed.
Lemma rderiv_mult f g x a b : rderiv f x a -> rderiv g x b -> rderiv (fun y => f y * g y) x (a * g x + f x * b).
Proof. rewrite !rderiv_D. intros F G. exact (Dmult _ _ _ _ _ _ F G). Qed.
Lemma rderiv_eq f x a b : rderiv f x a -> a = b -> rderiv f x b.
Proof. now intros H <-. Qed.
Lemma rderiv_near f g x a r : 0 < r -> (forall y, x <= y < x + r -> f y = g y) -> rderiv f x a -> rderiv g x a.
Proof.
  intros P E H eps EP. destruct (H eps EP) as (del & PD & K). exists (Rmin del r). split; [now apply Rmin_glb_lt|]. intros h (H0 & H1). pose proof (Rmin_l del r). pose proof (Rmin_r del r).
  rewrite <- !E by lra. apply K. lra.
Qed.
Lemma rderiv_ext f g x a : (forall y, f y = g y) -> rderiv f x a -> rderiv g x a.
Proof. intros E. apply (rderiv_near f g x a 1); [lra|auto]. Qed.
Lemma rderiv_scal c f x a : rderiv f x a -> rderiv (fun y => c * f y) x (c * a).
Proof. intros H. eapply rderiv_eq; [exact (rderiv_mult _ _ _ _ _ (rderiv_const c x) H)|cbv beta; ring]. Qed.
Lemma rderiv_unique f x a b : rderiv f x a -> rderiv f x b -> a = b.
Proof.
  intros F G. destruct (Req_dec a b) as [|N]; [assumption|]. exfalso. assert (P : 0 < Rabs (a - b) / 2) by (assert (0 < Rabs (a - b)) by (apply Rabs_pos_lt; lra); lra).
  destruct (F _ P) as (d1 & P1 & K1). destruct (G _ P) as (d2 & P2 & K2). set (h := Rmin d1 d2 / 2). assert (M : 0 < Rmin d1 d2) by (now apply Rmin_glb_lt). pose proof (Rmin_l d1 d2). pose proof (Rmin_r d1 d2).
  specialize (K1 h ltac:(unfold h; lra)). specialize (K2 h ltac:(unfold h; lra)). set (q := (f (x + h) - f x) / h) in *. pose proof (Rabs_triang (a - q) (q - b)) as T. replace (a - q + (q - b)) with (a - b) in T by ring. rewrite (Rabs_minus_sym a q) in T. lra.
Qed.

(** ** The differentiation formula *)
Section B.
Context (t : nat -> R) (Ht : forall i j, (i <= j)%nat -> t i <= t j).

Lemma inv0_self d : d <> 0 -> d * inv0 d = 1.
Proof. intros H. unfold inv0. destruct (Req_EM_T d 0); [contradiction|]. now apply Rinv_r. Qed.
Lemma inv0_zero d : d = 0 -> inv0 d = 0.
Proof. intros H. unfold inv0. now destruct (Req_EM_T d 0). Qed.
Lemma collapse i j k l : (i <= k)%nat -> (k <= l)%nat -> (l <= j)%nat -> t j = t i -> inv0 (t l - t k) = 0.
Proof. intros A B C E. apply inv0_zero. pose proof (Ht i k A). pose proof (Ht k l B). pose proof (Ht l j C). lra. Qed.

Lemma bspl0_near i x : exists r, 0 < r /\ forall y, x <= y < x + r -> bspl t 0 i y = bspl t 0 i x.
Proof.
  pose proof (Ht i (S i) (Nat.le_succ_diag_r i)) as M. cbn [bspl]. destruct (Rle_dec (t i) x) as [A|A].
  - destruct (Rlt_dec x (t (S i))) as [B|B].
    + exists (t (S i) - x). split; [lra|]. intros y Hy. destruct (Rle_dec (t i) y); [|lra]. destruct (Rlt_dec y (t (S i))); lra.
    + exists 1. split; [lra|]. intros y Hy. destruct (Rle_dec (t i) y); [|reflexivity]. destruct (Rlt_dec y (t (S i))); lra.
  - exists (t i - x). split; [lra|]. intros y Hy. destruct (Rle_dec (t i) y); [lra|reflexivity].
Qed.
Lemma bspl0_rderiv i x : rderiv (bspl t 0 i) x 0.
Proof. destruct (bspl0_near i x) as (r & P & E). apply (rderiv_near (fun _ => bspl t 0 i x) _ x 0 r P); [intros y Hy; symmetry; now apply E|apply rderiv_const]. Qed.

Lemma lin1 a v x : rderiv (fun y => (y - a) * v) x v.
Proof.
  eapply rderiv_eq; [eapply rderiv_ext; [|exact (rderiv_add _ _ _ _ _ (rderiv_scal v _ _ _ (rderiv_id x)) (rderiv_const (- (a * v)) x))]|]; [intros y; cbv beta; ring|ring].
Qed.
Lemma lin2 a v x : rderiv (fun y => (a - y) * v) x (- v).
Proof.
  eapply rderiv_eq; [eapply rderiv_ext; [|exact (rderiv_add _ _ _ _ _ (rderiv_scal (- v) _ _ _ (rderiv_id x)) (rderiv_const (a * v) x))]|]; [intros y; cbv beta; ring|ring].
Qed.

Theorem bspl_rderiv p : forall i x, rderiv (bspl t p i) x (dbspl t p i x).
Proof.
  induction p as [|q IH]; intros i x; [apply bspl0_rderiv|].
  set (v := inv0 (t (i + S q)%nat - t i)). set (v' := inv0 (t (S i + S q)%nat - t (S i))).
  pose proof (rderiv_add _ _ _ _ _ (rderiv_mult _ _ _ _ _ (lin1 (t i) v x) (IH i x)) (rderiv_mult _ _ _ _ _ (lin2 (t (S i + S q)%nat) v' x) (IH (S i) x))) as H.
  eapply rderiv_eq; [eapply rderiv_ext; [|exact H]; intros y; reflexivity|]. cbv beta. unfold dbspl at 3. fold v v'. destruct q as [|q].
  - cbn [dbspl INR]. ring.
  - unfold dbspl. cbn [bspl]. replace (S i + S q)%nat with (i + S (S q))%nat in * by lia. replace (S (S i) + S q)%nat with (S i + S (S q))%nat in * by lia. rewrite !(S_INR (S q)).
    set (a0 := inv0 (t (i + S q)%nat - t i)). set (a1 := inv0 (t (i + S (S q))%nat - t (S i))). set (a2 := inv0 (t (S i + S (S q))%nat - t (S (S i)))).
    set (n0 := bspl t q i x). set (n1 := bspl t q (S i) x). set (n2 := bspl t q (S (S i)) x).
    assert (V1 : v * (t (i + S (S q))%nat - t i) * a1 = a1).
    { destruct (Req_EM_T (t (i + S (S q))%nat) (t i)) as [E|E]; [unfold a1; rewrite (collapse i (i + S (S q))); [ring|lia|lia|lia|exact E]|]. unfold v. rewrite (Rmult_comm (inv0 _)), inv0_self by lra. ring. }
    assert (V2 : v' * (t (S i + S (S q))%nat - t (S i)) * a1 = a1).
    { destruct (Req_EM_T (t (S i + S (S q))%nat) (t (S i))) as [E|E]; [unfold a1; rewrite (collapse (S i) (S i + S (S q))); [ring|lia|lia|lia|exact E]|]. unfold v'. rewrite (Rmult_comm (inv0 _)), inv0_self by lra. ring. }
    set (ti := t i) in *. set (ti1 := t (S i)) in *. set (tp := t (i + S (S q))%nat) in *. set (tp1 := t (S i + S (S q))%nat) in *.
    assert (MID : (v * (tp - ti) - v' * (tp1 - ti1)) * a1 = 0) by lra.
    match goal with |- ?l = ?r => replace l with (r + INR (S q) * n1 * - ((v * (tp - ti) - v' * (tp1 - ti1)) * a1)) end; [rewrite MID; ring|]. ring.
Qed.

Theorem dbspl_rderiv p i x : rderiv (dbspl t p i) x (ddbspl t p i x).
Proof.
  destruct p as [|q]; [exact (rderiv_const 0 x)|]. cbn [ddbspl]. eapply rderiv_eq; [eapply rderiv_ext; [|exact (rderiv_scal (INR (S q)) _ _ _ (rderiv_add _ _ _ _ _ (rderiv_scal (inv0 (t (i + S q)%nat - t i)) _ _ _ (bspl_rderiv q i x)) (rderiv_scal (- inv0 (t (S i + S q)%nat - t (S i))) _ _ _ (bspl_rderiv q (S i) x))))]|].
  - intros y. cbv beta. unfold dbspl. ring.
  - ring.
Qed.

(** ** Values at 0 *)
Context (p : nat) (Hz : forall i, (i <= p)%nat -> t i = 0) (Hp : 0 < t (p + 1)%nat).

Lemma bspl_zero q : (q <= p)%nat -> forall i, bspl t q i 0 = if (i =? p - q)%nat then 1 else 0.
Proof.
  induction q as [|q IH]; intros L i; cbn [bspl].
  - replace (p - 0)%nat with p by lia. destruct (Nat.eqb_spec i p) as [->|N].
    + rewrite Hz by lia. destruct (Rle_dec 0 0); [|lra]. replace (S p) with (p + 1)%nat by lia. destruct (Rlt_dec 0 (t (p + 1)%nat)); lra.
    + destruct (Nat.lt_ge_cases i p) as [A|A].
      * rewrite (Hz (S i)) by lia. destruct (Rle_dec (t i) 0); [|reflexivity]. destruct (Rlt_dec 0 0); lra.
      * assert (t (p + 1)%nat <= t i) by (apply Ht; lia). destruct (Rle_dec (t i) 0); lra.
  - rewrite !IH by lia. destruct (Nat.eqb_spec i (p - q)) as [->|N].
    + rewrite (Hz (p - q)) by lia. destruct (Nat.eqb_spec (S (p - q)) (p - q)); [lia|]. destruct (Nat.eqb_spec (p - q) (p - S q)); [lia|]. ring.
    + destruct (Nat.eqb_spec (S i) (p - q)) as [E|E]; destruct (Nat.eqb_spec i (p - S q)) as [F|F]; try lia.
      * replace (S i + S q)%nat with (p + 1)%nat by lia. rewrite (Hz (S i)) by lia. replace ((t (p + 1)%nat - 0) * inv0 (t (p + 1)%nat - 0) * 1) with 1; [ring|]. rewrite inv0_self by lra. ring.
      * ring.
Qed.

Lemma inv0_pos d : 0 < d -> inv0 d = / d.
Proof. intros H. unfold inv0. destruct (Req_EM_T d 0); [lra|reflexivity]. Qed.

Lemma dbspl_zero q : (1 <= q <= p)%nat -> forall i, dbspl t q i 0 =
  if (S i =? p - (q - 1))%nat then - (INR q / t (p + 1)%nat) else if (i =? p - (q - 1))%nat then INR q / t (p + 1)%nat else 0.
Proof.
  intros L i. destruct q as [|q]; [lia|]. unfold dbspl. rewrite !bspl_zero by lia. replace (S q - 1)%nat with q by lia. destruct (Nat.eqb_spec i (p - q)) as [->|N].
  - destruct (Nat.eqb_spec (S (p - q)) (p - q)); [lia|]. replace (p - q + S q)%nat with (p + 1)%nat by lia. rewrite (Hz (p - q)) by lia. rewrite Rminus_0_r, inv0_pos by exact Hp. unfold Rdiv. ring.
  - destruct (Nat.eqb_spec (S i) (p - q)) as [E|E]; [|ring]. replace (S i + S q)%nat with (p + 1)%nat by lia. rewrite (Hz (S i)) by lia. rewrite Rminus_0_r, (inv0_pos (t (p + 1)%nat)) by exact Hp. unfold Rdiv. ring.
Qed.
End B.

(** ** The first functions of an open basis *)
Lemma tknot_mono b n : open_basis b n -> (forall i j x y, (i <= j)%nat -> nth_error (sknots b) i = Some x -> nth_error (sknots b) j = Some y -> x <= y) ->
  exists t', (forall i j, (i <= j)%nat -> t' i <= t' j) /\ forall i, (i < length (sknots b))%nat -> t' i = tknot b i.
Proof.
  intros (LN & _) A. exists (fun i => tknot b (Nat.min i (length (sknots b) - 1))). split.
  - intros i j L. unfold tknot. set (i' := Nat.min i _). set (j' := Nat.min j _). apply (A i' j'); [lia| |]; apply nth_error_nth'; lia.
  - intros i L. f_equal. lia.
Qed.
Lemma bspl_local t t' p : forall i x, (forall j, (j <= i + p + 1)%nat -> t' j = t j) -> bspl t p i x = bspl t' p i x.
Proof.
  induction p as [|q IH]; intros i x E; cbn [bspl].
  - rewrite (E i), (E (S i)) by lia. reflexivity.
  - rewrite (E i), (E (i + S q)%nat), (E (S i + S q)%nat), (E (S i)) by lia. rewrite (IH i), (IH (S i)); [reflexivity| |]; intros j L; apply E; lia.
Qed.
Lemma dbspl_local t t' p i x : (forall j, (j <= i + p + 1)%nat -> t' j = t j) -> dbspl t p i x = dbspl t' p i x.
Proof.
  intros E. destruct p as [|q]; [reflexivity|]. cbn [dbspl]. rewrite (E i), (E (i + S q)%nat), (E (S i + S q)%nat), (E (S i)) by lia. rewrite (bspl_local t t' q i), (bspl_local t t' q (S i)); [reflexivity| |]; intros j L; apply E; lia.
Qed.
Lemma ddbspl_local t t' p i x : (forall j, (j <= i + p + 1)%nat -> t' j = t j) -> ddbspl t p i x = ddbspl t' p i x.
Proof.
  intros E. destruct p as [|q]; [reflexivity|]. cbn [ddbspl]. rewrite (E i), (E (i + S q)%nat), (E (S i + S q)%nat), (E (S i)) by lia. rewrite (dbspl_local t t' q i), (dbspl_local t t' q (S i)); [reflexivity| |]; intros j L; apply E; lia.
Qed.

(** evaluation, derivatives *)
Theorem single_ok b n i : open_basis b n -> (i < n)%nat -> exists f f' f'',
  (forall x, evalSingle b i x = Ok (f x)) /\ (forall x, derivSingle b i x = Ok (f' x)) /\ (forall x, deriv2Single b i x = Ok (f'' x)) /\
  (forall x, rderiv f x (f' x)) /\ (forall x, rderiv f' x (f'' x)).
Proof.
  intros O L. pose proof O as (LN & A & _). destruct (tknot_mono b n O A) as (t' & M & E).
  exists (bspl (tknot b) (sdeg b) i), (dbspl (tknot b) (sdeg b) i), (ddbspl (tknot b) (sdeg b) i).
  assert (E' : forall j, (j <= i + sdeg b + 1)%nat -> t' j = tknot b j) by (intros j Lj; apply E; lia).
  unfold evalSingle, derivSingle, deriv2Single, single. destruct (Nat.ltb_spec (i + sdeg b + 1) (length (sknots b))); [|lia]. repeat split.
  - intros x. eapply rderiv_ext; [intros y; symmetry; exact (bspl_local (tknot b) t' _ i y E')|]. rewrite (dbspl_local (tknot b) t' _ i x E'). now apply bspl_rderiv.
  - intros x. eapply rderiv_ext; [intros y; symmetry; exact (dbspl_local (tknot b) t' _ i y E')|]. rewrite (ddbspl_local (tknot b) t' _ i x E'). now apply dbspl_rderiv.
Qed.

Lemma open_knots b n : open_basis b n -> (forall i, (i <= sdeg b)%nat -> tknot b i = 0) /\ 0 < tknot b (sdeg b + 1)%nat.
Proof.
  intros (LN & A & Z & (x & X & P)). unfold tknot. split.
  - intros i L. specialize (Z i L). now apply nth_error_nth with (d := 0) in Z.
  - apply nth_error_nth with (d := 0) in X. now rewrite X.
Qed.

Section First.
Context (b : sbasis) (n : nat) (Ob : open_basis b n).
Let t := tknot b. Let p := sdeg b. Let tau := tknot b (sdeg b + 1)%nat.

Lemma first_t' : exists t', (forall i j, (i <= j)%nat -> t' i <= t' j) /\ (forall i, (i < length (sknots b))%nat -> t' i = t i) /\ (forall i, (i <= p)%nat -> t' i = 0) /\ 0 < t' (p + 1)%nat /\ t' (p + 1)%nat = tau.
Proof.
  pose proof Ob as (LN & A & _). destruct (tknot_mono b n Ob A) as (t' & M & E). destruct (open_knots b n Ob) as (Z & P). exists t'. split; [exact M|]. split; [exact E|].
  assert (LL : (sdeg b + 1 < length (sknots b))%nat) by (destruct Ob as (_ & _ & _ & (x & X & _)); apply nth_error_Some; congruence).
  split; [intros i L; rewrite E by lia; now apply Z|]. unfold p, tau. rewrite E by lia. split; [exact P|reflexivity].
Qed.

Theorem first_value i : (i < n)%nat -> evalSingle b i 0 = Ok (if (i =? 0)%nat then 1 else 0).
Proof.
  intros L. destruct first_t' as (t' & M & E & Z & P & _). pose proof Ob as (LN & _). unfold evalSingle, single. destruct (Nat.ltb_spec (i + sdeg b + 1) (length (sknots b))); [|lia]. f_equal.
  rewrite (bspl_local _ t') by (intros j Lj; apply E; unfold p in *; lia). rewrite (bspl_zero t' M (sdeg b) Z P (sdeg b)) by lia. now rewrite Nat.sub_diag.
Qed.
Theorem first_deriv i : (1 <= sdeg b)%nat -> (i < n)%nat -> derivSingle b i 0 = Ok (match i with O => - (INR (sdeg b) / tau) | S O => INR (sdeg b) / tau | _ => 0 end).
Proof.
  intros D L. destruct first_t' as (t' & M & E & Z & P & T). pose proof Ob as (LN & _). unfold derivSingle, single. destruct (Nat.ltb_spec (i + sdeg b + 1) (length (sknots b))); [|lia]. f_equal.
  rewrite (dbspl_local _ t') by (intros j Lj; apply E; unfold p in *; lia). rewrite (dbspl_zero t' M (sdeg b) Z P (sdeg b)) by lia. rewrite <- T. fold p. replace (p - (p - 1))%nat with 1%nat by (unfold p; lia).
  destruct i as [|[|i]]; reflexivity.
Qed.
Theorem first_deriv2 : (2 <= sdeg b)%nat -> (2 <= n)%nat -> exists tau2, tau <= tau2 /\ forall i, (i < n)%nat -> deriv2Single b i 0 = Ok (INR (sdeg b) * INR (sdeg b - 1) *
  match i with O => / (tau * tau) | S O => - / (tau * tau) - / (tau * tau2) | S (S O) => / (tau * tau2) | _ => 0 end).
Proof.
  intros D L2. destruct first_t' as (t' & M & E & Z & P & T). pose proof Ob as (LN & _). fold p in D, LN. exists (t' (p + 2)%nat). split; [rewrite <- T; apply M; lia|]. intros i L.
  unfold deriv2Single, single. fold p. destruct (Nat.ltb_spec (i + p + 1) (length (sknots b))); [|lia]. f_equal.
  rewrite (ddbspl_local _ t') by (intros j Lj; apply E; lia). assert (P2 : 0 < t' (p + 2)%nat) by (pose proof (M (p + 1) (p + 2) ltac:(lia))%nat; lra). rewrite <- T. clear T tau L L2 LN H E.
  assert (EP : exists q, p = S q) by (exists (p - 1)%nat; clearbody p; lia). destruct EP as (q & EP). rewrite EP. cbn [ddbspl]. replace (S q - 1)%nat with q by lia. rewrite !(dbspl_zero t' M p Z P q) by lia. rewrite EP in *. replace (S q - (q - 1))%nat with 2%nat by lia.
  assert (Z1 : t' 1%nat = 0) by (apply Z; lia). assert (Z2 : t' 2%nat = 0) by (apply Z; lia). assert (Z0 : t' 0%nat = 0) by (apply Z; lia).
  replace (1 + S q)%nat with (S q + 1)%nat by lia. destruct i as [|[|[|i]]].
  - cbn [Nat.eqb Nat.add]. rewrite Z1, Rminus_0_r. replace (S (S q)) with (S q + 1)%nat by lia. replace (S (q + 1)) with (S q + 1)%nat by lia. rewrite (inv0_pos (t' (S q + 1)%nat)) by exact P. field. lra.
  - cbn [Nat.eqb]. rewrite Z1, Z2, !Rminus_0_r. replace (1 + S q)%nat with (S q + 1)%nat by lia. replace (2 + S q)%nat with (S q + 2)%nat by lia. rewrite !inv0_pos by assumption. field. lra.
  - cbn [Nat.eqb]. rewrite Z2, !Rminus_0_r. replace (2 + S q)%nat with (S q + 2)%nat by lia. rewrite (inv0_pos (t' (S q + 2)%nat)) by assumption. field. lra.
  - cbn [Nat.eqb]. ring.
Qed.
End First.
