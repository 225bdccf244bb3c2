(** Smoothness of B-splines: at a knot of multiplicity m, a B-spline of degree p is p - m times continuously differentiable. *)
From Coq Require Import Lra.
From Verif Require Import Common SplineModel SplineSpec SplineProofs BoehmSpec KnotProofs.
Open Scope R_scope.

(** ** The left continuous variant *)
Fixpoint bsplL (t : nat -> R) (p i : nat) (x : R) : R :=
  match p with
  | O => if Rlt_dec (t i) x then if Rle_dec x (t (S i)) then 1 else 0 else 0
  | S q => (x - t i) * inv0 (t (i + p)%nat - t i) * bsplL t q i x + (t (S i + p)%nat - x) * inv0 (t (S i + p)%nat - t (S i)) * bsplL t q (S i) x
  end.
Definition dbsplL (t : nat -> R) (p i : nat) (x : R) : R :=
  match p with
  | O => 0
  | S q => INR p * (inv0 (t (i + p)%nat - t i) * bsplL t q i x - inv0 (t (S i + p)%nat - t (S i)) * bsplL t q (S i) x)
  end.
Definition refl (t : nat -> R) (M j : nat) : R := - t (M - j)%nat.

Lemma refl_bsplL t M p : forall i x, (i + p + 1 <= M)%nat -> bspl (refl t M) p (M - i - p - 1) (- x) = bsplL t p i x.
Proof.
  unfold refl. induction p as [|q IH]; intros i x L; cbn [bspl bsplL].
  - replace (M - (M - i - 0 - 1))%nat with (S i) by lia. replace (M - S (M - i - 0 - 1))%nat with i by lia.
    destruct (Rle_dec (- t (S i)) (- x)); destruct (Rlt_dec (t i) x); try (destruct (Rlt_dec (- x) (- t i))); try (destruct (Rle_dec x (t (S i)))); try reflexivity; exfalso; lra.
  - specialize (IH i x ltac:(lia)) as I0. specialize (IH (S i) x ltac:(lia)) as I1. clear IH.
    replace (M - i - S q - 1)%nat with (M - S i - q - 1)%nat by lia. rewrite I1. replace (S (M - S i - q - 1)) with (M - i - q - 1)%nat by lia. rewrite I0.
    replace (M - (M - S i - q - 1))%nat with (S i + S q)%nat by lia. replace (M - (M - S i - q - 1 + S q))%nat with (S i) by lia. replace (M - (M - i - q - 1 + S q))%nat with i by lia. replace (M - (M - i - q - 1))%nat with (i + S q)%nat by lia.
    replace (- t (S i) - - t (S i + S q)%nat) with (t (S i + S q)%nat - t (S i)) by ring. replace (- t i - - t (i + S q)%nat) with (t (i + S q)%nat - t i) by ring. ring.
Qed.
Lemma refl_dbsplL t M p i x : (i + p + 1 <= M)%nat -> dbspl (refl t M) p (M - i - p - 1) (- x) = - dbsplL t p i x.
Proof.
  intros L. destruct p as [|q]; cbn [dbspl dbsplL]; [ring|].
  pose proof (refl_bsplL t M q i x ltac:(lia)) as I0. pose proof (refl_bsplL t M q (S i) x ltac:(lia)) as I1. 
  replace (M - i - S q - 1)%nat with (M - S i - q - 1)%nat by lia. rewrite I1. replace (S (M - S i - q - 1)) with (M - i - q - 1)%nat by lia. rewrite I0. unfold refl.
  replace (M - (M - S i - q - 1))%nat with (S i + S q)%nat by lia. replace (M - (M - S i - q - 1 + S q))%nat with (S i) by lia. replace (M - (M - i - q - 1 + S q))%nat with i by lia. replace (M - (M - i - q - 1))%nat with (i + S q)%nat by lia.
  replace (- t (S i) - - t (S i + S q)%nat) with (t (S i + S q)%nat - t (S i)) by ring. replace (- t i - - t (i + S q)%nat) with (t (i + S q)%nat - t i) by ring. ring.
Qed.

(** ** Both sides *)
Lemma two_sided f g x d r : 0 < r -> (forall y, x - r < y <= x -> g y = f y) -> rderiv f x d -> rderiv (fun y => g (- y)) (- x) (- d) -> derivable_pt_lim f x d.
Proof.
  intros R0 E F G eps EP. destruct (F eps EP) as (d1 & P1 & K1). destruct (G eps EP) as (d2 & P2 & K2).
  assert (M : 0 < Rmin (Rmin d1 d2) r) by (repeat apply Rmin_glb_lt; assumption). exists (mkposreal _ M). intros h N A. cbn [pos] in A.
  pose proof (Rmin_l (Rmin d1 d2) r). pose proof (Rmin_r (Rmin d1 d2) r). pose proof (Rmin_l d1 d2). pose proof (Rmin_r d1 d2).
  destruct (Rlt_le_dec 0 h) as [W0|W0].
  - apply K1. rewrite Rabs_right in A by lra. lra.
  - rewrite Rabs_left in A by lra. specialize (K2 (- h) ltac:(lra)). replace (- (- x + - h)) with (x + h) in K2 by ring. replace (- - x) with x in K2 by ring. rewrite !E in K2 by lra.
    replace ((f (x + h) - f x) / h - d) with (- ((f (x + h) - f x) / - h - - d)) by (field; lra). rewrite Rabs_Ropp. exact K2.
Qed.
Lemma rderiv_near0 f x d : rderiv f x d -> forall eps, 0 < eps -> exists del, 0 < del /\ forall h, 0 < h < del -> Rabs (f (x + h) - f x) < eps.
Proof.
  intros F eps EP. destruct (F 1 ltac:(lra)) as (d1 & P1 & K1). assert (D : 0 < eps / (Rabs d + 1)) by (apply Rdiv_lt_0_compat; [exact EP|pose proof (Rabs_pos d); lra]).
  exists (Rmin d1 (eps / (Rabs d + 1))). split; [now apply Rmin_glb_lt|]. intros h (H0 & H1). pose proof (Rmin_l d1 (eps / (Rabs d + 1))). pose proof (Rmin_r d1 (eps / (Rabs d + 1))). specialize (K1 h ltac:(lra)).
  set (q := (f (x + h) - f x) / h) in *. replace (f (x + h) - f x) with (q * h) by (unfold q; field; lra). rewrite Rabs_mult, (Rabs_right h) by lra.
  assert (B : Rabs q < Rabs d + 1) by (pose proof (Rabs_triang (q - d) d) as T; replace (q - d + d) with q in T by ring; lra).
  pose proof (Rabs_pos q). pose proof (Rabs_pos d). assert (h * (Rabs d + 1) < eps).
  { apply Rlt_le_trans with (eps / (Rabs d + 1) * (Rabs d + 1)); [apply Rmult_lt_compat_r; lra|]. right. field. lra. }
  nra.
Qed.
Lemma two_sided0 f g x d d' r : 0 < r -> (forall y, x - r < y <= x -> g y = f y) -> rderiv f x d -> rderiv (fun y => g (- y)) (- x) d' -> continuity_pt f x.
Proof.
  intros R0 E F G eps EP. destruct (rderiv_near0 _ _ _ F eps EP) as (d1 & P1 & K1). destruct (rderiv_near0 _ _ _ G eps EP) as (d2 & P2 & K2).
  assert (M : 0 < Rmin (Rmin d1 d2) r) by (repeat apply Rmin_glb_lt; assumption). exists (Rmin (Rmin d1 d2) r). split; [exact M|]. intros y ((_ & N) & A). cbn [dist R_met Base] in *. unfold R_dist in *.
  pose proof (Rmin_l (Rmin d1 d2) r). pose proof (Rmin_r (Rmin d1 d2) r). pose proof (Rmin_l d1 d2). pose proof (Rmin_r d1 d2).
  destruct (Rlt_le_dec x y) as [W0|W0].
  - rewrite (Rabs_right (y - x)) in A by lra. specialize (K1 (y - x) ltac:(lra)). now replace (x + (y - x)) with y in K1 by ring.
  - assert (y <> x) by congruence. rewrite (Rabs_left (y - x)) in A by lra. specialize (K2 (x - y) ltac:(lra)). replace (- (- x + (x - y))) with y in K2 by ring. replace (- - x) with x in K2 by ring. rewrite !E in K2 by lra. exact K2.
Qed.

(** ** Cn *)
Lemma Cn_ext n lo hi : forall f g, (forall y, lo < y < hi -> f y = g y) -> Cn n lo hi f -> Cn n lo hi g.
Proof.
  destruct n as [|n]; intros f g E H; cbn [Cn] in *.
  - intros y Hy eps EP. destruct (H y Hy eps EP) as (al & P & K). exists (Rmin al (Rmin (y - lo) (hi - y))). split; [repeat apply Rmin_glb_lt; lra|]. intros z (D & A). cbn [dist R_met Base] in *. unfold R_dist in *.
    pose proof (Rmin_l al (Rmin (y - lo) (hi - y))). pose proof (Rmin_r al (Rmin (y - lo) (hi - y))). pose proof (Rmin_l (y - lo) (hi - y)). pose proof (Rmin_r (y - lo) (hi - y)).
    rewrite <- !E; [apply K; split; [exact D|lra]|lra|]. assert (B : Rabs (z - y) < Rmin (y - lo) (hi - y)) by lra. apply Rabs_def2 in B. lra.
  - destruct H as (f' & D & C). exists f'. split; [|exact C]. intros y Hy eps EP. destruct (D y Hy eps EP) as (del & K). assert (M : 0 < Rmin del (Rmin (y - lo) (hi - y))) by (repeat apply Rmin_glb_lt; [apply cond_pos|lra|lra]).
    exists (mkposreal _ M). intros h N A. cbn [pos] in A. pose proof (Rmin_l del (Rmin (y - lo) (hi - y))). pose proof (Rmin_r del (Rmin (y - lo) (hi - y))). pose proof (Rmin_l (y - lo) (hi - y)). pose proof (Rmin_r (y - lo) (hi - y)).
    rewrite <- !E; [apply K; [exact N|lra]|lra|]. assert (B : Rabs h < Rmin (y - lo) (hi - y)) by lra. apply Rabs_def2 in B. lra.
Qed.
Lemma Cn_lin n lo hi a b : forall f g, Cn n lo hi f -> Cn n lo hi g -> Cn n lo hi (fun y => a * f y + b * g y).
Proof.
  induction n as [|n IH]; intros f g F G; cbn [Cn] in *.
  - intros y Hy. apply continuity_pt_plus; (apply continuity_pt_mult; [apply continuity_pt_const; intros ? ?; reflexivity|auto]).
  - destruct F as (f' & F & CF). destruct G as (g' & G & CG). exists (fun y => a * f' y + b * g' y). split; [|now apply IH]. intros y Hy.
    apply (derivable_pt_lim_plus (fun y => a * f y) (fun y => b * g y)); [apply (derivable_pt_lim_scal f a)|apply (derivable_pt_lim_scal g b)]; auto.
Qed.
Lemma Cn_shift n lo hi c : forall f, Cn n (lo + c) (hi + c) f -> Cn n lo hi (fun y => f (y + c)).
Proof.
  assert (D1 : forall y, derivable_pt_lim (fun y => y + c) y 1).
  { intros y. replace 1 with (1 + 0) by ring. apply (derivable_pt_lim_plus (fun y => y) (fun _ => c)); [apply derivable_pt_lim_id|apply derivable_pt_lim_const]. }
  induction n as [|n IH]; intros f F; cbn [Cn] in *.
  - intros y Hy. apply (continuity_pt_comp (fun y => y + c) f); [apply derivable_continuous_pt; exists 1; apply D1|apply F; lra].
  - destruct F as (f' & F & CF). exists (fun y => f' (y + c)). split; [|now apply IH]. intros y Hy. replace (f' (y + c)) with (f' (y + c) * 1) by ring. apply (derivable_pt_lim_comp (fun y => y + c) f); [apply D1|apply F; lra].
Qed.

Section Mono.
Context (t : nat -> R) (Ht : forall i j, (i <= j)%nat -> t i <= t j).
Lemma refl_mono M : forall i j, (i <= j)%nat -> refl t M i <= refl t M j.
Proof. intros i j L. unfold refl. pose proof (Ht (M - j) (M - i) ltac:(lia)). lra. Qed.
Lemma bsplL_lderiv p i x : rderiv (fun y => bsplL t p i (- y)) (- x) (- dbsplL t p i x).
Proof.
  set (M := (i + p + 1)%nat). pose proof (bspl_rderiv (refl t M) (refl_mono M) p (M - i - p - 1) (- x)) as H. rewrite refl_dbsplL in H by (unfold M; lia).
  eapply rderiv_ext; [|exact H]. intros y. cbv beta. rewrite <- (refl_bsplL t M) by (unfold M; lia). f_equal. ring.
Qed.

(** exactly the knots a+1 .. a+m equal x *)
Definition at_knot (x : R) (a m : nat) : Prop := (forall j, (j <= a)%nat -> t j < x) /\ (forall j, (a < j <= a + m)%nat -> t j = x) /\ (forall j, (a + m < j)%nat -> x < t j).

Lemma right_values x a m : at_knot x a m -> forall q, (q < m)%nat -> forall i, bspl t q i x = if (i + q =? a + m)%nat then 1 else 0.
Proof.
  intros (A & B & C). induction q as [|q IH]; intros L i; cbn [bspl].
  - rewrite Nat.add_0_r. destruct (Nat.eqb_spec i (a + m)) as [->|N].
    + rewrite (B (a + m)%nat) by lia. pose proof (C (S (a + m)) ltac:(lia)). destruct (Rle_dec x x); [|lra]. destruct (Rlt_dec x (t (S (a + m)))); [reflexivity|lra].
    + destruct (Nat.lt_ge_cases i (a + m)) as [H|H].
      * assert (t (S i) <= x) by (destruct (Nat.le_gt_cases (S i) a); [left; apply A; lia|right; apply B; lia]). destruct (Rle_dec (t i) x); [|reflexivity]. destruct (Rlt_dec x (t (S i))); [lra|reflexivity].
      * pose proof (C i ltac:(lia)). destruct (Rle_dec (t i) x); [lra|reflexivity].
  - rewrite !IH by lia. destruct (Nat.eqb_spec (i + q) (a + m)) as [E|E].
    + destruct (Nat.eqb_spec (S i + q) (a + m)); [lia|]. destruct (Nat.eqb_spec (i + S q) (a + m)); [lia|]. rewrite (B i) by lia. ring.
    + destruct (Nat.eqb_spec (S i + q) (a + m)) as [F|F]; destruct (Nat.eqb_spec (i + S q) (a + m)); try lia; [|ring]. rewrite (B (S i)) by lia. pose proof (C (S i + S q)%nat ltac:(lia)). rewrite inv0_self by lra. ring.
Qed.
Lemma left_values x a m : at_knot x a m -> forall q, (q < m)%nat -> forall i, bsplL t q i x = if (i =? a)%nat then 1 else 0.
Proof.
  intros (A & B & C). induction q as [|q IH]; intros L i; cbn [bsplL].
  - destruct (Nat.eqb_spec i a) as [->|N].
    + rewrite (B (S a)) by lia. pose proof (A a ltac:(lia)). destruct (Rlt_dec (t a) x); [|lra]. destruct (Rle_dec x x); [reflexivity|lra].
    + destruct (Nat.lt_ge_cases i a) as [H|H].
      * pose proof (A (S i) ltac:(lia)). destruct (Rlt_dec (t i) x); [|reflexivity]. destruct (Rle_dec x (t (S i))); [lra|reflexivity].
      * assert (x <= t i) by (destruct (Nat.le_gt_cases i (a + m)); [right; symmetry; apply B; lia|left; apply C; lia]). destruct (Rlt_dec (t i) x); [lra|reflexivity].
  - rewrite !IH by lia. destruct (Nat.eqb_spec i a) as [->|E].
    + destruct (Nat.eqb_spec (S a) a); [lia|]. rewrite (B (a + S q)%nat) by lia. pose proof (A a ltac:(lia)). rewrite inv0_self by lra. ring.
    + destruct (Nat.eqb_spec (S i) a) as [F|F]; [|ring]. rewrite (B (S i + S q)%nat) by lia. ring.
Qed.
Lemma sides_agree x a m : at_knot x a m -> forall p, (m <= p)%nat -> forall i, bsplL t p i x = bspl t p i x.
Proof.
  intros K. pose proof K as (A & B & C). induction p as [|q IH]; intros L i.
  - cbn [bspl bsplL]. assert (N : forall j, t j <> x) by (intros j; destruct (Nat.le_gt_cases j a); [pose proof (A j ltac:(lia))|pose proof (C j ltac:(lia))]; lra). pose proof (N i). pose proof (N (S i)).
    destruct (Rlt_dec (t i) x); destruct (Rle_dec (t i) x); try (destruct (Rle_dec x (t (S i)))); try (destruct (Rlt_dec x (t (S i)))); try reflexivity; exfalso; lra.
  - destruct (Nat.eq_dec m (S q)) as [->|N]; [|cbn [bspl bsplL]; rewrite !IH by lia; reflexivity].
    cbn [bspl bsplL]. rewrite !(right_values x a (S q) K), !(left_values x a (S q) K) by lia.
    destruct (Nat.eqb_spec i a) as [->|E].
    + destruct (Nat.eqb_spec (S a) a); [lia|]. destruct (Nat.eqb_spec (a + q) (a + S q)); [lia|]. destruct (Nat.eqb_spec (S a + q) (a + S q)); [|lia]. rewrite (B (a + S q)%nat), (B (S a)) by lia. pose proof (A a ltac:(lia)). pose proof (C (S a + S q)%nat ltac:(lia)). rewrite !inv0_self by lra. ring.
    + destruct (Nat.eqb_spec (S i) a) as [F|F].
      * destruct (Nat.eqb_spec (i + q) (a + S q)); [lia|]. destruct (Nat.eqb_spec (S i + q) (a + S q)); [lia|]. rewrite (B (S i + S q)%nat) by lia. ring.
      * destruct (Nat.eqb_spec (S i + q) (a + S q)); [lia|]. destruct (Nat.eqb_spec (i + q) (a + S q)) as [G|G]; [|ring]. rewrite (B i) by lia. ring.
Qed.

Section Gap.
Context (lo hi : R) (m : nat) (Gap : forall y, lo < y < hi -> exists a m', (m' <= m)%nat /\ at_knot y a m').
Lemma gap_agree p i y : (m <= p)%nat -> lo < y < hi -> bsplL t p i y = bspl t p i y.
Proof. intros L Hy. destruct (Gap y Hy) as (a & m' & L2 & K). apply (sides_agree y a m' K). lia. Qed.
Theorem bspl_Cn n : forall p i, (m + n <= p)%nat -> Cn n lo hi (bspl t p i).
Proof.
  induction n as [|n IH]; intros p i L; cbn [Cn].
  - intros y Hy. apply (two_sided0 _ (bsplL t p i) y (dbspl t p i y) (- dbsplL t p i y) (y - lo)); [lra|intros z Hz; apply gap_agree; [lia|lra]|apply bspl_rderiv; exact Ht|apply bsplL_lderiv].
  - destruct p as [|q]; [lia|]. exists (dbspl t (S q) i). split.
    + intros y Hy. assert (E : dbsplL t (S q) i y = dbspl t (S q) i y) by (cbn [dbspl dbsplL]; rewrite !gap_agree by (lia || lra); reflexivity).
      apply (two_sided _ (bsplL t (S q) i) y _ (y - lo)); [lra|intros z Hz; apply gap_agree; [lia|lra]|apply bspl_rderiv; exact Ht|rewrite <- E; apply bsplL_lderiv].
    + apply (Cn_ext n lo hi (fun y => INR (S q) * inv0 (t (i + S q)%nat - t i) * bspl t q i y + - INR (S q) * inv0 (t (S i + S q)%nat - t (S i)) * bspl t q (S i) y)); [intros y _; cbn [dbspl]; ring|].
      apply Cn_lin; apply IH; lia.
Qed.
End Gap.
End Mono.
