(** Example for C87. *)
From Coq Require Import Reals Lra ZifyBool.
From Verif Require Import Common SplineModel SurfGDSpec BihSpec EdgeModel EdgeSpec EdgeExamples GluingModel InterpModel InterpSpec InterpProofs.
Open Scope R_scope.

(** values from the left at the right end of the interval, where the last function is one *)
Definition evClosed (b : sbasis) (i : nat) (x : R) : R := if Rlt_dec x (tknot b (bsize b)) then bspl (tknot b) (sdeg b) i x else if (i =? bsize b - 1)%nat then 1 else 0.
Definition dvOf (b : sbasis) (i : nat) (x : R) : R := dbspl (tknot b) (sdeg b) i x.

Lemma ip_a0 : anchor edB 0 = 0.
Proof. unfold anchor, tknot. cbn -[IZR]. lra. Qed.
Lemma ip_a1 : anchor edB 1 = 1.
Proof. unfold anchor, tknot. cbn -[IZR]. lra. Qed.
Ltac closed := unfold evClosed, dvOf; change (bsize edB) with 2%nat; change (bsize edPlus) with 7%nat; change (bsize edMinus) with 5%nat; unfold tknot; cbn -[IZR Rmult Rplus Rminus Rinv]; unfold inv0; dec; try lra.
Lemma ip_00 : evClosed edB 0 0 = 1.
Proof. closed. Qed.
Lemma ip_10 : evClosed edB 1 0 = 0.
Proof. closed. Qed.
Lemma ip_01 : evClosed edB 0 1 = 0.
Proof. closed. Qed.
Lemma ip_11 : evClosed edB 1 1 = 1.
Proof. closed. Qed.
Lemma ip_p0 : evClosed edPlus 3 0 = 0.
Proof. closed. Qed.
Lemma ip_p1 : evClosed edPlus 3 1 = 1.
Proof. closed. Qed.
Lemma ip_d0 : dvOf edPlus 3 0 = 1.
Proof. closed. Qed.
Lemma ip_d1 : dvOf edPlus 3 1 = - (1).
Proof. closed. Qed.
Lemma ip_m0 : evClosed edMinus 2 0 = 1.
Proof. closed. Qed.
Lemma ip_m1 : evClosed edMinus 2 1 = 0.
Proof. closed. Qed.
Lemma ip_spline c k : (k < 2)%nat -> spline1 evClosed edB c (anchor edB k) = c k.
Proof. intros K. unfold spline1. change (bsize edB) with 2%nat. destruct k as [|[|k]]; [| |lia]; cbn [sumTo]; rewrite ?ip_a0, ?ip_a1, ?ip_00, ?ip_01, ?ip_10, ?ip_11; ring. Qed.
Lemma ip_good : good evClosed cramer edB.
Proof.
  split.
  - intros v i I. change (bsize edB) with 2%nat in *. cbn [sumTo]. unfold cramer, collocation. rewrite ip_a0, ip_a1, ip_00, ip_01, ip_10, ip_11. destruct i as [|[|i]]; [| |lia]; rewrite ?ip_a0, ?ip_a1, ?ip_00, ?ip_01, ?ip_10, ?ip_11; field.
  - intros c Z j J. change (bsize edB) with 2%nat in *. rewrite <- (ip_spline c j J). now apply Z.
Qed.
Lemma ip_inter f x y : f 0 = x -> f 1 = y -> interpolates1 evClosed edB f (two x y).
Proof. intros X Y k K. change (bsize edB) with 2%nat in K. rewrite (ip_spline _ k K). destruct k as [|[|k]]; [rewrite ip_a0|rewrite ip_a1|lia]; cbn; congruence. Qed.

Lemma ip_ok : good evClosed cramer edB /\ (2 <= bsize edB)%nat /\ clamped_enough edB /\ how_many edPlus edMinus = 2%nat /\
  edgeInterp evClosed dvOf cramer edB edB 1 (fun _ => edB) edPlus edMinus (fun _ => 3) (fun y => 2 * y) false = Ok [[0; 0; 1; 3]; [0; 3; 0; 0]] /\
  edgeInterp evClosed dvOf cramer edB edB 0 (fun _ => edB) edPlus edMinus (fun _ => 5) (fun y => 1 + y) false = Ok [[0; 1; - (1); 3]; [0; 0; - 5; 0]].
Proof.
  assert (LB : (2 <= bsize edB)%nat) by (cbn; lia).
  split; [exact ip_good|]. split; [exact LB|]. split; [split; [cbn; lia|unfold tknot; cbn -[IZR]; lra]|]. split; [reflexivity|].
  assert (TAU : tknot edB (sdeg edB + 1) / INR (sdeg edB) = 1) by (unfold tknot; cbn -[IZR]; lra).
  split.
  - destruct (edge_interp_pf evClosed dvOf cramer edB edB 1 (fun _ => edB) edPlus edMinus (fun _ => 3) (fun y => 2 * y) false ip_good ip_good LB eq_refl) as (cs & -> & L & T & N). cbn [across_basis along_basis] in T, N. f_equal.
    destruct (T 3%nat (two 0 1) (two 0 3)) as (r & R & LR & P); [cbn; lia|apply ip_inter; [exact ip_p0|exact ip_p1]| |].
    { apply ip_inter; unfold slope_trace; rewrite TAU, ?ip_p0, ?ip_p1, ?ip_d0, ?ip_d1; ring. }
    destruct (N 2%nat (two 3 0)) as (q & Q & LQ & PQ); [cbn; lia| |].
    { apply ip_inter; unfold slope_normal; rewrite TAU, ?ip_m0, ?ip_m1; ring. }
    change (how_many edPlus edMinus) with 2%nat in L. destruct cs as [|r0 [|q0 [|z cs]]]; try discriminate L. cbn in R, Q. injection R as ->. injection Q as ->. change (bsize edB) with 2%nat in *.
    destruct r as [|x0 [|x1 [|x2 [|x3 [|x4 r]]]]]; try discriminate LR. destruct q as [|y0 [|y1 [|y2 [|y3 [|y4 q]]]]]; try discriminate LQ.
    pose proof (P 0%nat ltac:(lia)) as P0. pose proof (P 1%nat ltac:(lia)) as P1. pose proof (P 2%nat ltac:(lia)) as P2. pose proof (P 3%nat ltac:(lia)) as P3.
    pose proof (PQ 0%nat ltac:(lia)) as Q0. pose proof (PQ 1%nat ltac:(lia)) as Q1. pose proof (PQ 2%nat ltac:(lia)) as Q2. pose proof (PQ 3%nat ltac:(lia)) as Q3. cbn in P0, P1, P2, P3, Q0, Q1, Q2, Q3. subst. reflexivity.
  - destruct (edge_interp_pf evClosed dvOf cramer edB edB 0 (fun _ => edB) edPlus edMinus (fun _ => 5) (fun y => 1 + y) false ip_good ip_good LB eq_refl) as (cs & -> & L & T & N). cbn [across_basis along_basis] in T, N. f_equal.
    destruct (T 3%nat (two 0 1) (two (- (1)) 3)) as (r & R & LR & P); [cbn; lia|apply ip_inter; [exact ip_p0|exact ip_p1]| |].
    { apply ip_inter; unfold slope_trace; rewrite TAU, ?ip_p0, ?ip_p1, ?ip_d0, ?ip_d1; ring. }
    destruct (N 2%nat (two (- 5) 0)) as (q & Q & LQ & PQ); [cbn; lia| |].
    { apply ip_inter; unfold slope_normal; rewrite TAU, ?ip_m0, ?ip_m1; ring. }
    change (how_many edPlus edMinus) with 2%nat in L. destruct cs as [|r0 [|q0 [|z cs]]]; try discriminate L. cbn in R, Q. injection R as ->. injection Q as ->. change (bsize edB) with 2%nat in *.
    destruct r as [|x0 [|x1 [|x2 [|x3 [|x4 r]]]]]; try discriminate LR. destruct q as [|y0 [|y1 [|y2 [|y3 [|y4 q]]]]]; try discriminate LQ.
    pose proof (P 0%nat ltac:(lia)) as P0. pose proof (P 1%nat ltac:(lia)) as P1. pose proof (P 2%nat ltac:(lia)) as P2. pose proof (P 3%nat ltac:(lia)) as P3.
    pose proof (PQ 0%nat ltac:(lia)) as Q0. pose proof (PQ 1%nat ltac:(lia)) as Q1. pose proof (PQ 2%nat ltac:(lia)) as Q2. pose proof (PQ 3%nat ltac:(lia)) as Q3. cbn in P0, P1, P2, P3, Q0, Q1, Q2, Q3. subst. reflexivity.
Qed.
(** with the half-open convention of [bspl] the system of the same basis would be singular *)
Lemma ip_halfopen : ~ regular (fun b => bspl (tknot b) (sdeg b)) edB.
Proof.
  intros G. assert (Z : two 0 1 1%nat = 0); [|cbn in Z; lra]. apply G; [|cbn; lia]. intros k K. change (bsize edB) with 2%nat in K. unfold spline1. change (bsize edB) with 2%nat. destruct k as [|[|k]]; [| |lia]; cbn [sumTo two]; rewrite ?ip_a0, ?ip_a1; unfold tknot; cbn -[IZR Rmult Rplus Rminus Rinv]; unfold inv0; dec; lra.
Qed.
