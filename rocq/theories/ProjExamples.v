(** Example for C86. *)
From Coq Require Import Reals Lra ZifyBool.
From Verif Require Import Common SplineModel GluingModel SurfGDSpec AsmModel BihModel BihSpec BihProofs BihProofs2 EdgeModel EdgeSpec EdgeProofs EdgeProofs2 EdgeExamples ProjModel ProjSpec ProjProofs.
Open Scope R_scope.

(** one hat function on each end, three nodes: 0, 1 and the middle *)
Definition pjEls : list qelem := [([0; 1]%nat, [mkQN 1 (0, 0) (two 1 0); mkQN 4 (/2, 0) (two (/2) (/2)); mkQN 1 (1, 0) (two 0 1)])].
Definition pjA (p : R * R) : R := 2 + 4 * fst p.
Definition pjB (p : R * R) : R := fst p * fst p.

Lemma pj_acts : acts_ok 2 pjEls.
Proof. intros e a [<-|[]] H; cbn in H; lia. Qed.
Lemma pj_solver : free_solver cramer 2 pjEls.
Proof.
  intros X EX b. match type of EX with assembleJobs ?m ?el ?jb = _ => destruct (run_jobs m el jb) as (Y & EY & _ & D2) end.
  { intros j a [<-|[]] H; cbn in H |- *; lia. }
  rewrite EX in EY. injection EY as <-. set (n := mfree _). assert (Nn : n = 2%nat) by reflexivity. rewrite Nn. clear n Nn.
  assert (V00 : smat X 0%nat 0%nat = 2) by (rewrite D2; unfold gv, AsmProofs.hit; cbn -[IZR]; lra). assert (V01 : smat X 0%nat 1%nat = 1) by (rewrite D2; unfold gv, AsmProofs.hit; cbn -[IZR]; lra).
  assert (V10 : smat X 1%nat 0%nat = 1) by (rewrite D2; unfold gv, AsmProofs.hit; cbn -[IZR]; lra). assert (V11 : smat X 1%nat 1%nat = 2) by (rewrite D2; unfold gv, AsmProofs.hit; cbn -[IZR]; lra).
  intros g Hg. destruct g as [|[|g]]; [| |lia]; unfold cramer; cbn [sumTo]; rewrite V00, V01, V10, V11; field.
Qed.
Lemma pj_weights : weights_pos pjEls.
Proof. intros n [<-|[<-|[<-|[]]]]; cbn; lra. Qed.
Lemma pj_sees : sees_all 2 pjEls.
Proof.
  intros c Z i Li. pose proof (Z _ (or_introl eq_refl)) as Z1. pose proof (Z _ (or_intror (or_intror (or_introl eq_refl)))) as Z2. unfold comb in Z1, Z2. cbn -[IZR] in Z1, Z2. destruct i as [|[|i]]; [lra|lra|lia].
Qed.
(** the first function is a spline, the second is not *)
Lemma pj_spline : is_spline pjEls pjA (two 2 6).
Proof. intros k [<-|[<-|[<-|[]]]]; unfold comb, pjA; cbn -[IZR]; lra. Qed.
Lemma pj_no_spline : ~ exists d, is_spline pjEls pjB d.
Proof.
  intros (d & S). pose proof (S _ (or_introl eq_refl)) as S1. pose proof (S _ (or_intror (or_introl eq_refl))) as S2. pose proof (S _ (or_intror (or_intror (or_introl eq_refl)))) as S3. unfold comb, pjB in S1, S2, S3. cbn -[IZR] in S1, S2, S3. lra.
Qed.
(** the coefficients of the second function: -1/6 and 5/6 *)
Lemma pj_ok : acts_ok 2 pjEls /\ free_solver cramer 2 pjEls /\ weights_pos pjEls /\ sees_all 2 pjEls /\ is_spline pjEls pjA (two 2 6) /\ (~ exists d, is_spline pjEls pjB d) /\
  setGluingData cramer 2 pjEls (fun p => Ok (pjA p)) (fun p => Ok (pjB p)) 1 ([[7]; []], [[8]; []]) = Ok ([[7]; [2; 6]], [[8]; [- / 6; 5 / 6]]) /\
  vertexFunctions cramer 2 pjEls (fun j p => Ok (INR j * pjA p)) = Ok (map (fun j => [INR j * 2; INR j * 6]) (seq 0 6)).
Proof.
  split; [exact pj_acts|]. split; [exact pj_solver|]. split; [exact pj_weights|]. split; [exact pj_sees|]. split; [exact pj_spline|]. split; [exact pj_no_spline|]. split.
  - unfold setGluingData. destruct (one_pf cramer 2 pjEls (fun p => Ok (pjA p)) pjA pj_acts pj_solver pj_weights) as (a & -> & LA & _ & XA); [intros k _; reflexivity|].
    destruct (XA (two 2 6) pj_sees pj_spline) as (_ & PA). destruct a as [|a0 [|a1 [|a2 a]]]; try discriminate LA. pose proof (PA 0%nat ltac:(lia)) as A0. pose proof (PA 1%nat ltac:(lia)) as A1. cbn [nth two] in A0, A1. subst. clear.
    unfold projectOne. destruct (mass_ok 2 pjEls pj_acts) as (X & EX). rewrite EX. cbn [bind].
    destruct (fun_ok cramer 2 pjEls X (fun p => Ok (pjB p)) pjB pj_acts pj_solver EX) as (b & -> & LB & PB); [intros k _; reflexivity|]. clear EX.
    destruct b as [|b0 [|b1 [|b2 b]]]; try discriminate LB. pose proof (PB (two 1 0)) as B0. pose proof (PB (two 0 1)) as B1. unfold lhsE, rhsE, comb, pjB in B0, B1. cbn -[IZR] in B0, B1.
    replace b0 with (- / 6) by lra. replace b1 with (5 / 6) by lra. reflexivity.
  - destruct (vertex_pf cramer 2 pjEls (fun j p => Ok (INR j * pjA p)) (fun j p => INR j * pjA p) pj_acts pj_solver pj_weights) as (cs & -> & L & P); [intros j _ k _; reflexivity|]. f_equal.
    assert (Q : forall j, (j < 6)%nat -> nth_error cs j = Some [INR j * 2; INR j * 6]).
    { intros j J. destruct (P j J) as (c & -> & LC & _ & _ & X). destruct (X (two (INR j * 2) (INR j * 6)) pj_sees) as (_ & Y).
      { intros k [<-|[<-|[<-|[]]]]; unfold comb, pjA; cbn -[IZR INR]; lra. }
      destruct c as [|c0 [|c1 [|c2 c]]]; try discriminate LC. pose proof (Y 0%nat ltac:(lia)) as Y0. pose proof (Y 1%nat ltac:(lia)) as Y1. cbn [nth two] in Y0, Y1. subst. reflexivity. }
    pose proof (Q 0%nat ltac:(lia)) as Q0. pose proof (Q 1%nat ltac:(lia)) as Q1. pose proof (Q 2%nat ltac:(lia)) as Q2. pose proof (Q 3%nat ltac:(lia)) as Q3. pose proof (Q 4%nat ltac:(lia)) as Q4. pose proof (Q 5%nat ltac:(lia)) as Q5. clear Q P.
    destruct cs as [|c0 [|c1 [|c2 [|c3 [|c4 [|c5 [|c6 cs]]]]]]]; try discriminate L. cbn [nth_error] in *. cbn [map seq]. congruence.
Qed.
