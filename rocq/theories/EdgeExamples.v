(** Example for C83. *)
From Coq Require Import Reals Lra ZifyBool.
From Verif Require Import Common SplineModel GluingModel SurfGDSpec AsmModel BihModel BihSpec BihProofs BihProofs2 EdgeModel EdgeSpec EdgeProofs EdgeProofs2.
Open Scope R_scope.

(** two hat functions across, one constant along the edge; the nodes (0, 1/2) and (1/2, 1/2) *)
Definition edB : sbasis := mkSB [0; 0; 1; 1] 1.
Definition edE : sbasis := mkSB [0; 1] 0.
Definition edPlus : sbasis := mkSB [-3; -2; -1; 0; 1; 2; 3; 4; 5] 1.
Definition edMinus : sbasis := mkSB [-2; -1; 0; 1; 2; 3] 0.
Definition two (a b : R) (p : nat) : R := match p with O => a | S O => b | _ => 0 end.
Definition edEls : list qelem := [([0; 1]%nat, [mkQN 1 (0, /2) (two 1 0); mkQN 4 (/2, /2) (two (/2) (/2))])].
(** Cramer's rule for two unknowns *)
Definition cramer (n : nat) (M : nat -> nat -> R) (b : nat -> R) (i : nat) : R :=
  let D := M 0%nat 0%nat * M 1%nat 1%nat - M 0%nat 1%nat * M 1%nat 0%nat in
  match i with O => (b 0%nat * M 1%nat 1%nat - M 0%nat 1%nat * b 1%nat) / D | _ => (M 0%nat 0%nat * b 1%nat - b 0%nat * M 1%nat 0%nat) / D end.

Ltac dec := repeat match goal with |- context[Rle_dec ?a ?b] => destruct (Rle_dec a b); try (exfalso; lra) | |- context[Rlt_dec ?a ?b] => destruct (Rlt_dec a b); try (exfalso; lra) | |- context[Req_EM_T ?a ?b] => destruct (Req_EM_T a b); try (exfalso; lra) end.
Ltac spl := cbn -[IZR Rmult Rplus Rminus Rinv]; unfold inv0; dec; try lra.

Lemma ed_b0 : bspl (tknot edB) 1 0 0 = 1.
Proof. unfold tknot. spl. Qed.
Lemma ed_b1 : bspl (tknot edB) 1 1 0 = 0.
Proof. unfold tknot. spl. Qed.
Lemma ed_b2 : bspl (tknot edB) 1 0 (/2) = /2.
Proof. unfold tknot. spl. Qed.
Lemma ed_b3 : bspl (tknot edB) 1 1 (/2) = /2.
Proof. unfold tknot. spl. Qed.
Lemma ed_e : bspl (tknot edE) 0 0 (/2) = 1.
Proof. unfold tknot. spl. Qed.
Lemma ed_p : bspl (tknot edPlus) 1 3 (/2) = /2.
Proof. unfold tknot. spl. Qed.
Lemma ed_dp : dbspl (tknot edPlus) 1 3 (/2) = 1.
Proof. unfold tknot. spl. Qed.
Lemma ed_m : bspl (tknot edMinus) 0 2 (/2) = 1.
Proof. unfold tknot. spl. Qed.

Lemma ed_setting : edge_setting cramer 2 1 1 edEls edB edE.
Proof.
  assert (A : acts_ok (2 * 1) edEls) by (intros e a [<-|[]] H; cbn in H; lia).
  split; [exact A|]. split.
  { intros m X EM EX b. cbn -[IZR] in EM. injection EM as <-. match type of EX with assembleJobs ?m ?el ?jb = _ => destruct (run_jobs m el jb) as (Y & EY & _ & D2) end.
    { intros j a [<-|[]] H; cbn in H |- *; lia. }
    rewrite EX in EY. injection EY as <-. set (n := mfree _). assert (Nn : n = 2%nat) by reflexivity. rewrite Nn. clear n Nn.
    assert (V00 : smat X 0%nat 0%nat = 2) by (rewrite D2; unfold gv, AsmProofs.hit; cbn -[IZR]; lra). assert (V01 : smat X 0%nat 1%nat = 1) by (rewrite D2; unfold gv, AsmProofs.hit; cbn -[IZR]; lra).
    assert (V10 : smat X 1%nat 0%nat = 1) by (rewrite D2; unfold gv, AsmProofs.hit; cbn -[IZR]; lra). assert (V11 : smat X 1%nat 1%nat = 1) by (rewrite D2; unfold gv, AsmProofs.hit; cbn -[IZR]; lra).
    intros g Hg. destruct g as [|[|g]]; [| |lia]; unfold cramer; cbn [sumTo]; rewrite V00, V01, V10, V11; field. }
  split; [intros n [<-|[<-|[]]]; cbn; lra|]. split.
  { intros c _ Z i Li. pose proof (Z _ (or_introl eq_refl)) as Z1. pose proof (Z _ (or_intror (or_introl eq_refl))) as Z2. unfold comb in Z1, Z2. cbn -[IZR] in Z1, Z2. destruct i as [|[|i]]; [lra|lra|lia]. }
  split; [cbn; lia|]. split; [reflexivity|]. split; [reflexivity|].
  intros n [<-|[<-|[]]] c; unfold comb; cbn [fst snd qx qv length nth]; cbn [Nat.mul Nat.add sumTo layer place GluingModel.row Nat.sub]; cbn [sdeg edB edE fst snd].
  - change (0 mod 2)%nat with 0%nat. change (1 mod 2)%nat with 1%nat. change (0 / 2)%nat with 0%nat. change (1 / 2)%nat with 0%nat. rewrite ed_b0, ed_b1, ed_e. cbn [two nth]. ring.
  - change (0 mod 2)%nat with 0%nat. change (1 mod 2)%nat with 1%nat. change (0 / 2)%nat with 0%nat. change (1 / 2)%nat with 0%nat. rewrite ed_b2, ed_b3, ed_e. cbn [two nth]. ring.
Qed.

Lemma ed_ok : edge_setting cramer 2 1 1 edEls edB edE /\ how_many edPlus edMinus = 2%nat /\
  edgeFunctionsOf cramer 2 1 1 edEls (fun _ => edB) edPlus edMinus (fun _ => 3) (fun y => 2 * y) false = Ok [[/2; - /2]; [0; 3]].
Proof.
  split; [exact ed_setting|]. split; [reflexivity|].
  destruct (exact_setting_pf cramer 2 1 1 edEls (fun _ => edB) edPlus edMinus (fun _ => 3) (fun y => 2 * y) false edE ed_setting) as (cs & E & L & T & N). rewrite E. f_equal.
  destruct (T 3%nat (fun _ => /2) (fun _ => - /2)) as (r & R & LR & P).
  { cbn. lia. }
  { intros n [<-|[<-|[]]]; cbn [snd qx GluingModel.row]; change (bsize edE) with 1%nat; cbn [sumTo]; change (sdeg edPlus) with 1%nat; change (sdeg edE) with 0%nat; rewrite ed_e, ed_p; ring. }
  { intros n [<-|[<-|[]]]; cbn [snd qx GluingModel.row]; change (bsize edE) with 1%nat; cbn [sumTo]; unfold trace_slope; change (sdeg edPlus) with 1%nat; change (sdeg edE) with 0%nat; rewrite ed_e, ed_p, ed_dp; cbn -[IZR Rdiv]; field. }
  destruct (N 2%nat (fun _ => 3)) as (q & Q & LQ & PQ).
  { cbn. lia. }
  { intros n [<-|[<-|[]]]; cbn [snd qx GluingModel.row]; change (bsize edE) with 1%nat; cbn [sumTo]; unfold normal_slope; change (sdeg edMinus) with 0%nat; change (sdeg edE) with 0%nat; rewrite ed_e, ed_m; cbn -[IZR Rdiv]; field. }
  cbn in R, Q. change (how_many edPlus edMinus) with 2%nat in L. destruct cs as [|r0 [|q0 [|z cs]]]; try discriminate L. cbn in R, Q. injection R as ->. injection Q as ->.
  destruct r as [|x [|y [|z r]]]; try discriminate LR. destruct q as [|x' [|y' [|z' q]]]; try discriminate LQ.
  pose proof (P 0%nat ltac:(cbn; lia)) as P0. pose proof (P 1%nat ltac:(cbn; lia)) as P1. pose proof (PQ 0%nat ltac:(cbn; lia)) as Q0. pose proof (PQ 1%nat ltac:(cbn; lia)) as Q1. cbn [nth layer place Nat.modulo Nat.div Nat.divmod fst snd Nat.sub] in P0, P1, Q0, Q1. subst. reflexivity.
Qed.
