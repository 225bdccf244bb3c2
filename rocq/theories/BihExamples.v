(** Examples for C82. *)
From Coq Require Import Reals Lra ZifyBool.
From Verif Require Import Common SurfGDSpec AsmModel AsmSpec AsmProofs AsmExamples BihModel BihSpec BihProofs BihProofs2.
Open Scope R_scope.

(** three functions: the first is prescribed by its value, the second by its slope, the third is free *)
Definition exDirIx : list (list nat) := [[0%nat]; [0%nat]].
Definition exNeuIx : list (list nat) := [[1%nat]].
Definition exDir : list belem := [([0; 1; 2]%nat, [mkBN 2 (exVal 1 0 0) (exVal 7 7 7) 5 7])].
Definition exNeu : list belem := [([2; 1; 0]%nat, [mkBN 3 (exVal 7 7 7) (exVal 0 2 0) 7 6])].
Definition exLap : list belem := [([0; 1; 2]%nat, [mkBN 1 (exVal 7 7 7) (exVal 0 2 1) 4 7])].
Definition exInt : list ielem := [([0; 1; 2]%nat, [mkIN 1 (exVal 0 0 1) (exVal 1 1 2) 20])].

Lemma ex_prescribed i : prescribed exDirIx exNeuIx i <-> i = 0%nat \/ i = 1%nat.
Proof.
  split.
  - intros (l & [[<-|[<-|[]]]|[<-|[]]] & [<-|[]]); auto.
  - intros [-> | ->]; [exists [0%nat]|exists [1%nat]]; split; cbn; auto.
Qed.
Lemma ex_solver : solver_good diagonal 3 exDirIx exNeuIx exDir exNeu exLap exInt.
Proof.
  intros m mb E EB. cbn -[IZR] in E. injection E as <-. cbn -[IZR] in EB. injection EB as <-. split.
  - intros X EX. cbn -[IZR] in EX. injection EX as <-. intros g Hg. cbn in Hg. destruct g as [|[|g]]; [| |lia]; unfold diagonal, lambda; cbn -[IZR]; field.
  - intros fixed X _ EX. unfold bihSystem in EX. destruct (length fixed =? _)%nat; [|discriminate EX]. cbn [ensure bind] in EX.
    match type of EX with assembleJobs ?m ?el ?jb = _ => destruct (run_jobs m el jb) as (Y & EY & _ & D2); [apply (acts_jobs2 3); intros e a [<-|[]] H; cbn in H; lia|] end.
    rewrite EX in EY. injection EY as <-. intros g Hg. cbn in Hg. destruct g as [|g]; [|lia]. set (n := mfree _). assert (N : n = 1%nat) by reflexivity. rewrite N. clear n N Hg. unfold diagonal. cbn [sumTo].
    assert (V : smat X 0%nat 0%nat = 4) by (rewrite D2; unfold gv, hit; cbn -[IZR]; ring). rewrite V. field.
Qed.
Lemma ex_ok : bihSolve diagonal 3 exDirIx exNeuIx exDir exNeu exLap exInt = Ok [5; 3; 2] /\ solver_good diagonal 3 exDirIx exNeuIx exDir exNeu exLap exInt /\
  indices_ok 3 exDirIx exNeuIx /\ acts_ok 3 exDir /\ acts_ok 3 exNeu /\ acts_ok 3 exLap /\ acts_ok 3 exInt /\
  positive exDir exNeu exInt /\ visible 3 exDirIx exNeuIx exDir exNeu exInt /\ is_solution exDirIx exNeuIx exDir exNeu exLap exInt (fun i => nth i [5; 3; 2] 0).
Proof.
  match goal with |- _ /\ ?R => assert (Q : R) end.
  2: { split; [|exact Q]. destruct Q as (Q1 & Q2 & Q3 & Q4 & Q5 & Q6 & Q7 & Q8 & Q9). destruct (exact_pf diagonal 3 _ _ _ _ _ _ _ Q2 Q3 Q4 Q5 Q6 Q1 Q7 Q8 Q9) as (c & E & L & P). rewrite E. f_equal.
       destruct c as [|x [|y [|z [|t c]]]]; try discriminate L. pose proof (P 0%nat ltac:(lia)) as P0. pose proof (P 1%nat ltac:(lia)) as P1. pose proof (P 2%nat ltac:(lia)) as P2. cbn [nth] in P0, P1, P2. now subst. }
  split; [exact ex_solver|].
  split; [intros i P; apply ex_prescribed in P; lia|]. do 4 (split; [intros e a [<-|[]] H; cbn in H; lia|]).
  split; [repeat split; intros k [<-|[]]; cbn; lra|]. split; [split|split].
  - intros d O A B i L. specialize (A _ (or_introl eq_refl)). specialize (B _ (or_introl eq_refl)). unfold comb in A, B. cbn -[IZR] in A, B.
    destruct i as [|[|[|i]]]; [lra|lra| |lia]. apply O. rewrite ex_prescribed. lia.
  - intros d I A i L. pose proof (I 0%nat ltac:(rewrite ex_prescribed; lia)) as D0. pose proof (I 1%nat ltac:(rewrite ex_prescribed; lia)) as D1. specialize (A _ (or_introl eq_refl)). unfold comb in A. cbn -[IZR] in A.
    destruct i as [|[|[|i]]]; [exact D0|exact D1|lra|lia].
  - exists (fun i => match i with O => 5 | S O => 3 | _ => 0 end). split; [intros [|[|i]] N; [exfalso; apply N, ex_prescribed; now left|exfalso; apply N, ex_prescribed; now right|reflexivity]|].
    split; [intros i P; apply ex_prescribed in P; destruct P as [-> | ->]; reflexivity|]. split; intros k [<-|[]]; unfold valueGap, slopeGap, comb; cbn -[IZR]; ring.
  - intros d I. pose proof (I 0%nat ltac:(rewrite ex_prescribed; lia)) as D0. pose proof (I 1%nat ltac:(rewrite ex_prescribed; lia)) as D1. unfold bilinear, load, comb. cbn -[IZR]. rewrite D0, D1. ring.
Qed.

(** one function with value and slope 1, the value 0 and the slope 1 prescribed *)
Definition exV : list belem := [([0%nat], [mkBN 1 (fun _ => 1) (fun _ => 1) 0 1])].
Lemma ex_values : bihSolve diagonal 1 [[0%nat]] [[0%nat]] exV exV [] [] = Ok [/ 100001] /\ solver_good diagonal 1 [[0%nat]] [[0%nat]] exV exV [] [] /\
  (forall n, In n (nodes exV) -> valueGap (fun _ => 0) n = 0) /\ exists n, In n (nodes exV) /\ valueGap (fun _ => / 100001) n <> 0.
Proof.
  assert (SG : solver_good diagonal 1 [[0%nat]] [[0%nat]] exV exV [] []).
  { intros m mb E EB. cbn -[IZR] in E. injection E as <-. cbn -[IZR] in EB. injection EB as <-. split.
    + intros X EX. cbn -[IZR] in EX. injection EX as <-. intros g Hg. cbn in Hg. destruct g as [|g]; [|lia]; unfold diagonal, lambda; cbn -[IZR]; field.
    + intros fixed X _ _ g Hg. cbn in Hg. lia. }
  assert (PR : forall i, prescribed [[0%nat]] [[0%nat]] i <-> i = 0%nat) by (intros i; split; [intros (l & [[<-|[]]|[<-|[]]] & [<-|[]]); reflexivity|intros ->; exists [0%nat]; split; cbn; auto]).
  split; [|split; [exact SG|split]].
  - destruct (solve_core diagonal 1 [[0%nat]] [[0%nat]] exV exV [] []) as (c & b & E & L & OB & PB & EQ & _); [intros i P; apply PR in P; lia|intros e a [<-|[]] H; cbn in H; lia|intros e a [<-|[]] H; cbn in H; lia|intros e a []|intros e a []|exact SG|].
    refine (eq_trans E _). f_equal. destruct c as [|x [|y c]]; try discriminate L. specialize (PB 0%nat ltac:(now apply PR)). cbn [nth] in PB.
    specialize (EQ (single 0) ltac:(intros i N; unfold single; destruct i; [exfalso; apply N; now apply PR|reflexivity])). unfold lhsB, rhsB, comb, single in EQ. cbn -[IZR] in EQ. rewrite PB in EQ. f_equal. lra.
  - intros n [<-|[]]. unfold valueGap, comb. cbn -[IZR]. ring.
  - exists ([0%nat], mkBN 1 (fun _ => 1) (fun _ => 1) 0 1). split; [now left|]. unfold valueGap, comb. cbn -[IZR]. lra.
Qed.
