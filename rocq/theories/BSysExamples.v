(** Witness for property C81: six functions with one coefficient each on a 3 x 3 grid. *)
From Coq Require Import Reals Lra.
From Verif Require Import Common SurfGDSpec KernModel KernSpec KernProofs KernProofs2 KernExamples BSysModel BSysSpec BSysProofs BSysProofs2.
Open Scope nat_scope.

Definition sixFuns : vpatch := mkVP 3 3 (fun j k => if k =? nth j [0; 1; 3; 2; 4; 8] 9 then 1%R else 0%R) false false.

Lemma six_comb : forall x, comb sixFuns x 0 = x 0 /\ comb sixFuns x 1 = x 1 /\ comb sixFuns x 3 = x 2 /\ comb sixFuns x 2 = x 3 /\ comb sixFuns x 4 = x 4 /\ comb sixFuns x 8 = x 5 /\
  comb sixFuns x 5 = 0%R /\ comb sixFuns x 6 = 0%R /\ comb sixFuns x 7 = 0%R.
Proof. intros x. unfold comb. cbn. repeat split; ring. Qed.

Lemma six_big : forall x, zero_on sixFuns x (fun u v => u < 2 \/ v < 2) <-> (x 0 = 0%R /\ x 1 = 0%R /\ x 2 = 0%R /\ x 3 = 0%R /\ x 4 = 0%R).
Proof. intros x. destruct (six_comb x) as (C0 & C1 & C3 & C2 & C4 & C8 & C5 & C6 & C7). split.
  - intros H. rewrite <- C0, <- C1, <- C2, <- C3, <- C4. split; [apply (H 0 0)|split; [apply (H 1 0)|split; [apply (H 0 1)|split; [apply (H 2 0)|apply (H 1 1)]]]]; cbn; lia.
  - intros (X0 & X1 & X2 & X3 & X4) u v Lu Lv S. cbn in Lu, Lv. destruct u as [|[|[|u]]]; try lia; destruct v as [|[|[|v]]]; try lia; cbn -[comb]; congruence. Qed.

Lemma six_small : forall x, zero_on sixFuns x (fun u v => u = 0 \/ v = 0) <-> (x 0 = 0%R /\ x 1 = 0%R /\ x 2 = 0%R /\ x 3 = 0%R).
Proof. intros x. destruct (six_comb x) as (C0 & C1 & C3 & C2 & C4 & C8 & C5 & C6 & C7). split.
  - intros H. rewrite <- C0, <- C1, <- C2, <- C3. split; [apply (H 0 0)|split; [apply (H 1 0)|split; [apply (H 0 1)|apply (H 2 0)]]]; cbn; lia.
  - intros (X0 & X1 & X2 & X3) u v Lu Lv S. cbn in Lu, Lv. destruct u as [|[|[|u]]]; try lia; destruct v as [|[|[|v]]]; try lia; cbn -[comb]; congruence. Qed.

Lemma six_bases : forall B S, bigSystem sixFuns = Ok B -> smallSystem sixFuns = Ok S -> kernel_basis B [unitVec 5] /\ kernel_basis S [unitVec 4; unitVec 5].
Proof. intros B S EB ES. destruct (both_pf sixFuns) as (B' & S' & EB' & ES' & _ & _ & KB & KS); [cbn; lia|cbn; lia|]. rewrite EB in EB'. injection EB' as <-. rewrite ES in ES'. injection ES' as <-.
  split; split.
  - clear KB KS EB ES. intros (c & (j & Lj & Nj) & E). cbn in Lj. assert (j = 0) by lia. subst j. specialize (E 5 ltac:(lia)). cbn in E. unfold column_at, unitVec in E. cbn in E. lra.
  - intros v. rewrite (KB v), six_big. split.
    + intros (X0 & X1 & X2 & X3 & X4). exists (fun _ => v 5). intros i Li. unfold column_at, unitVec. cbn. destruct i as [|[|[|[|[|[|i]]]]]]; cbn; try lra; lia.
    + intros (c & E). clear KB KS EB ES. pose proof (E 0 ltac:(lia)) as E0. pose proof (E 1 ltac:(lia)) as E1. pose proof (E 2 ltac:(lia)) as E2. pose proof (E 3 ltac:(lia)) as E3. pose proof (E 4 ltac:(lia)) as E4.
      unfold column_at, unitVec in *. cbn in *. repeat split; lra.
  - clear KB KS EB ES. intros (c & (j & Lj & Nj) & E). cbn in Lj. pose proof (E 4 ltac:(lia)) as E4. pose proof (E 5 ltac:(lia)) as E5. unfold column_at, unitVec in *. cbn in *. destruct j as [|[|j]]; [|..|lia]; apply Nj; lra.
  - intros v. rewrite (KS v), six_small. split.
    + intros (X0 & X1 & X2 & X3). exists (fun j => v (4 + j)). intros i Li. unfold column_at, unitVec. cbn. destruct i as [|[|[|[|[|[|i]]]]]]; cbn; try lra; lia.
    + intros (c & E). clear KB KS EB ES. pose proof (E 0 ltac:(lia)) as E0. pose proof (E 1 ltac:(lia)) as E1. pose proof (E 2 ltac:(lia)) as E2. pose proof (E 3 ltac:(lia)) as E3.
      unfold column_at, unitVec in *. cbn in *. repeat split; lra. Qed.

Lemma units_clean : forall eps l, (eps <= 1)%R -> clean eps (map unitVec l).
Proof. intros eps l He c i I _. apply in_map_iff in I. destruct I as (k & <- & _). unfold unitVec. destruct (i =? k); [right; rewrite Rabs_R1; exact He|left; reflexivity]. Qed.

Lemma six_example : exists B S, bigSystem sixFuns = Ok B /\ smallSystem sixFuns = Ok S /\ kernel_basis B [unitVec 5] /\ kernel_basis S [unitVec 4; unitVec 5] /\ (forall K, depb K = true <-> dependent K) /\
  clean (1/10) [unitVec 5] /\ clean (1/10) [unitVec 4; unitVec 5].
Proof. destruct (both_pf sixFuns) as (B & S & EB & ES & _); [cbn; lia|cbn; lia|]. exists B, S. split; [exact EB|]. split; [exact ES|]. destruct (six_bases B S EB ES) as [K1 K2]. split; [exact K1|]. split; [exact K2|]. split; [exact depb_ok|].
  split; [apply (units_clean _ [5])|apply (units_clean _ [4; 5])]; lra. Qed.

(** The third number. *)
Lemma numbers_pf : forall dep eps big bigDim small smallDim K a b n, selectBasis dep eps big bigDim small smallDim = Ok (K, [a; b; n]) -> (a + b + n = Z.of_nat (length big))%Z.
Proof. intros dep eps big bigDim small smallDim K a b n E. unfold selectBasis in E.
  set (V := if negb (bigDim =? 0) then _ else _) in E. destruct V as [V0|]; [|discriminate]. cbn [bind] in E. inversion E. subst. lia. Qed.

Lemma numbers_refuted_pf : exists dep p B S big small K a b n, (forall K, dep K = true <-> dependent K) /\ bigSystem p = Ok B /\ smallSystem p = Ok S /\ kernel_basis B big /\ kernel_basis S small /\
  selectBasis dep (1/10) big (length big) small (length small) = Ok (K, [a; b; n]) /\ length K = 6 /\ a = 1%Z /\ b = 1%Z /\ n = (-1)%Z.
Proof. destruct six_example as (B & S & EB & ES & KB & KS & DS & CB & CS).
  destruct (corner_pf depb (1/10) sixFuns B S [unitVec 5] [unitVec 4; unitVec 5] DS ltac:(lra) ltac:(cbn; lia) ltac:(cbn; lia) EB ES KB KS CB CS) as (K & n & E & LK & _).
  exists depb, sixFuns, B, S, [unitVec 5], [unitVec 4; unitVec 5], K. do 3 eexists. split; [exact DS|]. split; [exact EB|]. split; [exact ES|]. split; [exact KB|]. split; [exact KS|]. split; [exact E|]. split; [exact LK|].
  split; [reflexivity|]. split; [reflexivity|]. apply numbers_pf in E. cbn [length Z.of_nat] in E. lia. Qed.
