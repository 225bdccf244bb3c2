(** Proofs about the systems of one patch. *)
From Coq Require Import Reals Lra.
From Verif Require Import Common SurfGDSpec KernModel KernSpec KernProofs KernProofs2 BSysModel BSysSpec.
Open Scope nat_scope.

Section Fill.
Variables (p : vpatch) (rows : nat) (pairs : list (nat * nat)).
Hypothesis RB : forall r k, In (r, k) pairs -> r < rows.
Hypothesis KB : forall r k, In (r, k) pairs -> k < vdu p * vdv p.
Hypothesis FU : forall r k k', In (r, k) pairs -> In (r, k') pairs -> k = k'.

Lemma column_ok : forall m0 bf, krows m0 = rows -> bf < 6 ->
  exists m, foldM (fun m '(r, k) => do x <- coefAt p bf k; kset m r bf x) pairs m0 = Ok m /\ krows m = rows /\
    (forall r k, In (r, k) pairs -> kval m r bf = vcoef p bf k) /\ (forall r j, j <> bf \/ (forall k, ~ In (r, k) pairs) -> kval m r j = kval m0 r j).
Proof. intros m0 bf R0 B6.
  destruct (foldM_list (fun m done => incl done pairs /\ krows m = rows /\ (forall r k, In (r, k) done -> kval m r bf = vcoef p bf k) /\ (forall r j, j <> bf \/ (forall k, ~ In (r, k) done) -> kval m r j = kval m0 r j))
    (fun m '(r, k) => do x <- coefAt p bf k; kset m r bf x) pairs [] m0) as (m & E & (I & Hr & Hv & Hn)).
  - split; [intros x []|]. split; [exact R0|]. split; [intros r k []|]. reflexivity.
  - intros [r k] done m In1 (I & Hr & Hv & Hn). unfold coefAt, kset. rewrite (proj2 (Nat.ltb_lt _ _) (KB _ _ In1)). cbn [bind]. rewrite Hr, (proj2 (Nat.ltb_lt _ _) (RB _ _ In1)), (proj2 (Nat.ltb_lt _ _) B6). cbn [andb].
    eexists. split; [reflexivity|]. split; [intros x X; apply in_app_or in X; destruct X as [X|[<-|[]]]; [apply I; exact X|exact In1]|]. split; [reflexivity|]. cbn [kval]. split.
    + intros r' k' X. rewrite Nat.eqb_refl, Bool.andb_true_r. destruct (Nat.eqb_spec r' r) as [->|N].
      * f_equal. apply (FU r); [exact In1|]. apply in_app_or in X. destruct X as [X|[X|[]]]; [apply I; exact X|injection X as <-; exact In1].
      * apply Hv. apply in_app_or in X. destruct X as [X|[X|[]]]; [exact X|congruence].
    + intros r' j' X. destruct (Nat.eqb_spec r' r) as [->|N]; [destruct (Nat.eqb_spec j' bf) as [->|N]|]; cbn [andb].
      * exfalso. destruct X as [X|X]; [congruence|]. apply (X k). apply in_or_app. right. left. reflexivity.
      * apply Hn. left. exact N.
      * apply Hn. destruct X as [X|X]; [left; exact X|right]. intros k' Y. apply (X k'). apply in_or_app. left. exact Y.
  - exists m. split; [exact E|]. split; [exact Hr|]. split; [exact Hv|exact Hn]. Qed.

Lemma fill_ok : exists m, fill p rows pairs = Ok m /\ krows m = rows /\
    (forall r k j, In (r, k) pairs -> j < 6 -> kval m r j = vcoef p j k) /\ (forall r j, (forall k, ~ In (r, k) pairs) -> kval m r j = 0%R).
Proof. unfold fill.
  destruct (foldM_seq (fun n m => krows m = rows /\ (forall r k j, In (r, k) pairs -> j < n -> kval m r j = vcoef p j k) /\ (forall r j, (forall k, ~ In (r, k) pairs) -> kval m r j = 0%R))
    (fun m bf => foldM (fun m '(r, k) => do x <- coefAt p bf k; kset m r bf x) pairs m) 6 0 (mkKM rows (fun _ _ => 0%R))) as (m & E & H).
  - split; [reflexivity|]. split; [lia|reflexivity].
  - intros i m [_ L] (Hr & Hv & Hz). destruct (column_ok m i Hr L) as (m' & E & Hr' & Hv' & Hn'). exists m'. split; [exact E|]. split; [exact Hr'|]. split.
    + intros r k j I J. destruct (Nat.eq_dec j i) as [->|N]; [apply Hv'; exact I|]. rewrite Hn' by (left; exact N). apply Hv; [exact I|lia].
    + intros r j N. rewrite Hn' by (right; exact N). apply Hz. exact N.
  - exists m. split; [exact E|]. exact H. Qed.
End Fill.

Lemma row_dec : forall (pairs : list (nat * nat)) r, (exists k, In (r, k) pairs) \/ (forall k, ~ In (r, k) pairs).
Proof. induction pairs as [|[a b] l IH]; intros r; [right; intros k []|]. destruct (IH r) as [[k H]|H]; [left; exists k; right; exact H|].
  destruct (Nat.eq_dec a r) as [->|N]; [left; exists b; left; reflexivity|]. right. intros k [X|X]; [congruence|exact (H k X)]. Qed.

Lemma grid_bound : forall u v du dv, u < du -> v < dv -> u + v * du < du * dv.
Proof. intros. nia. Qed.

Lemma kernel_pairs : forall p rows pairs (S : nat -> nat -> Prop), (forall r k, In (r, k) pairs -> r < rows) -> (forall r k k', In (r, k) pairs -> In (r, k') pairs -> k = k') ->
  (forall r k, In (r, k) pairs -> exists u v, u < vdu p /\ v < vdv p /\ S u v /\ k = u + v * vdu p) ->
  (forall u v, u < vdu p -> v < vdv p -> S u v -> exists r, In (r, u + v * vdu p) pairs) ->
  exists M, fill p rows pairs = Ok M /\ krows M = rows /\ kernel_is M p S.
Proof. intros p rows pairs S RB FU A B. destruct (fill_ok p rows pairs RB) as (M & E & Hr & Hv & Hz); [|exact FU|].
  - intros r k I. destruct (A r k I) as (u & v & Lu & Lv & _ & ->). apply grid_bound; assumption.
  - exists M. split; [exact E|]. split; [exact Hr|]. intros x.
    assert (C : forall r k, In (r, k) pairs -> sumTo 6 (fun j => (kval M r j * x j)%R) = comb p x k).
    { intros r k I. unfold comb. apply sumTo_ext. intros j L. rewrite (Hv r k j I L). reflexivity. }
    split.
    + intros H u v Lu Lv Suv. destruct (B u v Lu Lv Suv) as (r & I). rewrite <- (C _ _ I). apply H. rewrite Hr. exact (RB _ _ I).
    + intros H r L. destruct (row_dec pairs r) as [[k I]|N].
      * rewrite (C _ _ I). destruct (A r k I) as (u & v & Lu & Lv & Suv & ->). apply H; assumption.
      * apply sumTo_0. intros j _. rewrite (Hz r j N). ring. Qed.

Ltac ins := repeat match goal with
  | H : In _ (_ ++ _) |- _ => apply in_app_or in H; destruct H as [H|H]
  | H : In _ (map _ _) |- _ => let z := fresh "z" in let E := fresh "E" in let I := fresh "J" in apply in_map_iff in H; destruct H as (z & E & I); injection E as ? ?
  | H : In _ (flat_map _ _) |- _ => let z := fresh "z" in let I := fresh "J" in apply in_flat_map in H; destruct H as (z & I & H)
  | H : In _ (seq _ _) |- _ => apply in_seq in H
  | H : In _ [] |- _ => destruct H
  | H : In _ (_ :: _) |- _ => destruct H as [H|H]; [injection H as ? ?|] end; subst.

Lemma in_two_rows : forall du i, i < 2 * du -> exists u v, u < du /\ v < 2 /\ i = u + v * du.
Proof. intros du i L. destruct (Nat.lt_ge_cases i du); [exists i, 0|exists (i - du), 1]; lia. Qed.

Lemma rightBig_ok : forall p, 2 <= vdv p -> exists M, rightBig p = Ok M /\ krows M = 2 * vdu p /\ kernel_is M p (fun u v => v < 2).
Proof. intros p Lv. apply kernel_pairs.
  - intros r k I. ins. lia.
  - intros r k k' I I'. ins. lia.
  - intros r k I. ins. destruct (in_two_rows (vdu p) k) as (u & v & ? & ? & E); [lia|]. exists u, v. repeat split; lia.
  - intros u v Lu Lv' S. exists (u + v * vdu p). apply (in_map (fun i => (i, i))). apply in_seq. nia. Qed.

Lemma rightSmall_ok : forall p, 1 <= vdv p -> exists M, rightSmall p = Ok M /\ krows M = vdu p /\ kernel_is M p (fun u v => v = 0).
Proof. intros p Lv. apply kernel_pairs.
  - intros r k I. ins. lia.
  - intros r k k' I I'. ins. lia.
  - intros r k I. ins. exists k, 0. repeat split; lia.
  - intros u v Lu Lv' ->. exists (u + 0 * vdu p). apply (in_map (fun i => (i, i))). apply in_seq. nia. Qed.

Lemma leftSmall_ok : forall p, 1 <= vdu p -> exists M, leftSmall p = Ok M /\ krows M = vdv p /\ kernel_is M p (fun u v => u = 0).
Proof. intros p Lv. apply kernel_pairs.
  - intros r k I. ins. lia.
  - intros r k k' I I'. ins. lia.
  - intros r k I. ins. exists 0, r. repeat split; lia.
  - intros u v Lu Lv' ->. exists v. apply (in_map (fun i => (i, i * vdu p)) _ v). apply in_seq. nia. Qed.

Lemma leftBig_ok : forall p, 2 <= vdu p -> exists M, leftBig p = Ok M /\ krows M = 2 * vdv p /\ kernel_is M p (fun u v => u < 2).
Proof. intros p Lv. apply kernel_pairs.
  - intros r k I. ins. lia.
  - intros r k k' I I'. ins. assert (z = z1) by lia. assert (z0 = z2) by lia. subst. reflexivity.
  - intros r k I. ins. exists (z0 - z), z. repeat split; lia.
  - intros u v Lu Lv' S. exists (v + (v + u)). apply in_flat_map. exists v. split; [apply in_seq; lia|]. apply in_map_iff. exists (v + u). split; [f_equal; lia|]. apply in_seq. lia. Qed.

Lemma bigSystem_ok : forall p, 2 <= vdu p -> 2 <= vdv p -> exists M, bigSystem p = Ok M /\ krows M = 2 * (vdu p + vdv p - 2) /\ kernel_is M p (fun u v => u < 2 \/ v < 2).
Proof. intros p Lu Lv. apply kernel_pairs.
  - intros r k I. ins; lia.
  - intros r k k' I I'. ins; try lia. assert (z = z1) by lia. assert (z0 = z2) by lia. subst. reflexivity.
  - intros r k I. ins.
    + destruct (in_two_rows (vdu p) k) as (u & v & ? & ? & E); [lia|]. exists u, v. repeat split; try lia.
    + exists (z0 - z), (z + 1). repeat split; lia.
  - intros u v Lu' Lv' S. destruct (Nat.lt_ge_cases v 2) as [V|V].
    + exists (u + v * vdu p). apply in_or_app. left. apply (in_map (fun i => (i, i))). apply in_seq. nia.
    + exists ((v - 1) + (v - 1 + u) + 2 * vdu p - 2). apply in_or_app. right. apply in_flat_map. exists (v - 1). split; [apply in_seq; lia|]. apply in_map_iff. exists (v - 1 + u). split; [f_equal; nia|]. apply in_seq. lia. Qed.

Lemma smallSystem_ok : forall p, 1 <= vdu p -> 1 <= vdv p -> exists M, smallSystem p = Ok M /\ krows M = vdu p + vdv p - 1 /\ kernel_is M p (fun u v => u = 0 \/ v = 0).
Proof. intros p Lu Lv. apply kernel_pairs.
  - intros r k I. ins; lia.
  - intros r k k' I I'. ins; nia.
  - intros r k I. ins.
    + exists k, 0. repeat split; lia.
    + exists 0, z. repeat split; lia.
  - intros u v Lu' Lv' S. destruct (Nat.eq_dec v 0) as [->|V].
    + exists (u + 0 * vdu p). apply in_or_app. left. apply (in_map (fun i => (i, i))). apply in_seq. lia.
    + exists (v + vdu p - 1). apply in_or_app. right. apply in_map_iff. exists v. split; [f_equal; lia|]. apply in_seq. lia. Qed.

Lemma innerBig_ok : forall p, 2 <= vdu p -> 2 <= vdv p -> exists M, innerBig p = Ok M /\ krows M = 3 /\ kernel_is M p (fun u v => u + v < 2).
Proof. intros p Lu Lv. apply kernel_pairs.
  - intros r k I. ins; lia.
  - intros r k k' I I'. ins; lia.
  - intros r k I. ins; [exists 0, 0|exists 1, 0|exists 0, 1]; repeat split; lia.
  - intros u v Lu' Lv' S. destruct u as [|u]; [destruct v as [|v]|].
    + exists 0. left. reflexivity.
    + exists 2. right. right. left. f_equal. assert (v = 0) by lia. subst. lia.
    + exists 1. right. left. f_equal. assert (u = 0) by lia. assert (v = 0) by lia. subst. lia. Qed.

Lemma innerSmall_ok : forall p, 1 <= vdu p -> 1 <= vdv p -> exists M, innerSmall p = Ok M /\ krows M = 1 /\ kernel_is M p (fun u v => u = 0 /\ v = 0).
Proof. intros p Lu Lv. apply kernel_pairs.
  - intros r k I. ins; lia.
  - intros r k k' I I'. ins; lia.
  - intros r k I. ins. exists 0, 0. repeat split; lia.
  - intros u v Lu' Lv' [-> ->]. exists 0. left. reflexivity. Qed.

Lemma single_pf : forall p b0 b1, 2 <= vdu p -> 2 <= vdv p -> exists B S, singlePatch p [b0; b1] = Ok (B, S) /\
  kernel_is B p (fun u v => if b1 : bool then u < 2 else if b0 : bool then v < 2 else u + v < 2) /\ kernel_is S p (fun u v => if b1 : bool then u = 0 else if b0 : bool then v = 0 else u = 0 /\ v = 0).
Proof. intros p b0 b1 Lu Lv. unfold singlePatch, vget. cbn [nth_error bind].
  destruct b1; [|destruct b0].
  - destruct (leftBig_ok p Lu) as (B & -> & _ & KB). destruct (leftSmall_ok p ltac:(lia)) as (S & -> & _ & KS). exists B, S. auto.
  - destruct (rightBig_ok p Lv) as (B & -> & _ & KB). destruct (rightSmall_ok p ltac:(lia)) as (S & -> & _ & KS). exists B, S. auto.
  - destruct (innerBig_ok p Lu Lv) as (B & -> & _ & KB). destruct (innerSmall_ok p ltac:(lia) ltac:(lia)) as (S & -> & _ & KS). exists B, S. auto. Qed.

Lemma both_pf : forall p, 2 <= vdu p -> 2 <= vdv p -> exists B S, bigSystem p = Ok B /\ smallSystem p = Ok S /\ krows B = 2 * (vdu p + vdv p - 2) /\ krows S = vdu p + vdv p - 1 /\
  kernel_is B p (fun u v => u < 2 \/ v < 2) /\ kernel_is S p (fun u v => u = 0 \/ v = 0).
Proof. intros p Lu Lv. destruct (bigSystem_ok p Lu Lv) as (B & EB & RB & KB). destruct (smallSystem_ok p ltac:(lia) ltac:(lia)) as (S & ES & RS & KS). exists B, S. auto 10. Qed.
