(** More about B-splines: support, locality, scaling, reversal, insertion of a knot. *)
From Coq Require Import Lra.
From Verif Require Import Common SplineModel SplineProofs.
Open Scope R_scope.

Lemma bspl_range t t' p : forall i i' x, (forall j, (j <= p + 1)%nat -> t (i + j)%nat = t' (i' + j)%nat) -> bspl t p i x = bspl t' p i' x.
Proof.
  induction p as [|q IH]; intros i i' x E; cbn [bspl].
  - pose proof (E 0%nat ltac:(lia)) as E0. pose proof (E 1%nat ltac:(lia)) as E1. rewrite !Nat.add_0_r in E0. rewrite !Nat.add_1_r in E1. now rewrite E0, E1.
  - rewrite (IH i i' x) by (intros j L; apply E; lia). rewrite (IH (S i) (S i') x) by (intros j L; replace (S i + j)%nat with (i + S j)%nat by lia; replace (S i' + j)%nat with (i' + S j)%nat by lia; apply E; lia).
    pose proof (E 0%nat ltac:(lia)) as E0. pose proof (E 1%nat ltac:(lia)) as E1. rewrite !Nat.add_0_r in E0. rewrite !Nat.add_1_r in E1. rewrite E0, E1. rewrite (E (S q)) by lia. replace (S i + S q)%nat with (i + S (S q))%nat by lia. rewrite (E (S (S q))) by lia. replace (S i' + S q)%nat with (i' + S (S q))%nat by lia. reflexivity.
Qed.

(** positive scaling and shifting *)
Lemma bspl_affine t a c p : 0 < a -> forall i x, bspl (fun j => t j * a + c) p i (x * a + c) = bspl t p i x.
Proof.
  intros P. assert (IV : forall d, inv0 (d * a) * a = inv0 d).
  { intros d. unfold inv0. destruct (Req_EM_T (d * a) 0) as [E|E]; destruct (Req_EM_T d 0) as [F|F]; try ring.
    - exfalso. apply Rmult_integral in E. lra.
    - subst. exfalso. apply E. ring.
    - field. lra. }
  induction p as [|q IH]; intros i x; cbn [bspl].
  - destruct (Rle_dec (t i * a + c) (x * a + c)) as [A|A]; destruct (Rle_dec (t i) x) as [B|B].
    + destruct (Rlt_dec (x * a + c) (t (S i) * a + c)); destruct (Rlt_dec x (t (S i))); try reflexivity; exfalso; nra.
    + exfalso. nra.
    + exfalso. nra.
    + reflexivity.
  - rewrite !IH. replace (x * a + c - (t i * a + c)) with ((x - t i) * a) by ring. replace (t (i + S q)%nat * a + c - (t i * a + c)) with ((t (i + S q)%nat - t i) * a) by ring.
    replace (t (S i + S q)%nat * a + c - (x * a + c)) with ((t (S i + S q)%nat - x) * a) by ring. replace (t (S i + S q)%nat * a + c - (t (S i) * a + c)) with ((t (S i + S q)%nat - t (S i)) * a) by ring.
    rewrite <- (IV (t (i + S q)%nat - t i)), <- (IV (t (S i + S q)%nat - t (S i))). ring.
Qed.

(** reversal: knots i .. i+p+1 appear backwards as i' .. i'+p+1; not at a knot *)
Lemma bspl_reverse t t' c p : forall i i' x, (forall j, (j <= p + 1)%nat -> t' (i' + j)%nat = c - t (i + (p + 1 - j))%nat) -> (forall j, (j <= p + 1)%nat -> x <> t (i + j)%nat) ->
  bspl t' p i' (c - x) = bspl t p i x.
Proof.
  induction p as [|q IH]; intros i i' x E N; cbn [bspl].
  - pose proof (E 0%nat ltac:(lia)) as E0. pose proof (E 1%nat ltac:(lia)) as E1. pose proof (N 0%nat ltac:(lia)) as N0. pose proof (N 1%nat ltac:(lia)) as N1. cbn [Nat.add Nat.sub] in E0, E1. rewrite Nat.add_0_r in *. rewrite Nat.add_1_r in *. rewrite E0, E1.
    destruct (Rle_dec (c - t (S i)) (c - x)); destruct (Rle_dec (t i) x); try (destruct (Rlt_dec (c - x) (c - t i))); try (destruct (Rlt_dec x (t (S i)))); try reflexivity; exfalso; lra.
  - rewrite (IH (S i) i' x); [|intros j L; rewrite E by lia; f_equal; f_equal; lia|intros j L; replace (S i + j)%nat with (i + S j)%nat by lia; apply N; lia].
    rewrite (IH i (S i') x); [|intros j L; replace (S i' + j)%nat with (i' + S j)%nat by lia; rewrite E by lia; f_equal; f_equal; lia|intros j L; apply N; lia].
    pose proof (E 0%nat ltac:(lia)) as E0. pose proof (E 1%nat ltac:(lia)) as E1. rewrite Nat.add_0_r in E0. rewrite Nat.add_1_r in E1. replace (i + (S q + 1 - 0))%nat with (S i + S q)%nat in E0 by lia. replace (i + (S q + 1 - 1))%nat with (i + S q)%nat in E1 by lia.
    pose proof (E (S q) ltac:(lia)) as E2. pose proof (E (S (S q)) ltac:(lia)) as E3. replace (i + (S q + 1 - S q))%nat with (S i) in E2 by lia. replace (i + (S q + 1 - S (S q)))%nat with i in E3 by lia. replace (i' + S (S q))%nat with (S i' + S q)%nat in E3 by lia.
    rewrite E0, E1, E2, E3. replace (c - x - (c - t (S i + S q)%nat)) with (t (S i + S q)%nat - x) by ring. replace (c - t (S i) - (c - t (S i + S q)%nat)) with (t (S i + S q)%nat - t (S i)) by ring.
    replace (c - t i - (c - x)) with (x - t i) by ring. replace (c - t i - (c - t (i + S q)%nat)) with (t (i + S q)%nat - t i) by ring. ring.
Qed.

Section Mono.
Context (t : nat -> R) (Ht : forall i j, (i <= j)%nat -> t i <= t j).

Lemma bspl_below p : forall i x, x < t i -> bspl t p i x = 0.
Proof.
  induction p as [|q IH]; intros i x L; cbn [bspl]; [destruct (Rle_dec (t i) x); [lra|reflexivity]|]. pose proof (Ht i (S i) ltac:(lia)). rewrite !IH by lra. ring.
Qed.
Lemma bspl_above p : forall i x, t (i + p + 1)%nat <= x -> bspl t p i x = 0.
Proof.
  induction p as [|q IH]; intros i x L; cbn [bspl].
  - replace (i + 0 + 1)%nat with (S i) in L by lia. destruct (Rle_dec (t i) x); [|reflexivity]. destruct (Rlt_dec x (t (S i))); [lra|reflexivity].
  - rewrite (IH i), (IH (S i)); [ring|replace (S i + q + 1)%nat with (i + S q + 1)%nat by lia; exact L|]. pose proof (Ht (i + q + 1) (i + S q + 1) ltac:(lia))%nat. lra.
Qed.
Lemma bspl_void p i x : t (i + p + 1)%nat = t i -> bspl t p i x = 0.
Proof. intros E. destruct (Rlt_le_dec x (t i)) as [L|L]; [now apply bspl_below|apply bspl_above; lra]. Qed.

Lemma bspl_nonneg p : forall i x, 0 <= bspl t p i x.
Proof.
  induction p as [|q IH]; intros i x.
  - cbn [bspl]. destruct (Rle_dec (t i) x); [|lra]. destruct (Rlt_dec x (t (S i))); lra.
  - destruct (Rlt_le_dec x (t i)) as [L|L]; [rewrite bspl_below by exact L; lra|]. destruct (Rlt_le_dec x (t (i + S q + 1)%nat)) as [U|U]; [|rewrite bspl_above by exact U; lra]. cbn [bspl].
    assert (IN : forall d, 0 <= d -> 0 <= inv0 d) by (intros d D; unfold inv0; destruct (Req_EM_T d 0); [lra|]; left; apply Rinv_0_lt_compat; lra).
    pose proof (Ht i (i + S q) ltac:(lia))%nat. pose proof (Ht (S i) (S i + S q) ltac:(lia))%nat. replace (S i + S q)%nat with (i + S q + 1)%nat in * by lia.
    apply Rplus_le_le_0_compat; (apply Rmult_le_pos; [apply Rmult_le_pos; [lra|apply IN; lra]|apply IH]).
Qed.

(** ** Insertion of a knot *)
Context (k : nat) (u : R) (Hk : t k <= u) (Hk' : u < t (S k)).
Definition tins (i : nat) : R := if (i <=? k)%nat then t i else if (i =? S k)%nat then u else t (i - 1)%nat.

Lemma tins_low i : (i <= k)%nat -> tins i = t i. Proof. intros L. unfold tins. destruct (Nat.leb_spec i k); [reflexivity|lia]. Qed.
Lemma tins_mid : tins (S k) = u. Proof. unfold tins. destruct (Nat.leb_spec (S k) k); [lia|]. now rewrite Nat.eqb_refl. Qed.
Lemma tins_high i : (k < i)%nat -> tins (S i) = t i. Proof. intros L. unfold tins. destruct (Nat.leb_spec (S i) k); [lia|]. destruct (Nat.eqb_spec (S i) (S k)); [lia|]. f_equal. lia. Qed.
Lemma tins_mono : forall i j, (i <= j)%nat -> tins i <= tins j.
Proof.
  assert (ST : forall i, tins i <= tins (S i)).
  { intros i. destruct (Nat.lt_trichotomy i k) as [L|[->|L]].
    - rewrite !tins_low by lia. apply Ht. lia.
    - rewrite tins_low, tins_mid by lia. exact Hk.
    - rewrite (tins_high i L). destruct (Nat.eq_dec i (S k)) as [->|N]; [rewrite tins_mid; lra|]. destruct i as [|i]; [lia|]. rewrite tins_high by lia. apply Ht. lia. }
  intros i j L. induction L as [|j L IH]; [lra|]. pose proof (ST j). lra.
Qed.

Definition insA (p i : nat) : R := if (i + p + 1 <=? k)%nat then 1 else if (k <? i)%nat then 0 else (u - t i) * inv0 (tins (i + p + 1) - tins i).
Definition insB (p i : nat) : R := if (i + p + 1 <=? k)%nat then 0 else if (k <? i)%nat then 1 else (t (i + p + 1)%nat - u) * inv0 (tins (i + p + 2) - tins (i + 1)).
Lemma insA_low p i : (i + p + 1 <= k)%nat -> insA p i = 1. Proof. intros L. unfold insA. destruct (Nat.leb_spec (i + p + 1) k); [reflexivity|lia]. Qed.
Lemma insB_low p i : (i + p + 1 <= k)%nat -> insB p i = 0. Proof. intros L. unfold insB. destruct (Nat.leb_spec (i + p + 1) k); [reflexivity|lia]. Qed.
Lemma insA_high p i : (k < i)%nat -> insA p i = 0. Proof. intros L. unfold insA. destruct (Nat.leb_spec (i + p + 1) k); [lia|]. destruct (Nat.ltb_spec k i); [reflexivity|lia]. Qed.
Lemma insB_high p i : (k < i)%nat -> insB p i = 1. Proof. intros L. unfold insB. destruct (Nat.leb_spec (i + p + 1) k); [lia|]. destruct (Nat.ltb_spec k i); [reflexivity|lia]. Qed.
Lemma insA_mid p i : (i <= k < i + p + 1)%nat -> insA p i = (u - t i) * inv0 (tins (i + p + 1) - tins i). Proof. intros L. unfold insA. destruct (Nat.leb_spec (i + p + 1) k); [lia|]. destruct (Nat.ltb_spec k i); [lia|reflexivity]. Qed.
Lemma insB_mid p i : (i <= k < i + p + 1)%nat -> insB p i = (t (i + p + 1)%nat - u) * inv0 (tins (i + p + 2) - tins (i + 1)). Proof. intros L. unfold insB. destruct (Nat.leb_spec (i + p + 1) k); [lia|]. destruct (Nat.ltb_spec k i); [lia|reflexivity]. Qed.

Theorem knot_insertion p : forall i x, bspl t p i x = insA p i * bspl tins p i x + insB p i * bspl tins p (S i) x.
Proof.
  assert (IVN : forall d, d <> 0 -> inv0 d = / d) by (intros d N; unfold inv0; destruct (Req_EM_T d 0); [contradiction|reflexivity]).
  assert (VOID : forall q i x, tins (i + q + 1) = tins i -> bspl tins q i x = 0).
  { intros q i x E. destruct (Rlt_le_dec x (tins i)) as [L|L].
    - clear E. revert i x L. induction q as [|q IH]; intros i x L; cbn [bspl]; [destruct (Rle_dec (tins i) x); [lra|reflexivity]|]. pose proof (tins_mono i (S i) ltac:(lia)). rewrite !IH by lra. ring.
    - assert (L2 : tins (i + q + 1) <= x) by lra. clear E L. revert i x L2. induction q as [|q IH]; intros i x L; cbn [bspl].
      + replace (i + 0 + 1)%nat with (S i) in L by lia. destruct (Rle_dec (tins i) x); [|reflexivity]. destruct (Rlt_dec x (tins (S i))); [lra|reflexivity].
      + rewrite (IH i), (IH (S i)); [ring|replace (S i + q + 1)%nat with (i + S q + 1)%nat by lia; exact L|]. pose proof (tins_mono (i + q + 1) (i + S q + 1) ltac:(lia))%nat. lra. }
  induction p as [|q IH]; intros i x.
  - destruct (Nat.lt_trichotomy i k) as [L|[E|L]].
    + rewrite insA_low, insB_low by lia. cbn [bspl]. rewrite !tins_low by lia. ring.
    + subst i. rewrite insA_mid, insB_mid by lia. replace (k + 0 + 1)%nat with (S k) by lia. replace (k + 0 + 2)%nat with (S (S k)) by lia. replace (k + 1)%nat with (S k) by lia. cbn [bspl]. rewrite (tins_low k), tins_mid, (tins_high (S k)) by lia.
      rewrite (inv0_self (t (S k) - u)) by lra. destruct (Req_EM_T (u - t k) 0) as [E|E]; [|rewrite (inv0_self (u - t k)) by lra].
      * destruct (Rle_dec (t k) x); destruct (Rle_dec u x); try (destruct (Rlt_dec x u)); try (destruct (Rlt_dec x (t (S k)))); try ring; exfalso; lra.
      * destruct (Rle_dec (t k) x); destruct (Rle_dec u x); try (destruct (Rlt_dec x u)); try (destruct (Rlt_dec x (t (S k)))); try ring; exfalso; lra.
    + rewrite insA_high, insB_high by lia. cbn [bspl]. rewrite (tins_high i), (tins_high (S i)) by lia. ring.
  - destruct (Nat.le_gt_cases (i + S q + 1) k) as [L|L].
    { rewrite insA_low, insB_low by lia. cbn [bspl]. rewrite (IH i), (IH (S i)), !insA_low, !insB_low by lia. rewrite !tins_low by lia. ring. }
    destruct (Nat.lt_ge_cases k i) as [L2|L2].
    { rewrite insA_high, insB_high by lia. cbn [bspl]. rewrite (IH i), (IH (S i)), !insA_high, !insB_high by lia.
      rewrite (tins_high i), (tins_high (S i)) by lia. replace (tins (S (S i) + S q)) with (t (S i + S q)%nat) by (replace (S (S i) + S q)%nat with (S (S i + S q)) by lia; rewrite tins_high by lia; reflexivity).
      replace (tins (S i + S q)) with (t (i + S q)%nat) by (replace (S i + S q)%nat with (S (i + S q)) by lia; rewrite tins_high by lia; reflexivity). ring. }
    rewrite insA_mid, insB_mid by lia. cbn [bspl]. rewrite (IH i), (IH (S i)).
    replace (i + S q + 1)%nat with (S i + S q)%nat by lia. replace (i + S q + 2)%nat with (S (S i) + S q)%nat by lia. replace (i + 1)%nat with (S i) by lia.
    assert (T1 : tins (S (S i) + S q) = t (S i + S q)%nat) by (replace (S (S i) + S q)%nat with (S (S i + S q)) by lia; apply tins_high; lia). rewrite T1.
    assert (T0 : tins i = t i) by (apply tins_low; lia). rewrite T0.
    set (n0 := bspl tins q i x). set (n1 := bspl tins q (S i) x). set (n2 := bspl tins q (S (S i)) x).
    assert (Z0 : tins (i + S q) = tins i -> n0 = 0) by (intros E; apply VOID; replace (i + q + 1)%nat with (i + S q)%nat by lia; exact E).
    assert (Z1 : tins (S i + S q) = tins (S i) -> n1 = 0) by (intros E; apply VOID; replace (S i + q + 1)%nat with (S i + S q)%nat by lia; exact E).
    assert (Z2 : tins (S (S i) + S q) = tins (S (S i)) -> n2 = 0) by (intros E; apply VOID; replace (S (S i) + q + 1)%nat with (S (S i) + S q)%nat by lia; exact E).
    rewrite T0 in Z0. rewrite T1 in Z2. clearbody n0 n1 n2.
    destruct (Nat.eq_dec i k) as [EI|NI].
    { (* the knot falls into the first interval *)
      subst i. rewrite (insA_mid q k), (insB_mid q k), (insA_high q (S k)), (insB_high q (S k)) by lia. replace (k + q + 1)%nat with (k + S q)%nat by lia. replace (k + q + 2)%nat with (S k + S q)%nat by lia. replace (k + 1)%nat with (S k) by lia. rewrite T0.
      rewrite tins_mid in *. assert (T2 : tins (S k + S q) = t (k + S q)%nat) by (replace (S k + S q)%nat with (S (k + S q)) by lia; apply tins_high; lia). rewrite T2 in *. assert (T3 : tins (S (S k)) = t (S k)) by (apply tins_high; lia). rewrite T3 in *.
      pose proof (Ht (S k) (k + S q) ltac:(lia))%nat as M1. pose proof (Ht (S k) (S k + S q) ltac:(lia))%nat as M2.
      rewrite (inv0_self (t (k + S q)%nat - u)) by lra. rewrite (inv0_self (t (S k + S q)%nat - u)) by lra. rewrite (IVN (t (k + S q)%nat - u)), (IVN (t (k + S q)%nat - t k)) by lra.
      generalize (inv0 (tins (k + S q) - t k)), (inv0 (t (S k + S q)%nat - t (S k))). intros v w. field. lra. }
    assert (T4 : tins (S i) = t (S i)) by (apply tins_low; lia). rewrite T4 in *.
    destruct (Nat.eq_dec (i + S q) k) as [EK|NK].
    { (* the last interval *)
      rewrite (insA_low q i), (insB_low q i), (insA_mid q (S i)), (insB_mid q (S i)) by lia. replace (S i + q + 1)%nat with (S i + S q)%nat by lia. replace (S i + q + 2)%nat with (S (S i) + S q)%nat by lia. replace (S i + 1)%nat with (S (S i)) by lia.
      rewrite T1, T4. assert (T2 : tins (S i + S q) = u) by (replace (S i + S q)%nat with (S k) by lia; apply tins_mid). rewrite T2 in *. assert (T3 : tins (i + S q) = t (i + S q)%nat) by (apply tins_low; lia). rewrite T3 in *.
      replace (S i + S q)%nat with (S k) in * by lia. rewrite EK in *. pose proof (Ht i (S i) ltac:(lia)) as M1. pose proof (Ht (S i) k ltac:(lia)) as M2.
      assert (F0 : (u - t i) * inv0 (u - t i) * n0 = n0).
      { destruct (Req_EM_T (t k) (t i)) as [E|E]; [rewrite Z0 by exact E; ring|]. rewrite inv0_self by lra. ring. }
      assert (F1 : (t (S k) - x) * inv0 (t (S k) - t (S i)) * ((u - t (S i)) * inv0 (u - t (S i)) * n1) = (u - t i) * inv0 (u - t i) * ((u - x) * inv0 (u - t (S i)) * n1) + (t (S k) - u) * inv0 (t (S k) - t (S i)) * ((x - t (S i)) * inv0 (u - t (S i)) * n1)).
      { destruct (Req_EM_T u (t (S i))) as [E|E]; [rewrite Z1 by exact E; ring|]. rewrite !IVN by lra. field. lra. }
      match goal with |- _ = (u - t i) * inv0 (u - t i) * (?a * n0 + ?b * n1) + ?r => replace ((u - t i) * inv0 (u - t i) * (a * n0 + b * n1) + r) with (a * ((u - t i) * inv0 (u - t i) * n0) + ((u - t i) * inv0 (u - t i) * (b * n1) + r)) by ring end. rewrite F0.
      match goal with |- ?a * (1 * n0 + 0 * n1) + ?c * (?d * n1 + ?e * n2) = _ => replace (a * (1 * n0 + 0 * n1) + c * (d * n1 + e * n2)) with (a * n0 + (c * (d * n1) + c * e * n2)) by ring end. rewrite F1. ring. }
    rewrite (insA_mid q i), (insB_mid q i), (insA_mid q (S i)), (insB_mid q (S i)) by lia. replace (i + q + 1)%nat with (i + S q)%nat by lia. replace (i + q + 2)%nat with (S i + S q)%nat by lia. replace (i + 1)%nat with (S i) by lia.
    replace (S i + q + 1)%nat with (S i + S q)%nat by lia. replace (S i + q + 2)%nat with (S (S i) + S q)%nat by lia. replace (S i + 1)%nat with (S (S i)) by lia. rewrite T0, T1, T4.
    assert (T2 : tins (S i + S q) = t (i + S q)%nat) by (replace (S i + S q)%nat with (S (i + S q)) by lia; apply tins_high; lia). rewrite T2 in *.
    pose proof (Ht i (S i) ltac:(lia)) as M1. pose proof (Ht (S i) (i + S q) ltac:(lia))%nat as M2. pose proof (Ht (i + S q) (S i + S q) ltac:(lia))%nat as M3.
    set (a := t i) in *. set (b := t (S i)) in *. set (e := t (i + S q)%nat) in *. set (f := t (S i + S q)%nat) in *.
    assert (MID : ((x - a) * inv0 (e - a) * ((e - u) * inv0 (e - b)) + (f - x) * inv0 (f - b) * ((u - b) * inv0 (e - b))) * n1 = ((u - a) * inv0 (e - a) * ((e - x) * inv0 (e - b)) + (f - u) * inv0 (f - b) * ((x - b) * inv0 (e - b))) * n1).
    { destruct (Req_EM_T e b) as [E|E]; [rewrite Z1 by exact E; ring|]. rewrite !IVN by lra. field. lra. }
    generalize dependent (inv0 (tins (i + S q) - a)). generalize dependent (inv0 (f - tins (S (S i)))). intros w v.
    match goal with |- ?l = ?r => replace l with ((x - a) * inv0 (e - a) * ((u - a) * v) * n0 + ((x - a) * inv0 (e - a) * ((e - u) * inv0 (e - b)) + (f - x) * inv0 (f - b) * ((u - b) * inv0 (e - b))) * n1 + (f - x) * inv0 (f - b) * ((f - u) * w) * n2) by ring end. rewrite MID. ring.
Qed.
End Mono.
