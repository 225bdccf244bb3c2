(** General lemmas on lists, sums, monadic folds. *)
From Verif Require Import Common.
From Coq Require Import Permutation ZifyBool.

Lemma NoDup_app_iff {A} (l l' : list A) :
  NoDup (l ++ l') <-> NoDup l /\ NoDup l' /\ (forall x, In x l -> In x l' -> False).
Proof.
  induction l as [|a l IH]; simpl.
  - split; [intros; repeat split; auto; constructor | tauto].
  - rewrite !NoDup_cons_iff, IH, in_app_iff. split.
    + intros (H1 & H2 & H3 & H4). repeat split; auto.
      intros x [->|Hx] Hx'; eauto.
    + intros ((H1 & H2) & H3 & H4). repeat split; eauto. intros [|]; eauto.
Qed.

Lemma nth_error_in_iff {A} (l : list A) x : In x l <-> exists i, nth_error l i = Some x.
Proof. split; [apply In_nth_error | intros (i & H); eapply nth_error_In; eauto]. Qed.

(** ** foldM *)
Lemma foldM_app {A S} (f : S -> A -> res S) l1 l2 s :
  foldM f (l1 ++ l2) s = bind (foldM f l1 s) (fun s' => foldM f l2 s').
Proof.
  revert s. induction l1 as [|a l1 IH]; intros s; simpl; [reflexivity|].
  destruct (f s a); simpl; auto.
Qed.

Lemma foldM_inv {A S} (P : list A -> S -> Prop) (f : S -> A -> res S) l s :
  P [] s ->
  (forall pre x post s, l = pre ++ x :: post -> P pre s -> exists s', f s x = Ok s' /\ P (pre ++ [x]) s') ->
  exists s', foldM f l s = Ok s' /\ P l s'.
Proof.
  intros H0 Hs.
  assert (forall post pre s, l = pre ++ post -> P pre s ->
            exists s', foldM f post s = Ok s' /\ P l s') as G.
  { induction post as [|x post IH]; intros pre s1 E HP.
    - rewrite app_nil_r in E. subst. exists s1. auto.
    - destruct (Hs pre x post s1 E HP) as (s2 & E2 & H2).
      simpl. rewrite E2. simpl. apply (IH (pre ++ [x])); [|exact H2].
      rewrite <- app_assoc. exact E. }
  apply (G l []); auto.
Qed.

Lemma foldM_inv2 {A S} (P : S -> Prop) (f : S -> A -> res S) l s :
  P s -> (forall x s, In x l -> P s -> exists s', f s x = Ok s' /\ P s') ->
  exists s', foldM f l s = Ok s' /\ P s'.
Proof.
  intros H0 Hs. apply (foldM_inv (fun _ => P)); [exact H0|].
  intros pre x post s1 E HP. apply Hs; [|exact HP]. subst. apply in_elt.
Qed.

Lemma mapM_ok {A B} (f : A -> res B) (g : A -> B) l :
  (forall x, In x l -> f x = Ok (g x)) -> mapM f l = Ok (map g l).
Proof.
  induction l as [|a l IH]; intros H; simpl; [reflexivity|].
  rewrite H by (left; reflexivity). simpl. rewrite IH by (intros; apply H; right; auto). reflexivity.
Qed.

(** ** vectors *)
Lemma upd_length {A} (l : list A) i v : length (upd l i v) = length l.
Proof. revert i. induction l; intros [|i]; simpl; auto. Qed.

Lemma vget_upd {A} (l : list A) i j v :
  i < length l -> vget (upd l i v) j = if i =? j then Ok v else vget l j.
Proof.
  revert i j. induction l as [|a l IH]; intros i j Hi; simpl in Hi; [lia|].
  destruct i, j; simpl; try reflexivity.
  unfold vget in *. simpl. rewrite <- IH by lia. reflexivity.
Qed.

Lemma vget_lt {A} (l : list A) i : i < length l -> exists a, vget l i = Ok a.
Proof.
  intros H. unfold vget. destruct (nth_error l i) eqn:E; [eauto|].
  apply nth_error_None in E. lia.
Qed.

Lemma vset_ok {A} (l : list A) i v : i < length l -> vset l i v = Ok (upd l i v).
Proof. intros H. unfold vset. rewrite (proj2 (Nat.ltb_lt _ _) H). reflexivity. Qed.

Lemma vget_repeat {A} (a : A) n i : i < n -> vget (repeat a n) i = Ok a.
Proof.
  intros H. unfold vget. destruct (nth_error (repeat a n) i) eqn:E.
  - apply nth_error_In, repeat_spec in E. subst. reflexivity.
  - apply nth_error_None in E. rewrite repeat_length in E. lia.
Qed.

Lemma forallb_vget (l : list bool) :
  (forall i, i < length l -> vget l i = Ok true) -> forallb (fun b => b) l = true.
Proof.
  intros H. apply forallb_forall. intros b Hb. apply In_nth_error in Hb. destruct Hb as (i & Hi).
  assert (i < length l) as Hl by (apply nth_error_Some; congruence).
  specialize (H i Hl). unfold vget in H. rewrite Hi in H. congruence.
Qed.

(** ** sums *)
Lemma sumN_app l l' : sumN (l ++ l') = sumN l + sumN l'.
Proof. induction l; simpl; lia. Qed.
Lemma sumZ_app l l' : sumZ (l ++ l') = (sumZ l + sumZ l')%Z.
Proof. induction l; simpl; lia. Qed.
Lemma sumN_perm l l' : Permutation l l' -> sumN l = sumN l'.
Proof. induction 1; simpl; lia. Qed.
Lemma sumZ_perm l l' : Permutation l l' -> sumZ l = sumZ l'.
Proof. induction 1; simpl; lia. Qed.
Lemma sumN_map_add {A} (f g : A -> nat) l :
  sumN (map (fun x => f x + g x) l) = sumN (map f l) + sumN (map g l).
Proof. induction l; simpl; lia. Qed.
Lemma sumN_map_ext {A} (f g : A -> nat) l :
  (forall x, In x l -> f x = g x) -> sumN (map f l) = sumN (map g l).
Proof. induction l; simpl; intros H; [reflexivity|]. rewrite H, IHl by auto. reflexivity. Qed.
Lemma sumN_map_const {A} c (l : list A) : sumN (map (fun _ => c) l) = c * length l.
Proof. induction l; simpl; lia. Qed.
Lemma sumN_flat_map {A B} (f : B -> nat) (g : A -> list B) l :
  sumN (map f (flat_map g l)) = sumN (map (fun x => sumN (map f (g x))) l).
Proof. induction l; simpl; [reflexivity|]. rewrite map_app, sumN_app, IHl. reflexivity. Qed.
Lemma sumZ_map_add {A} (f g : A -> Z) l :
  sumZ (map (fun x => f x + g x)%Z l) = (sumZ (map f l) + sumZ (map g l))%Z.
Proof. induction l; simpl; lia. Qed.
Lemma sumZ_of_nat {A} (f : A -> nat) l :
  sumZ (map (fun x => Z.of_nat (f x)) l) = Z.of_nat (sumN (map f l)).
Proof. induction l; simpl; lia. Qed.

Definition b2n (b : bool) : nat := if b then 1 else 0.

Lemma filter_length_sum {A} (f : A -> bool) l :
  length (filter f l) = sumN (map (fun x => b2n (f x)) l).
Proof. induction l as [|a l IH]; simpl; [reflexivity|]. destruct (f a); simpl; lia. Qed.

Lemma sumN_seq_split (f : nat -> nat) n :
  4 <= n ->
  sumN (map f (seq 0 n)) =
    f 0 + f 1 + sumN (map f (seq 2 (n - 4))) + f (n - 2) + f (n - 1).
Proof.
  intros H. replace n with (2 + ((n - 4) + 2)) at 1 by lia.
  rewrite seq_app, map_app, sumN_app. rewrite seq_app, map_app, sumN_app. simpl.
  replace (S (S (n - 4))) with (n - 2) by lia. replace (S (n - 2)) with (n - 1) by lia. lia.
Qed.

Lemma sumQ_app l l' : (sumQ (l ++ l') == sumQ l + sumQ l')%Q.
Proof. induction l; simpl; [ring|]. rewrite IHl. ring. Qed.
Lemma sumQ_perm l l' : Permutation l l' -> (sumQ l == sumQ l')%Q.
Proof.
  induction 1; simpl; try ring.
  - rewrite IHPermutation. ring.
  - rewrite IHPermutation1. exact IHPermutation2.
Qed.
Lemma sumQ_map_ext {A} (f g : A -> Q) l :
  (forall x, In x l -> (f x == g x)%Q) -> (sumQ (map f l) == sumQ (map g l))%Q.
Proof. induction l; simpl; intros H; [reflexivity|]. rewrite H, IHl by auto. reflexivity. Qed.
Lemma sumQ_map_zero {A} (f : A -> Q) l :
  (forall x, In x l -> (f x == 0)%Q) -> (sumQ (map f l) == 0)%Q.
Proof. induction l; simpl; intros H; [reflexivity|]. rewrite H, IHl by auto. ring. Qed.
Lemma sumQ_map_add {A} (f g : A -> Q) l :
  (sumQ (map (fun x => f x + g x) l) == sumQ (map f l) + sumQ (map g l))%Q.
Proof. induction l; simpl; [ring|]. rewrite IHl. ring. Qed.
Lemma sumQ_map_scale {A} (c : Q) (f : A -> Q) l :
  (sumQ (map (fun x => c * f x) l) == c * sumQ (map f l))%Q.
Proof. induction l; simpl; [ring|]. rewrite IHl. ring. Qed.
Lemma sumQ_single {A} (f : A -> Q) l a :
  NoDup l -> In a l -> (forall x, In x l -> x <> a -> (f x == 0)%Q) ->
  (sumQ (map f l) == f a)%Q.
Proof.
  induction l as [|b l IH]; intros Hnd Hin H; [contradiction|].
  apply NoDup_cons_iff in Hnd. destruct Hnd as [Hb Hnd]. simpl.
  destruct Hin as [->|Hin].
  - rewrite (sumQ_map_zero f l). ring. intros x Hx. apply H; [right; auto|]. congruence.
  - rewrite IH; auto.
    + rewrite (H b); [ring | left; auto | congruence].
    + intros. apply H; auto. right; auto.
Qed.
Lemma sumQ_swap {A B} (f : A -> B -> Q) la lb :
  (sumQ (map (fun a => sumQ (map (fun b => f a b) lb)) la) ==
   sumQ (map (fun b => sumQ (map (fun a => f a b) la)) lb))%Q.
Proof.
  induction la as [|a la IH]; simpl.
  - symmetry. apply sumQ_map_zero. reflexivity.
  - rewrite IH. rewrite <- sumQ_map_add. reflexivity.
Qed.

(** ** a fixed-point-free involution makes the length even *)
Lemma NoDup_remove_perm {A} (l : list A) a :
  In a l -> exists l', Permutation l (a :: l').
Proof.
  intros H. apply in_split in H. destruct H as (l1 & l2 & ->).
  exists (l1 ++ l2). symmetry. apply Permutation_middle.
Qed.

Lemma involution_even {A} (f : A -> A) (l : list A) :
  NoDup l ->
  (forall x, In x l -> In (f x) l /\ f (f x) = x /\ f x <> x) ->
  Nat.Even (length l).
Proof.
  remember (length l) as n eqn:En. revert l En.
  induction n as [n IH] using lt_wf_ind. intros l En Hnd H.
  destruct l as [|a l]; [subst; exists 0; reflexivity|].
  destruct (H a (or_introl eq_refl)) as (Ha1 & Ha2 & Ha3).
  assert (In (f a) l) as Hfa by (destruct Ha1; [congruence|auto]).
  destruct (NoDup_remove_perm l (f a) Hfa) as (l' & HP).
  assert (Permutation (a :: l) (a :: f a :: l')) as HP2 by (constructor; exact HP).
  assert (NoDup (a :: f a :: l')) as Hnd2 by (eapply Permutation_NoDup; eauto).
  assert (length (a :: l) = S (S (length l'))) as Hlen by (apply Permutation_length in HP2; simpl in *; lia).
  destruct (IH (length l')) with (l := l') as (k & Hk); try lia; try reflexivity.
  - inversion Hnd2 as [|? ? ? Hnd3]. inversion Hnd3. auto.
  - intros x Hx. assert (In x (a :: l)) as Hx' by (eapply Permutation_in; [symmetry; exact HP2|right; right; auto]).
    destruct (H x Hx') as (H1 & H2 & H3). repeat split; auto.
    assert (In (f x) (a :: f a :: l')) as H4 by (eapply Permutation_in; eauto).
    apply NoDup_cons_iff in Hnd2. destruct Hnd2 as [N1 N2]. apply NoDup_cons_iff in N2. destruct N2 as [N2 N3].
    destruct H4 as [H4|[H4|H4]]; auto; exfalso.
    + apply N2. replace (f a) with x by congruence. exact Hx.
    + apply N1. right. replace a with x by congruence. exact Hx.
  - exists (S k). lia.
Qed.

Lemma Permutation_filter {A} (f : A -> bool) l l' :
  Permutation l l' -> Permutation (filter f l) (filter f l').
Proof.
  induction 1; simpl; auto.
  - destruct (f x); auto.
  - destruct (f x), (f y); auto. constructor.
  - etransitivity; eauto.
Qed.

Lemma forallb_perm {A} (f : A -> bool) l l' :
  Permutation l l' -> forallb f l = forallb f l'.
Proof.
  intros H. apply eq_true_iff_eq. rewrite !forallb_forall.
  split; intros G x Hx; apply G; [symmetry in H|]; eapply Permutation_in; eauto.
Qed.

Lemma existsb_false {A} (f : A -> bool) l :
  existsb f l = false <-> forall x, In x l -> f x = false.
Proof.
  split.
  - intros H x Hx. destruct (f x) eqn:E; [|reflexivity].
    assert (existsb f l = true) by (apply existsb_exists; eauto). congruence.
  - intros H. destruct (existsb f l) eqn:E; [|reflexivity].
    apply existsb_exists in E. destruct E as (x & Hx & Hf). rewrite H in Hf; auto.
Qed.

Lemma filter_all {A} (f : A -> bool) l : (forall x, In x l -> f x = true) -> filter f l = l.
Proof.
  induction l; simpl; intros H; [reflexivity|]. rewrite H by auto. f_equal. auto.
Qed.
Lemma filter_none {A} (f : A -> bool) l : (forall x, In x l -> f x = false) -> filter f l = [].
Proof.
  induction l; simpl; intros H; [reflexivity|]. rewrite H by auto. auto.
Qed.
