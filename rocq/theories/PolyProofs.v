(** Piecewise polynomials: products, derivatives, larger spaces. *)
From Coq Require Import Reals Qreals Lra ZifyBool Sorted.
From Verif Require Import Common C1Model SpaceSpec.
Open Scope R_scope.

Definition ispoly (f : R -> R) : Prop := exists l, forall t, f t = peval l t.
Definition degle (p : nat) (f : R -> R) : Prop := exists a, (length a <= p + 1)%nat /\ forall t, f t = peval a t.

Fixpoint padd (a b : list R) : list R := match a, b with [], _ => b | _, [] => a | x :: a', y :: b' => (x + y) :: padd a' b' end.
Lemma peval_add a : forall b t, peval (padd a b) t = peval a t + peval b t.
Proof. induction a as [|x a IH]; intros [|y b] t; cbn [padd peval]; try ring. rewrite IH. ring. Qed.
Lemma padd_length a : forall b, length (padd a b) = Nat.max (length a) (length b).
Proof. induction a as [|x a IH]; intros [|y b]; cbn [padd length]; try lia. rewrite IH. lia. Qed.
Definition pscal (c : R) (a : list R) : list R := map (Rmult c) a.
Lemma peval_scal c a t : peval (pscal c a) t = c * peval a t.
Proof. induction a as [|x a IH]; cbn; [ring|]. unfold pscal in IH. rewrite IH. ring. Qed.
Fixpoint pmul (a b : list R) : list R := match a with [] => [] | x :: a' => padd (pscal x b) (0 :: pmul a' b) end.
Lemma peval_mul a b t : peval (pmul a b) t = peval a t * peval b t.
Proof. induction a as [|x a IH]; cbn [pmul peval]; [ring|]. rewrite peval_add, peval_scal. cbn [peval]. rewrite IH. ring. Qed.
Lemma pmul_length a b : (length (pmul a b) <= length a + length b)%nat.
Proof. induction a as [|x a IH]; cbn [pmul length]; [lia|]. rewrite padd_length. unfold pscal. rewrite map_length. cbn [length]. lia. Qed.
Lemma pmul_length' a b : (1 <= length b)%nat -> (length (pmul a b) <= length a + length b - 1)%nat.
Proof. intros L. induction a as [|x a IH]; cbn [pmul length]; [lia|]. rewrite padd_length. unfold pscal. rewrite map_length. cbn [length]. lia. Qed.
Fixpoint pder (a : list R) : list R := match a with [] => [] | _ :: r => match r with [] => [] | _ => padd r (0 :: pder r) end end.
Lemma pder_length a : length (pder a) = (length a - 1)%nat.
Proof. induction a as [|x a IH]; [reflexivity|]. destruct a as [|y a]; [reflexivity|]. change (pder (x :: y :: a)) with (padd (y :: a) (0 :: pder (y :: a))). rewrite padd_length. cbn [length] in *. rewrite IH. lia. Qed.
Lemma peval_der a t : derivable_pt_lim (peval a) t (peval (pder a) t).
Proof.
  induction a as [|c a IH].
  - apply (derivable_pt_lim_ext (fct_cte 0)); [reflexivity|]. apply derivable_pt_lim_const.
  - assert (E : peval (pder (c :: a)) t = peval a t + t * peval (pder a) t) by (destruct a as [|d a]; [cbn; ring|]; change (pder (c :: d :: a)) with (padd (d :: a) (0 :: pder (d :: a))); rewrite peval_add; change (peval (0 :: pder (d :: a)) t) with (0 + t * peval (pder (d :: a)) t); ring). rewrite E.
    apply (derivable_pt_lim_ext (plus_fct (fct_cte c) (mult_fct id (peval a)))); [intros z; reflexivity|].
    replace (peval a t + t * peval (pder a) t) with (0 + (1 * peval a t + id t * peval (pder a) t)) by (unfold id; ring).
    apply derivable_pt_lim_plus; [apply derivable_pt_lim_const|]. apply derivable_pt_lim_mult; [apply derivable_pt_lim_id|exact IH].
Qed.

Lemma ispoly_add f g : ispoly f -> ispoly g -> ispoly (fun t => f t + g t).
Proof. intros (a & A) (b & B). exists (padd a b). intros t. rewrite peval_add, A, B. reflexivity. Qed.
Lemma ispoly_mul f g : ispoly f -> ispoly g -> ispoly (fun t => f t * g t).
Proof. intros (a & A) (b & B). exists (pmul a b). intros t. rewrite peval_mul, A, B. reflexivity. Qed.
Lemma ispoly_const c : ispoly (fun _ => c).
Proof. exists [c]. intros t. cbn. ring. Qed.
Lemma ispoly_lin x : ispoly (fun t => t - x).
Proof. exists [- x; 1]. intros t. cbn. ring. Qed.
Lemma ispoly_pow x n : ispoly (fun t => (t - x) ^ n).
Proof. induction n as [|n IH]; [exact (ispoly_const 1)|]. exact (ispoly_mul _ _ (ispoly_lin x) IH). Qed.
Lemma ispoly_ext f g : (forall t, f t = g t) -> ispoly f -> ispoly g.
Proof. intros E (a & A). exists a. intros t. rewrite <- E. apply A. Qed.
Lemma agree_iff n x a b : agree n x a b <-> exists q, ispoly q /\ forall t, peval a t - peval b t = (t - Q2R x) ^ n * q t.
Proof.
  split.
  - intros (q & Q). exists (peval q). split; [exists q; reflexivity|exact Q].
  - intros (q & (l & L) & E). exists l. intros t. rewrite E, L. reflexivity.
Qed.
Lemma agree_le n m x a b : (n <= m)%nat -> agree m x a b -> agree n x a b.
Proof.
  rewrite !agree_iff. intros L (q & P & E). exists (fun t => (t - Q2R x) ^ (m - n) * q t). split; [apply ispoly_mul; [apply ispoly_pow|exact P]|].
  intros t. rewrite E. replace m with (n + (m - n))%nat at 1 by lia. rewrite pow_add. ring.
Qed.
Lemma agree_same n x a b : (forall t, peval a t = peval b t) -> agree n x a b.
Proof. intros E. exists []. intros t. rewrite E. cbn. ring. Qed.

(** ** A polynomial with too many zeros *)
Lemma divide c x : exists c1, (length c1 <= length c - 1)%nat /\ forall t, peval c t = peval c x + (t - x) * peval c1 t.
Proof.
  induction c as [|a c (c1 & L & E)]; [exists []; split; [cbn; lia|intros; cbn; ring]|]. destruct c as [|b c].
  - exists []. split; [cbn; lia|]. intros t. cbn. ring.
  - exists (padd (b :: c) (pscal x c1)). split; [rewrite padd_length; unfold pscal; rewrite map_length; cbn [length] in *; lia|]. intros t. rewrite peval_add, peval_scal. change (peval (a :: b :: c) t) with (a + t * peval (b :: c) t). change (peval (a :: b :: c) x) with (a + x * peval (b :: c) x).
    rewrite (E t). ring.
Qed.
Lemma peval_cont a t : continuity_pt (peval a) t.
Proof. apply derivable_continuous_pt. exists (peval (pder a) t). apply peval_der. Qed.
Lemma equal_off a b x : (forall t, t <> x -> peval a t = peval b t) -> forall t, peval a t = peval b t.
Proof.
  intros H t. destruct (Req_dec t x) as [->|N]; [|exact (H t N)]. apply cond_eq. intros eps P.
  assert (C : continuity_pt (fun t => peval a t - peval b t) x) by (apply continuity_pt_minus; apply peval_cont).
  destruct (C eps P) as (d & D & E). specialize (E (x + d / 2)). cbv beta in E. rewrite (H (x + d / 2)) in E by lra. rewrite Rminus_diag_eq in E by reflexivity.
  rewrite <- Rabs_Ropp. replace (- (peval a x - peval b x)) with (0 - (peval a x - peval b x)) by ring. apply E. split; [split; [exact Logic.I|lra]|]. simpl. unfold R_dist. rewrite Rabs_pos_eq; lra.
Qed.
Lemma many_zeros : forall n c q x, (length c <= n)%nat -> (forall t, peval c t = (t - x) ^ n * peval q t) -> forall t, peval c t = 0.
Proof.
  induction n as [|n IH]; intros c q x L E t.
  - destruct c; [reflexivity|cbn in L; lia].
  - destruct (divide c x) as (c1 & L1 & E1). assert (Z : peval c x = 0) by (rewrite E; cbn [pow]; ring).
    rewrite E1, Z. rewrite (IH c1 q x); [ring|lia|]. intros t'. assert (X : forall t, peval c1 t = peval (pmul (let fix pw n := match n with O => [1] | S m => pmul [- x; 1] (pw m) end in pw n) q) t).
    { apply (equal_off _ _ x). intros s NE. rewrite peval_mul. assert (PW : forall n, peval ((fix pw n := match n with O => [1] | S m => pmul [- x; 1] (pw m) end) n) s = (s - x) ^ n).
      { intros k. induction k as [|k IK]; [cbn; ring|]. rewrite peval_mul, IK. cbn. ring. }
      cbv zeta. rewrite PW. apply (Rmult_eq_reg_l (s - x)); [|lra]. specialize (E s). rewrite E1, Z in E. cbn [pow] in E. lra. }
    rewrite X, peval_mul. f_equal. cbv zeta. clear. induction n as [|k IK]; [cbn; ring|]. rewrite peval_mul, IK. cbn. ring.
Qed.
Lemma agree_equal p x a b : degle p (peval a) -> degle p (peval b) -> agree (p + 1) x a b -> forall t, peval a t = peval b t.
Proof.
  intros (a' & LA & EA) (b' & LB & EB) (q & E) t. assert (Z : forall t, peval (padd a' (pscal (-1) b')) t = 0).
  { apply (many_zeros (p + 1) _ q (Q2R x)); [rewrite padd_length; unfold pscal; rewrite map_length; lia|]. intros s. rewrite peval_add, peval_scal, <- EA, <- EB, <- E. ring. }
  specialize (Z t). rewrite peval_add, peval_scal, <- EA, <- EB in Z. lra.
Qed.

(** ** Splines *)
Lemma product_in p1 l1 p2 l2 p l a b s : in_space p1 l1 a -> in_space p2 l2 b -> product a b s -> (p1 + p2 <= p)%nat ->
  (forall z, mult l z = 0%nat -> mult l1 z = 0%nat /\ mult l2 z = 0%nat) ->
  (forall x, (0 < mult l x)%nat -> (p + 1 - mult l x <= p1 + 1 - mult l1 x)%nat /\ (p + 1 - mult l x <= p2 + 1 - mult l2 x)%nat) -> in_space p l s.
Proof.
  intros (A1 & A2) (B1 & B2) PR D Z M. split.
  - intros x. destruct (A1 x) as (ca & LA & EA). destruct (B1 x) as (cb & LB & EB). exists (pmul ca (cb ++ repeat 0 (p2 + 1 - length cb))). split.
    + pose proof (pmul_length' ca (cb ++ repeat 0 (p2 + 1 - length cb))) as H. rewrite app_length, repeat_length in H. lia.
    + intros t. rewrite PR, EA, EB, peval_mul. f_equal. clear. generalize (p2 + 1 - length cb)%nat. intros n. induction cb as [|c cb IH]; cbn [app peval]; [|rewrite IH; reflexivity]. induction n as [|n IH]; [reflexivity|]. cbn [repeat peval]. rewrite <- IH. ring.
  - intros y x LT NK. assert (NA : forall z, (y < z)%Q -> (z < x)%Q -> mult l1 z = 0%nat) by (intros z Y X; apply Z, NK; assumption). assert (NB : forall z, (y < z)%Q -> (z < x)%Q -> mult l2 z = 0%nat) by (intros z Y X; apply Z, NK; assumption).
    specialize (A2 y x LT NA). specialize (B2 y x LT NB). destruct (Nat.eq_dec (mult l x) 0) as [E0|N0].
    + destruct (Z x E0) as (Z1 & Z2). rewrite Z1, Nat.sub_0_r in A2. rewrite Z2, Nat.sub_0_r in B2. apply agree_same. intros t. rewrite !PR. f_equal; [exact (agree_equal p1 x _ _ (A1 y) (A1 x) A2 t)|exact (agree_equal p2 x _ _ (B1 y) (B1 x) B2 t)].
    + destruct (M x ltac:(lia)) as (M1 & M2). apply (agree_le _ _ _ _ _ M1) in A2. apply (agree_le _ _ _ _ _ M2) in B2. rewrite agree_iff in *. destruct A2 as (qa & PA & EA). destruct B2 as (qb & PB & EB).
      exists (fun t => qa t * peval (b y) t + peval (a x) t * qb t). split; [apply ispoly_add; apply ispoly_mul; try assumption; eexists; reflexivity|]. intros t. rewrite !PR. replace (peval (a y) t * peval (b y) t - peval (a x) t * peval (b x) t) with ((peval (a y) t - peval (a x) t) * peval (b y) t + peval (a x) t * (peval (b y) t - peval (b x) t)) by ring. rewrite EA, EB. ring.
Qed.
Lemma larger_in p1 l1 p l a : in_space p1 l1 a -> (p1 <= p)%nat -> (forall z, mult l z = 0%nat -> mult l1 z = 0%nat) -> (forall x, (0 < mult l x)%nat -> (p + 1 - mult l x <= p1 + 1 - mult l1 x)%nat) -> in_space p l a.
Proof.
  intros (A1 & A2) D Z M. split.
  - intros x. destruct (A1 x) as (ca & LA & EA). exists ca. split; [lia|exact EA].
  - intros y x LT NK. assert (NA : forall z, (y < z)%Q -> (z < x)%Q -> mult l1 z = 0%nat) by (intros z Y X; apply Z, NK; assumption). specialize (A2 y x LT NA). destruct (Nat.eq_dec (mult l x) 0) as [E0|N0].
    + rewrite (Z x E0), Nat.sub_0_r in A2. apply agree_same. exact (agree_equal p1 x _ _ (A1 y) (A1 x) A2).
    + apply (agree_le _ _ _ _ _ (M x ltac:(lia))). exact A2.
Qed.
Lemma derivative_in p l a a' : (1 <= p)%nat -> in_space p l a -> derivative a a' -> in_space (p - 1) l a'.
Proof.
  intros P (A1 & A2) D. split.
  - intros x. destruct (A1 x) as (c & L & E). exists (pder c). split; [rewrite pder_length; lia|]. intros t. apply (uniqueness_limite (peval (a x)) t); [apply D|]. apply (derivable_pt_lim_ext (peval c)); [intros z; symmetry; apply E|apply peval_der].
  - intros y x LT NK. specialize (A2 y x LT NK). replace (p - 1 + 1 - mult l x)%nat with (p + 1 - mult l x - 1)%nat by lia. destruct (p + 1 - mult l x)%nat as [|n]; [|replace (S n - 1)%nat with n by lia].
    + rewrite agree_iff. exists (fun t => peval (a' y) t + -1 * peval (a' x) t). split; [apply ispoly_add; [eexists; reflexivity|apply ispoly_mul; [apply ispoly_const|eexists; reflexivity]]|]. intros t. cbn. ring.
    + destruct A2 as (q & E). rewrite agree_iff. exists (fun t => INR (S n) * peval q t + (t - Q2R x) * peval (pder q) t). split; [apply ispoly_add; apply ispoly_mul; [apply ispoly_const|eexists; reflexivity|apply ispoly_lin|eexists; reflexivity]|].
      intros t. apply (uniqueness_limite (minus_fct (peval (a y)) (peval (a x))) t); [apply derivable_pt_lim_minus; apply D|].
      apply (derivable_pt_lim_ext (mult_fct (comp (fun u => u ^ S n) (minus_fct id (fct_cte (Q2R x)))) (peval q))); [intros z; symmetry; apply E|].
      replace ((t - Q2R x) ^ n * (INR (S n) * peval q t + (t - Q2R x) * peval (pder q) t)) with ((INR (S n) * (t - Q2R x) ^ n * (1 - 0)) * peval q t + (t - Q2R x) ^ S n * peval (pder q) t) by (cbn [pow]; ring).
      apply (derivable_pt_lim_mult (comp (fun u => u ^ S n) (minus_fct id (fct_cte (Q2R x)))) (peval q)); [|apply peval_der].
      apply (derivable_pt_lim_comp (minus_fct id (fct_cte (Q2R x))) (fun u => u ^ S n)); [apply derivable_pt_lim_minus; [apply derivable_pt_lim_id|apply derivable_pt_lim_const]|]. apply (derivable_pt_lim_pow (t - Q2R x) (S n)).
Qed.
