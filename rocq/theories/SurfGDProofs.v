(** Proofs for C57. *)
From Coq Require Import Lra.
From Verif Require Import Common SplineModel SplineSpec GluingModel GluingSpec SurfGDModel SurfGDSpec.
Open Scope R_scope.

(** ** Sums *)
Lemma total_app {A} (f : A -> R) l r : total f (l ++ r) = total f l + total f r.
Proof. induction l as [|x l IH]; cbn [app total]; [|rewrite IH]; ring. Qed.
Lemma total_ext {A} (f g : A -> R) l : (forall x, In x l -> f x = g x) -> total f l = total g l.
Proof. induction l as [|x l IH]; intros H; [reflexivity|]. cbn [total]. rewrite H by (left; reflexivity). f_equal. apply IH. intros y Y. apply H. right. exact Y. Qed.
Lemma total_add {A} (f g : A -> R) l : total (fun x => f x + g x) l = total f l + total g l.
Proof. induction l as [|x l IH]; cbn [total]; [|rewrite IH]; ring. Qed.
Lemma total_scal {A} a (f : A -> R) l : total (fun x => a * f x) l = a * total f l.
Proof. induction l as [|x l IH]; cbn [total]; [|rewrite IH]; ring. Qed.
Lemma total_zero {A} (l : list A) : total (fun _ => 0) l = 0.
Proof. induction l as [|x l IH]; cbn [total]; [|rewrite IH]; ring. Qed.
Lemma fold_total {A} (f : A -> R) l a : fold_left (fun a k => a + f k) l a = a + total f l.
Proof. revert a. induction l as [|x l IH]; intros a; cbn [fold_left total]; [|rewrite IH]; ring. Qed.
Lemma fold_elements {A} (f : A -> R) els : fold_left (fun a e => a + fold_left (fun a k => a + f k) e 0) els 0 = total f (concat els).
Proof.
  rewrite fold_total, Rplus_0_l. induction els as [|e els IH]; [reflexivity|]. cbn [total concat]. rewrite total_app, <- IH, fold_total. ring.
Qed.
Lemma sumTo_ext n f g : (forall i, (i < n)%nat -> f i = g i) -> sumTo n f = sumTo n g.
Proof. induction n as [|n IH]; intros H; [reflexivity|]. cbn [sumTo]. rewrite IH by (intros; apply H; lia). f_equal. apply H. lia. Qed.
Lemma sumTo_total {A} n (f : nat -> A -> R) l : sumTo n (fun i => total (f i) l) = total (fun k => sumTo n (fun i => f i k)) l.
Proof. induction n as [|n IH]; [cbn [sumTo]; symmetry; apply total_zero|]. cbn [sumTo]. rewrite IH, total_add. reflexivity. Qed.
Lemma sumTo_zero n f : (forall i, (i < n)%nat -> f i = 0) -> sumTo n f = 0.
Proof. induction n as [|n IH]; intros H; [reflexivity|]. cbn [sumTo]. rewrite IH, H by (intros; try apply H; lia). ring. Qed.

(** the product of [d] with the residual of a system assembled from nodes *)
Lemma residual_total {A} n (m : nat -> nat -> A -> R) (b : nat -> A -> R) (c d : nat -> R) (l : list A) :
  sumTo n (fun i => d i * (sumTo n (fun j => total (m i j) l * c j) - total (b i) l))
  = total (fun k => sumTo n (fun i => d i * (sumTo n (fun j => m i j k * c j) - b i k))) l.
Proof.
  rewrite <- sumTo_total. apply sumTo_ext. intros i I. rewrite total_scal. f_equal.
  replace (total (fun k => sumTo n (fun j => m i j k * c j) - b i k) l) with (total (fun k => sumTo n (fun j => m i j k * c j)) l - total (b i) l).
  - f_equal. rewrite <- sumTo_total. apply sumTo_ext. intros j J. rewrite Rmult_comm, <- total_scal. apply total_ext. intros; ring.
  - transitivity (total (fun k => sumTo n (fun j => m i j k * c j)) l + -1 * total (b i) l); [ring|]. rewrite <- total_scal, <- total_add. apply total_ext. intros; ring.
Qed.
Definition unit_at (i : nat) (j : nat) : R := if (i =? j)%nat then 1 else 0.
Lemma sumTo_unit n i f : (i < n)%nat -> sumTo n (fun j => unit_at i j * f j) = f i.
Proof.
  induction n as [|n IH]; intros L; [lia|]. cbn [sumTo]. unfold unit_at at 2. destruct (Nat.eqb_spec i n) as [->|NE].
  - rewrite sumTo_zero; [ring|]. intros j J. unfold unit_at. destruct (Nat.eqb_spec n j); [lia|ring].
  - rewrite IH by lia. ring.
Qed.
Lemma solves_residual n M b c : solves n M b c <-> forall d, sumTo n (fun i => d i * (sumTo n (fun j => M i j * c j) - b i)) = 0.
Proof.
  split.
  - intros H d. apply sumTo_zero. intros i I. rewrite (H i I). ring.
  - intros H i I. specialize (H (unit_at i)). rewrite (sumTo_unit n i (fun i => sumTo n (fun j => M i j * c j) - b i)) in H by exact I. lra.
Qed.

Lemma dot_comb x a y b z c u a' v b' w c' : a = a' -> b = b' -> c = c' -> dot3 (comb3 x a y b z c) (comb3 u a' v b' w c') =
  x * u * dot3 a a + y * v * dot3 b b + z * w * dot3 c c + (x * v + y * u) * dot3 a b + (x * w + z * u) * dot3 a c + (y * w + z * v) * dot3 c b.
Proof. intros -> -> ->. destruct a' as [[a1 a2] a3], b' as [[b1 b2] b3], c' as [[c1 c2] c3]. cbn. ring. Qed.

Section System.
Variables jacR jacL : R * R -> J3.
Variable lam : R.

(** first variation of the functional at one node *)
Definition variation (c d : nat -> R) (t : R) : R :=
  2 * dot3 (defect jacR jacL c t) (defect jacR jacL d t) - 2 * lam * ((aR c t - 1) * aR d t + (aL c t - 1) * aL d t).

Lemma node_system c d t :
  sumTo 7 (fun i => d i * (sumTo 7 (fun j => basisData jacR jacL lam t (i * 7 + j) * c j) - rhsVals lam t i)) = variation c d t.
Proof.
  unfold variation, defect. rewrite (dot_comb _ _ _ _ _ _ _ _ _ _ _ _ eq_refl eq_refl eq_refl).
  change (Fv (jacL (t, 0))) with (DvFL jacL t). change (Fu (jacR (0, t))) with (DuFR jacR t). change (Fv (jacR (0, t))) with (DvFR jacR t).
  cbn [sumTo Nat.mul Nat.add]. unfold basisData. change tdot with dot3. generalize (dot3 (DvFL jacL t) (DvFL jacL t)) (dot3 (DuFR jacR t) (DuFR jacR t)) (dot3 (DvFR jacR t) (DvFR jacR t)) (dot3 (DvFL jacL t) (DuFR jacR t)) (dot3 (DvFL jacL t) (DvFR jacR t)) (dot3 (DvFR jacR t) (DuFR jacR t)).
  intros LL RR VV LR LV VR. cbv beta iota zeta. unfold rhsVals, aR, aL, bt, lin, quadr. cbv beta iota. ring.
Qed.

Lemma sys_mat els i j : sysMat jacR jacL lam els i j = total (fun k => qw k * basisData jacR jacL lam (qt k) (i * 7 + j)) (concat els).
Proof. apply fold_elements. Qed.
Lemma sys_rhs els i : sysRhs lam els i = total (fun k => qw k * rhsVals lam (qt k) i) (concat els).
Proof. apply fold_elements. Qed.

Lemma sys_residual els c d :
  sumTo 7 (fun i => d i * (sumTo 7 (fun j => sysMat jacR jacL lam els i j * c j) - sysRhs lam els i)) = total (fun k => qw k * variation c d (qt k)) (concat els).
Proof.
  transitivity (sumTo 7 (fun i => d i * (sumTo 7 (fun j => total (fun k => qw k * basisData jacR jacL lam (qt k) (i * 7 + j)) (concat els) * c j) - total (fun k => qw k * rhsVals lam (qt k) i) (concat els)))).
  - apply sumTo_ext. intros i I. rewrite sys_rhs. f_equal. f_equal. apply sumTo_ext. intros j J. rewrite sys_mat. reflexivity.
  - rewrite (residual_total 7 (fun i j k => qw k * basisData jacR jacL lam (qt k) (i * 7 + j)) (fun i k => qw k * rhsVals lam (qt k) i)). apply total_ext. intros k _. rewrite <- node_system.
    generalize (qt k) (qw k). intros t w. cbn [sumTo]. ring.
Qed.

Lemma cost_step nodes c d : cost jacR jacL lam nodes (plus_vec c d) = cost jacR jacL lam nodes c + total (fun k => qw k * variation c d (qt k)) nodes + curvature jacR jacL lam nodes d.
Proof.
  unfold cost, curvature. rewrite <- !total_add. apply total_ext. intros k _. unfold variation, defect. rewrite !(dot_comb _ _ _ _ _ _ _ _ _ _ _ _ eq_refl eq_refl eq_refl).
  generalize (dot3 (Fv (jacL (qt k, 0))) (Fv (jacL (qt k, 0)))) (dot3 (Fu (jacR (0, qt k))) (Fu (jacR (0, qt k)))) (dot3 (Fv (jacR (0, qt k))) (Fv (jacR (0, qt k)))) (dot3 (Fv (jacL (qt k, 0))) (Fu (jacR (0, qt k)))) (dot3 (Fv (jacL (qt k, 0))) (Fv (jacR (0, qt k)))) (dot3 (Fv (jacR (0, qt k))) (Fu (jacR (0, qt k)))).
  intros LL RR VV LR LV VR. unfold aR, aL, bt, lin, quadr, plus_vec. ring.
Qed.

Theorem stationary_pf : forall els c, solves 7 (sysMat jacR jacL lam els) (sysRhs lam els) c <->
  forall d, cost jacR jacL lam (concat els) (plus_vec c d) = cost jacR jacL lam (concat els) c + curvature jacR jacL lam (concat els) d.
Proof.
  intros els c. rewrite solves_residual. split; intros H d; specialize (H d); rewrite sys_residual in *; rewrite cost_step in *; lra.
Qed.
End System.

(** ** Exactness *)
Lemma total_pos_zero {A} (f : A -> R) l : (forall x, In x l -> 0 <= f x) -> total f l = 0 -> forall x, In x l -> f x = 0.
Proof.
  induction l as [|y l IH]; intros P Z x X; [destruct X|]. cbn [total] in Z. assert (0 <= total f l) by (clear IH Z X; induction l as [|z l IH]; cbn [total]; [lra|]; pose proof (P z (or_intror (or_introl eq_refl))); specialize (IH ltac:(intros w W; apply P; destruct W as [->|W]; [left; reflexivity|right; right; exact W])); lra).
  pose proof (P y (or_introl eq_refl)). destruct X as [<-|X]; [lra|]. apply IH; [intros w W; apply P; right; exact W|lra|exact X].
Qed.
Lemma lin_two a b t s v : t <> s -> lin a b t = v -> lin a b s = v -> forall x, lin a b x = v.
Proof.
  unfold lin. intros NE E F x. assert (H : (t - s) * (b - a) = 0) by lra. apply Rmult_integral in H. destruct H as [H|H]; [lra|]. assert (b = a) by lra. subst b. lra.
Qed.

Definition ones_at (i : nat) : R := match i with 0%nat | 1%nat | 2%nat | 3%nat => 1 | _ => 0 end.

Theorem exact_pf : forall jacR jacL lam els c, lam <> 0 -> good_rule (concat els) -> (forall k, In k (concat els) -> defect jacR jacL c (qt k) = (0, 0, 0)) ->
  (solves 7 (sysMat jacR jacL lam els) (sysRhs lam els) c <-> forall t, aR c t = 1 /\ aL c t = 1).
Proof.
  intros jacR jacL lam els c NL (PW & k & l & K & L & NE) Z. rewrite solves_residual. split.
  - intros H. specialize (H (fun i => c i - ones_at i)). rewrite sys_residual in H.
    assert (S : total (fun k => qw k * ((aR c (qt k) - 1) * (aR c (qt k) - 1) + (aL c (qt k) - 1) * (aL c (qt k) - 1))) (concat els) = 0).
    { apply (Rmult_eq_reg_l (- 2 * lam)); [|lra]. rewrite Rmult_0_r, <- H, <- total_scal. apply total_ext. intros q Q. unfold variation. rewrite (Z q Q).
      assert (E : dot3 (0, 0, 0) (defect jacR jacL (fun i : nat => c i - ones_at i) (qt q)) = 0) by (destruct (defect _ _ _ _) as [[x y] z]; cbn; ring). rewrite E. unfold aR, aL, lin, ones_at. ring. }
    assert (P : forall x, In x (concat els) -> 0 <= qw x * ((aR c (qt x) - 1) * (aR c (qt x) - 1) + (aL c (qt x) - 1) * (aL c (qt x) - 1))).
    { intros x X. specialize (PW x X). apply Rmult_le_pos; [lra|]. pose proof (Rle_0_sqr (aR c (qt x) - 1)). pose proof (Rle_0_sqr (aL c (qt x) - 1)). unfold Rsqr in *. lra. }
    assert (Q : forall x, In x (concat els) -> aR c (qt x) = 1 /\ aL c (qt x) = 1).
    { intros x X. pose proof (total_pos_zero _ _ P S x X) as E. cbv beta in E. specialize (PW x X). apply Rmult_integral in E. destruct E as [E|E]; [lra|].
      pose proof (Rle_0_sqr (aR c (qt x) - 1)) as A. pose proof (Rle_0_sqr (aL c (qt x) - 1)) as B. unfold Rsqr in A, B.
      assert (A' : (aR c (qt x) - 1) * (aR c (qt x) - 1) = 0) by lra. assert (B' : (aL c (qt x) - 1) * (aL c (qt x) - 1) = 0) by lra. apply Rmult_integral in A', B'. split; lra. }
    intros t. destruct (Q k K) as (A & B). destruct (Q l L) as (A' & B'). split; eapply lin_two; eauto.
  - intros H d. rewrite sys_residual. rewrite <- (total_zero (concat els)). apply total_ext. intros q Q. unfold variation. rewrite (Z q Q). destruct (H (qt q)) as (A & B). rewrite A, B.
    destruct (defect _ _ d _) as [[x y] z]; cbn. ring.
Qed.

(** ** The second system *)
Section Second.
Variable g : nat -> R.
Variable lam : R.
Definition variationB (c d : nat -> R) (t : R) : R :=
  2 * split_defect g c t * (aL g t * bR d t + aR g t * bL d t) - 2 * lam * (bR c t * bR d t + bL c t * bL d t).
Lemma node_systemB c d t :
  sumTo 4 (fun i => d i * (sumTo 4 (fun j => basisDataBeta g lam t (i * 4 + j) * c j) - rhsValsBeta g t i)) = variationB c d t.
Proof.
  cbn [sumTo Nat.mul Nat.add]. unfold basisDataBeta, rhsValsBeta. replace (visBeta g t) with (bt g t) by (unfold visBeta, bt, quadr; ring). replace (visAlpha_R g t) with (aR g t) by (unfold visAlpha_R, aR, lin; ring). replace (visAlpha_L g t) with (aL g t) by (unfold visAlpha_L, aL, lin; ring).
  unfold variationB, split_defect. generalize (bt g t) (aR g t) (aL g t). intros B A A'. cbv beta iota zeta. unfold bR, bL, lin. ring.
Qed.
Lemma sys_residualB els c d :
  sumTo 4 (fun i => d i * (sumTo 4 (fun j => sysMatBeta g lam els i j * c j) - sysRhsBeta g els i)) = total (fun k => qw k * variationB c d (qt k)) (concat els).
Proof.
  transitivity (sumTo 4 (fun i => d i * (sumTo 4 (fun j => total (fun k => qw k * basisDataBeta g lam (qt k) (i * 4 + j)) (concat els) * c j) - total (fun k => qw k * rhsValsBeta g (qt k) i) (concat els)))).
  - apply sumTo_ext. intros i I. unfold sysRhsBeta, localRhsBeta. rewrite (fold_elements (fun k => qw k * rhsValsBeta g (qt k) i)). f_equal. f_equal. apply sumTo_ext. intros j J. unfold sysMatBeta, localMatBeta. rewrite (fold_elements (fun k => qw k * basisDataBeta g lam (qt k) (i * 4 + j))). reflexivity.
  - rewrite (residual_total 4 (fun i j k => qw k * basisDataBeta g lam (qt k) (i * 4 + j)) (fun i k => qw k * rhsValsBeta g (qt k) i)). apply total_ext. intros k _. rewrite <- node_systemB.
    generalize (qt k) (qw k). intros t w. cbn [sumTo]. ring.
Qed.
Lemma cost_stepB nodes c d : split_cost g lam nodes (plus_vec c d) = split_cost g lam nodes c + total (fun k => qw k * variationB c d (qt k)) nodes + split_curvature g lam nodes d.
Proof.
  unfold split_cost, split_curvature. rewrite <- !total_add. apply total_ext. intros k _. unfold variationB, split_defect, bR, bL, lin, plus_vec. ring.
Qed.
Theorem split_stationary_pf : forall els c, solves 4 (sysMatBeta g lam els) (sysRhsBeta g els) c <->
  forall d, split_cost g lam (concat els) (plus_vec c d) = split_cost g lam (concat els) c + split_curvature g lam (concat els) d.
Proof.
  intros els c. rewrite solves_residual. split; intros H d; specialize (H d); rewrite sys_residualB in *; rewrite cost_stepB in *; lra.
Qed.
Theorem split_exact_pf : forall els c, lam <> 0 -> good_rule (concat els) -> (forall k, In k (concat els) -> split_defect g c (qt k) = 0) ->
  (solves 4 (sysMatBeta g lam els) (sysRhsBeta g els) c <-> forall t, bR c t = 0 /\ bL c t = 0).
Proof.
  intros els c NL (PW & k & l & K & L & NE) Z. rewrite solves_residual. split.
  - intros H. specialize (H c). rewrite sys_residualB in H.
    assert (S : total (fun k => qw k * (bR c (qt k) * bR c (qt k) + bL c (qt k) * bL c (qt k))) (concat els) = 0).
    { apply (Rmult_eq_reg_l (- 2 * lam)); [|lra]. rewrite Rmult_0_r, <- H, <- total_scal. apply total_ext. intros q Q. unfold variationB. rewrite (Z q Q). ring. }
    assert (P : forall x, In x (concat els) -> 0 <= qw x * (bR c (qt x) * bR c (qt x) + bL c (qt x) * bL c (qt x))).
    { intros x X. specialize (PW x X). apply Rmult_le_pos; [lra|]. pose proof (Rle_0_sqr (bR c (qt x))). pose proof (Rle_0_sqr (bL c (qt x))). unfold Rsqr in *. lra. }
    assert (Q : forall x, In x (concat els) -> bR c (qt x) = 0 /\ bL c (qt x) = 0).
    { intros x X. pose proof (total_pos_zero _ _ P S x X) as E. cbv beta in E. specialize (PW x X). apply Rmult_integral in E. destruct E as [E|E]; [lra|].
      pose proof (Rle_0_sqr (bR c (qt x))) as A. pose proof (Rle_0_sqr (bL c (qt x))) as B. unfold Rsqr in A, B.
      assert (A' : bR c (qt x) * bR c (qt x) = 0) by lra. assert (B' : bL c (qt x) * bL c (qt x) = 0) by lra. apply Rmult_integral in A', B'. split; lra. }
    intros t. destruct (Q k K) as (A & B). destruct (Q l L) as (A' & B'). split; eapply lin_two; eauto.
  - intros H d. rewrite sys_residualB. rewrite <- (total_zero (concat els)). apply total_ext. intros q Q. unfold variationB. rewrite (Z q Q). destruct (H (qt q)) as (A & B). rewrite A, B. ring.
Qed.
End Second.

(** ** Evaluation *)
Theorem evals_pf : forall c b t, evalAlpha_R c t = aR c t /\ evalAlpha_L c t = aL c t /\ evalBeta_R b t = bR b t /\ evalBeta_L b t = bL b t.
Proof. intros c b t. unfold evalAlpha_R, evalAlpha_L, evalBeta_R, evalBeta_L, aR, aL, bR, bL, lin. repeat split; ring. Qed.
Theorem evalBeta_pf : forall c, (forall t, evalBeta c t = bt c t) <-> c 5%nat = c 6%nat.
Proof.
  intros c. split.
  - intros H. pose proof (H 2) as B. unfold evalBeta, bt, quadr in B. lra.
  - intros A t. unfold evalBeta, bt, quadr. rewrite A. ring.
Qed.
Theorem edge_data_pf : forall t, evalAlpha_R edgeSol t = 1 /\ evalAlpha_L edgeSol t = 1 /\ evalBeta_R edgeSolBeta t = 0 /\ evalBeta_L edgeSolBeta t = 0 /\ evalBeta edgeSol t = 0.
Proof. intros t. unfold evalAlpha_R, evalAlpha_L, evalBeta_R, evalBeta_L, evalBeta, edgeSol, edgeSolBeta. repeat split; ring. Qed.
