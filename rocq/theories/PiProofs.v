From Coq Require Import Reals ZArith Lia Lra Arith.
From Verif Require Import Common PiModel PiSpec.
Open Scope R_scope.

Lemma rsum_ext n f g : (forall k, (k < n)%nat -> f k = g k) -> rsum n f = rsum n g.
Proof. induction n; intros H; simpl; [reflexivity|]. rewrite IHn, H; auto with arith. Qed.
Lemma rsum_plus n f g : rsum n (fun k => f k + g k) = rsum n f + rsum n g.
Proof. induction n; simpl; [ring|]. rewrite IHn. ring. Qed.
Lemma rsum_scal n a f : rsum n (fun k => a * f k) = a * rsum n f.
Proof. induction n; simpl; [ring|]. rewrite IHn. ring. Qed.
Lemma rsum_const n a : rsum n (fun _ => a) = INR n * a.
Proof. induction n; [simpl; ring|]. cbn [rsum]. rewrite IHn, S_INR. ring. Qed.
Lemma rsum_app n m f : rsum (n + m) f = rsum n f + rsum m (fun k => f (n + k)%nat).
Proof.
  induction m; [rewrite Nat.add_0_r; simpl; ring|].
  rewrite Nat.add_succ_r. simpl. rewrite IHm. ring.
Qed.
Lemma rsum_3 v f : rsum (3 * v) f
  = rsum v f + rsum v (fun k => f (v + k)%nat) + rsum v (fun k => f (2 * v + k)%nat).
Proof.
  replace (3 * v)%nat with (v + (v + v))%nat by lia. rewrite !rsum_app.
  rewrite (rsum_ext v (fun k => f (v + (v + k))%nat) (fun k => f (2 * v + k)%nat)).
  - ring.
  - intros. f_equal. lia.
Qed.

(** telescoping *)
Lemma cos_sum_tele n a t :
  2 * sin (t / 2) * rsum n (fun k => cos (a + INR k * t))
  = sin (a + INR n * t - t / 2) - sin (a - t / 2).
Proof.
  induction n as [|n IH]; [simpl; rewrite Rmult_0_l, Rplus_0_r; ring|].
  cbn [rsum]. rewrite Rmult_plus_distr_l, IH, S_INR.
  replace (a + (INR n + 1) * t - t / 2) with ((a + INR n * t) + t / 2) by field.
  replace (a + INR n * t - t / 2) with ((a + INR n * t) - t / 2) by ring.
  rewrite sin_plus, sin_minus. ring.
Qed.

Lemma phi_eq v : pi_phi v = 2 * PI / INR v.
Proof. unfold pi_phi. rewrite atan_1. f_equal. field. Qed.

Lemma phi_v v : (0 < v)%nat -> INR v * pi_phi v = 2 * PI.
Proof. intros H. rewrite phi_eq. apply lt_INR in H. simpl in H. field. lra. Qed.

Lemma sum_cos_zero v m a : (0 < m)%nat -> (m < v)%nat ->
  rsum v (fun k => cos (a + INR k * (INR m * pi_phi v))) = 0.
Proof.
  intros Hm Hv. pose proof (cos_sum_tele v a (INR m * pi_phi v)) as T.
  assert (E : INR v * (INR m * pi_phi v) = 2 * INR m * PI).
  { replace (INR v * (INR m * pi_phi v)) with (INR m * (INR v * pi_phi v)) by ring.
    rewrite phi_v by lia. ring. }
  rewrite E in T.
  replace (a + 2 * INR m * PI - INR m * pi_phi v / 2)
    with ((a - INR m * pi_phi v / 2) + 2 * INR m * PI) in T by ring.
  rewrite sin_period in T.
  assert (S0 : sin (INR m * pi_phi v / 2) > 0).
  { rewrite phi_eq. apply lt_INR in Hm, Hv. simpl in Hm.
    replace (INR m * (2 * PI / INR v) / 2) with (PI * (INR m / INR v)) by (field; lra).
    pose proof PI_RGT_0.
    assert (0 < INR m / INR v) by (apply Rdiv_lt_0_compat; lra).
    assert (INR m / INR v < 1) by (apply Rmult_lt_reg_r with (INR v); [lra|]; unfold Rdiv; rewrite Rmult_assoc, Rinv_l; lra).
    apply sin_gt_0; [nra|]. rewrite <- (Rmult_1_r PI) at 2. apply Rmult_lt_compat_l; lra. }
  assert (2 * sin (INR m * pi_phi v / 2) * rsum v (fun k => cos (a + INR k * (INR m * pi_phi v))) = 0) by lra.
  apply Rmult_integral in H. destruct H; [lra|assumption].
Qed.

Lemma sum_cos1 v a s : (2 <= v)%nat -> (s = 1 \/ s = -1) ->
  rsum v (fun k => cos (a + s * (INR k * pi_phi v))) = 0.
Proof.
  intros Hv Hs. destruct Hs; subst.
  - rewrite <- (sum_cos_zero v 1 a) by lia. apply rsum_ext. intros. f_equal. simpl. ring.
  - rewrite <- (sum_cos_zero v 1 (- a)) by lia. apply rsum_ext. intros.
    rewrite <- cos_neg. f_equal. simpl. ring.
Qed.
Lemma sum_cos2 v a : (3 <= v)%nat -> rsum v (fun k => cos (a + 2 * (INR k * pi_phi v))) = 0.
Proof.
  intros Hv. rewrite <- (sum_cos_zero v 2 a) by lia. apply rsum_ext. intros. f_equal. simpl. ring.
Qed.

(** the circulant index *)
Lemma circ_val v j k : (j < v)%nat -> (k < v)%nat ->
  pi_circ v j k = (Z.of_nat j - Z.of_nat k)%Z \/ pi_circ v j k = (Z.of_nat j - Z.of_nat k + Z.of_nat v)%Z.
Proof.
  intros Hj Hk. unfold pi_circ.
  replace (Z.rem (Z.of_nat j - Z.of_nat k) (Z.of_nat v)) with (Z.of_nat j - Z.of_nat k)%Z.
  - destruct (_ <? _)%Z; auto.
  - destruct (Z_le_gt_dec (Z.of_nat k) (Z.of_nat j)).
    + symmetry. apply Z.rem_small. lia.
    + symmetry. replace (Z.of_nat j - Z.of_nat k)%Z with (- (Z.of_nat k - Z.of_nat j))%Z by lia.
      rewrite Z.rem_opp_l by lia. f_equal. apply Z.rem_small. lia.
Qed.

Lemma circ_range v j k : (j < v)%nat -> (k < v)%nat -> (0 <= pi_circ v j k < Z.of_nat v)%Z.
Proof.
  intros Hj Hk. unfold pi_circ.
  pose proof (Z.rem_bound_abs (Z.of_nat j - Z.of_nat k) (Z.of_nat v) ltac:(lia)) as B.
  destruct (_ <? _)%Z eqn:E; [apply Z.ltb_lt in E|apply Z.ltb_ge in E]; lia.
Qed.

Lemma circ_cos v a s j k : (j < v)%nat -> (k < v)%nat -> (s = 1 \/ s = -1) ->
  cos (a + s * (IZR (pi_circ v j k) * pi_phi v)) = cos (a + s * ((INR j - INR k) * pi_phi v)).
Proof.
  intros Hj Hk Hs. destruct (circ_val v j k Hj Hk) as [-> | ->].
  - rewrite minus_IZR, <- !INR_IZR_INZ. reflexivity.
  - rewrite plus_IZR, minus_IZR, <- !INR_IZR_INZ.
    pose proof (phi_v v ltac:(lia)) as P.
    replace ((INR j - INR k + INR v) * pi_phi v) with ((INR j - INR k) * pi_phi v + INR v * pi_phi v) by ring.
    rewrite P. destruct Hs; subst s.
    + replace (a + 1 * ((INR j - INR k) * pi_phi v + 2 * PI))
        with ((a + 1 * ((INR j - INR k) * pi_phi v)) + 2 * INR 1 * PI) by (simpl; ring).
      apply cos_period.
    + rewrite <- (cos_neg (a + -1 * ((INR j - INR k) * pi_phi v + 2 * PI))).
      replace (- (a + -1 * ((INR j - INR k) * pi_phi v + 2 * PI)))
        with ((- (a + -1 * ((INR j - INR k) * pi_phi v))) + 2 * INR 1 * PI) by (simpl; ring).
      rewrite cos_period. apply cos_neg.
Qed.

(** the two vectors spanning the trigonometric part *)
Definition uvec (psi phi : R) (v r : nat) : R :=
  let k := INR (r mod v) in
  match (r / v)%nat with O => 0 | 1%nat => cos (k * phi) | _ => cos (k * phi - 2 * psi) end.
Definition wvec (psi phi : R) (v r : nat) : R :=
  let k := INR (r mod v) in
  match (r / v)%nat with O => 0 | 1%nat => sin (k * phi) | _ => sin (k * phi - 2 * psi) end.
(** weight of the constant part *)

Lemma block_lt v r : (r < 3 * v)%nat ->
  (r / v < 3)%nat /\ (r mod v < v)%nat.
Proof.
  intros H. split; [apply Nat.div_lt_upper_bound; lia | apply Nat.mod_upper_bound; lia].
Qed.

Lemma block_add v b k : (k < v)%nat -> ((b * v + k) / v = b /\ (b * v + k) mod v = k)%nat.
Proof.
  intros H. split.
  - rewrite Nat.div_add_l by lia. rewrite Nat.div_small by lia. lia.
  - rewrite Nat.add_comm, Nat.mod_add by lia. apply Nat.mod_small. lia.
Qed.

Section V.
Variables (Beta : R) (RL v : nat).
Hypothesis Hv : (2 <= v)%nat.
Notation psi := (pi_psi Beta RL v).
Notation phi := (pi_phi v).
Notation u := (uvec psi phi v).
Notation w := (wvec psi phi v).

Lemma vpos : 0 < INR v.
Proof. apply lt_0_INR. lia. Qed.

Lemma uw_sum r c : (r < 3 * v)%nat -> (c < 3 * v)%nat ->
  u r * u c + w r * w c =
  match (3 * (r / v) + c / v)%nat with
  | 0%nat | 1%nat | 2%nat | 3%nat | 6%nat => 0
  | 4%nat | 8%nat => cos (IZR (pi_circ v (r mod v) (c mod v)) * phi)
  | 5%nat => cos (2 * psi + IZR (pi_circ v (r mod v) (c mod v)) * phi)
  | _ => cos (2 * psi - IZR (pi_circ v (r mod v) (c mod v)) * phi)
  end.
Proof.
  intros Hr Hc. destruct (block_lt v r Hr) as [Br Mr], (block_lt v c Hc) as [Bc Mc].
  pose proof (fun a => circ_cos v a 1 (r mod v) (c mod v) Mr Mc (or_introl eq_refl)) as C1.
  pose proof (fun a => circ_cos v a (-1) (r mod v) (c mod v) Mr Mc (or_intror eq_refl)) as C2.
  unfold uvec, wvec.
  set (j := INR (r mod v)) in *. set (k := INR (c mod v)) in *.
  set (z := IZR (pi_circ v (r mod v) (c mod v))) in *.
  destruct (r / v)%nat as [|[|[|?]]] eqn:E1; try lia;
  destruct (c / v)%nat as [|[|[|?]]] eqn:E2; try lia; cbn [Nat.mul Nat.add]; try ring.
  - specialize (C1 0). replace (0 + 1 * (z * phi)) with (z * phi) in C1 by ring. rewrite C1.
    rewrite <- cos_minus. f_equal. ring.
  - specialize (C1 (2 * psi)). replace (2 * psi + 1 * (z * phi)) with (2 * psi + z * phi) in C1 by ring.
    rewrite C1. rewrite <- cos_minus. f_equal. ring.
  - specialize (C2 (2 * psi)). replace (2 * psi + -1 * (z * phi)) with (2 * psi - z * phi) in C2 by ring.
    rewrite C2. rewrite <- cos_minus. rewrite <- cos_neg. f_equal. ring.
  - specialize (C1 0). replace (0 + 1 * (z * phi)) with (z * phi) in C1 by ring. rewrite C1.
    rewrite <- cos_minus. f_equal. ring.
Qed.

Lemma blocks9 r c : (r < 3 * v)%nat -> (c < 3 * v)%nat -> (3 * (r / v) + c / v < 9)%nat.
Proof. intros Hr Hc. destruct (block_lt v r Hr), (block_lt v c Hc). lia. Qed.

Lemma pi0_form M r c : makePi 0 Beta RL v = Ok M -> (r < 3 * v)%nat -> (c < 3 * v)%nat ->
  M r c = 1 / (3 * INR v) + 1 / INR v * (u r * u c + w r * w c).
Proof.
  intros E Hr Hc. unfold makePi, pi_table in E. cbn [Z.eqb bind] in E.
  match type of E with Ok ?F = Ok _ => assert (EM : F = M) by congruence end.
  rewrite <- EM. clear E EM. cbv beta.
  rewrite uw_sum by assumption. pose proof vpos.
  destruct (3 * (r / v) + c / v)%nat as [|[|[|[|[|[|[|[|[|n]]]]]]]]]; field; lra.
Qed.

Definition nz (c : nat) : R := match (c / v)%nat with O => 0 | _ => 1 end.

Lemma pi1_form M r c : makePi 1 Beta RL v = Ok M -> (r < 3 * v)%nat -> (c < 3 * v)%nat ->
  M r c = nz c * (1 / (2 * INR v)) + 1 / (2 * INR v) * (u r * u c + w r * w c).
Proof.
  intros E Hr Hc. unfold makePi, pi_table in E. cbn [Z.eqb Pos.eqb bind] in E.
  match type of E with Ok ?F = Ok _ => assert (EM : F = M) by congruence end.
  rewrite <- EM. clear E EM. cbv beta.
  rewrite uw_sum by assumption. pose proof vpos. unfold nz.
  destruct (block_lt v r Hr) as [Br Mr], (block_lt v c Hc) as [Bc Mc].
  destruct (r / v)%nat as [|[|[|?]]] eqn:E1; try lia;
  destruct (c / v)%nat as [|[|[|?]]] eqn:E2; try lia; cbn [Nat.mul Nat.add]; field; lra.
Qed.

(** sums over all 3v entries *)
Lemma split3 f : rsum (3 * v) f
  = rsum v (fun k => f (0 * v + k)%nat) + rsum v (fun k => f (1 * v + k)%nat) + rsum v (fun k => f (2 * v + k)%nat).
Proof.
  rewrite rsum_3. rewrite (rsum_ext v (fun k => f (1 * v + k)%nat) (fun k => f (v + k)%nat)).
  - reflexivity.
  - intros. f_equal. lia.
Qed.

Ltac blk := intros; cbv beta; unfold uvec, wvec, nz;
  match goal with H : (?k < _)%nat |- context [(?b * _ + ?k)%nat] =>
    let P := fresh in let Q := fresh in
    destruct (block_add _ b k H) as [P Q]; rewrite ?P, ?Q; clear P Q end.

Lemma rsum_zero n : rsum n (fun _ => 0) = 0.
Proof. rewrite rsum_const. ring. Qed.

Lemma sum_u : rsum (3 * v) u = 0.
Proof.
  rewrite split3.
  rewrite (rsum_ext v _ (fun _ => 0)) by (blk; reflexivity).
  rewrite (rsum_ext v (fun k => u (1 * v + k)%nat) (fun k => cos (0 + 1 * (INR k * phi))))
    by (blk; f_equal; ring).
  rewrite (rsum_ext v (fun k => u (2 * v + k)%nat) (fun k => cos (- (2 * psi) + 1 * (INR k * phi))))
    by (blk; f_equal; ring).
  rewrite !sum_cos1 by auto. rewrite rsum_zero. ring.
Qed.
Lemma sum_w : rsum (3 * v) w = 0.
Proof.
  rewrite split3.
  rewrite (rsum_ext v _ (fun _ => 0)) by (blk; reflexivity).
  rewrite (rsum_ext v (fun k => w (1 * v + k)%nat) (fun k => cos (PI / 2 + -1 * (INR k * phi))))
    by (blk; rewrite <- cos_shift; f_equal; ring).
  rewrite (rsum_ext v (fun k => w (2 * v + k)%nat) (fun k => cos ((PI / 2 + 2 * psi) + -1 * (INR k * phi))))
    by (blk; rewrite <- cos_shift; f_equal; ring).
  rewrite !sum_cos1 by auto. rewrite rsum_zero. ring.
Qed.

Lemma sum_nz : rsum (3 * v) nz = 2 * INR v.
Proof.
  rewrite split3.
  rewrite (rsum_ext v _ (fun _ => 0)) by (blk; reflexivity).
  rewrite (rsum_ext v (fun k => nz (1 * v + k)%nat) (fun _ => 1)) by (blk; reflexivity).
  rewrite (rsum_ext v (fun k => nz (2 * v + k)%nat) (fun _ => 1)) by (blk; reflexivity).
  rewrite !rsum_const. ring.
Qed.

Lemma sum_nzu : rsum (3 * v) (fun s => nz s * u s) = 0.
Proof.
  rewrite <- sum_u at 1. apply rsum_ext. intros k Hk. unfold nz, uvec.
  destruct (k / v)%nat as [|[|?]]; ring.
Qed.
Lemma sum_nzw : rsum (3 * v) (fun s => nz s * w s) = 0.
Proof.
  rewrite <- sum_w at 1. apply rsum_ext. intros k Hk. unfold nz, wvec.
  destruct (k / v)%nat as [|[|?]]; ring.
Qed.

Lemma pi0_rows M : makePi 0 Beta RL v = Ok M -> rows_sum_to_one (3 * v) M.
Proof.
  intros E r Hr. pose proof vpos.
  rewrite (rsum_ext _ (M r) (fun c => (1 / (3 * INR v) + (1 / INR v * u r) * u c) + (1 / INR v * w r) * w c))
    by (intros c Hc; rewrite (pi0_form M r c E Hr Hc); ring).
  rewrite !rsum_plus, rsum_const, !rsum_scal, sum_u, sum_w, mult_INR. simpl (INR 3). field. lra.
Qed.
Lemma pi1_rows M : makePi 1 Beta RL v = Ok M -> rows_sum_to_one (3 * v) M.
Proof.
  intros E r Hr. pose proof vpos.
  rewrite (rsum_ext _ (M r) (fun c => ((1 / (2 * INR v)) * nz c + (1 / (2 * INR v) * u r) * u c) + (1 / (2 * INR v) * w r) * w c))
    by (intros c Hc; rewrite (pi1_form M r c E Hr Hc); ring).
  rewrite !rsum_plus, !rsum_scal, sum_u, sum_w, sum_nz. field. lra.
Qed.

Section V3.
Hypothesis Hv3 : (3 <= v)%nat.

Lemma sum_uu : rsum (3 * v) (fun s => u s * u s) = INR v.
Proof.
  rewrite split3.
  rewrite (rsum_ext v _ (fun _ => 0)) by (blk; ring).
  rewrite (rsum_ext v (fun k => u (1 * v + k)%nat * u (1 * v + k)%nat)
     (fun k => 1 / 2 + 1 / 2 * cos (0 + 2 * (INR k * phi))))
    by (blk; rewrite Rplus_0_l, cos_2a_cos; field).
  rewrite (rsum_ext v (fun k => u (2 * v + k)%nat * u (2 * v + k)%nat)
     (fun k => 1 / 2 + 1 / 2 * cos (- (4 * psi) + 2 * (INR k * phi)))).
  - rewrite !rsum_plus, !rsum_scal, !sum_cos2, !rsum_const by assumption. field.
  - blk. replace (- (4 * psi) + 2 * (INR k * phi)) with (2 * (INR k * phi - 2 * psi)) by ring.
    rewrite cos_2a_cos. field.
Qed.
Lemma sum_ww : rsum (3 * v) (fun s => w s * w s) = INR v.
Proof.
  rewrite split3.
  rewrite (rsum_ext v _ (fun _ => 0)) by (blk; ring).
  rewrite (rsum_ext v (fun k => w (1 * v + k)%nat * w (1 * v + k)%nat)
     (fun k => 1 / 2 + (- (1 / 2)) * cos (0 + 2 * (INR k * phi))))
    by (blk; rewrite Rplus_0_l, cos_2a_sin; field).
  rewrite (rsum_ext v (fun k => w (2 * v + k)%nat * w (2 * v + k)%nat)
     (fun k => 1 / 2 + (- (1 / 2)) * cos (- (4 * psi) + 2 * (INR k * phi)))).
  - rewrite !rsum_plus, !rsum_scal, !sum_cos2, !rsum_const by assumption. field.
  - blk. replace (- (4 * psi) + 2 * (INR k * phi)) with (2 * (INR k * phi - 2 * psi)) by ring.
    rewrite cos_2a_sin. field.
Qed.
Lemma sum_uw : rsum (3 * v) (fun s => u s * w s) = 0.
Proof.
  rewrite split3.
  rewrite (rsum_ext v _ (fun _ => 0)) by (blk; ring).
  assert (Q : forall x, cos x * sin x = 1 / 2 * cos (- (PI / 2) + 2 * x)).
  { intros x. rewrite <- (cos_neg (- (PI / 2) + 2 * x)). replace (- (- (PI / 2) + 2 * x)) with (PI / 2 - 2 * x) by ring.
    rewrite cos_shift, sin_2a. field. }
  rewrite (rsum_ext v (fun k => u (1 * v + k)%nat * w (1 * v + k)%nat)
     (fun k => 1 / 2 * cos (- (PI / 2) + 2 * (INR k * phi))))
    by (blk; apply Q).
  rewrite (rsum_ext v (fun k => u (2 * v + k)%nat * w (2 * v + k)%nat)
     (fun k => 1 / 2 * cos ((- (PI / 2) - 4 * psi) + 2 * (INR k * phi)))).
  - rewrite !rsum_scal, !sum_cos2, !rsum_zero by assumption. ring.
  - blk. rewrite Q. do 2 f_equal. ring.
Qed.

Lemma pi0_idem M : makePi 0 Beta RL v = Ok M -> idempotent (3 * v) M.
Proof.
  intros E r c Hr Hc. pose proof vpos. set (a := 1 / (3 * INR v)). set (b := 1 / INR v).
  rewrite (rsum_ext _ _ (fun s => a * a + a * b * (u c + u r) * u s + a * b * (w c + w r) * w s
     + b * b * u r * u c * (u s * u s) + b * b * w r * w c * (w s * w s)
     + b * b * (u r * w c + w r * u c) * (u s * w s))).
  - rewrite !rsum_plus, !rsum_scal, rsum_const, sum_u, sum_w, sum_uu, sum_ww, sum_uw.
    rewrite (pi0_form M r c E Hr Hc), mult_INR. simpl (INR 3). unfold a, b. field. lra.
  - intros s Hs. rewrite (pi0_form M r s E Hr Hs), (pi0_form M s c E Hs Hc). unfold a, b. ring.
Qed.

Lemma pi0_trace M : makePi 0 Beta RL v = Ok M -> trace (3 * v) M = 3.
Proof.
  intros E. unfold trace. pose proof vpos.
  rewrite (rsum_ext _ _ (fun s => 1 / (3 * INR v) + 1 / INR v * (u s * u s) + 1 / INR v * (w s * w s))).
  - rewrite !rsum_plus, !rsum_scal, rsum_const, sum_uu, sum_ww, mult_INR. simpl (INR 3). field. lra.
  - intros s Hs. rewrite (pi0_form M s s E Hs Hs). ring.
Qed.

(** the non-negative matrix damps the trigonometric part by one half *)
Lemma pi1_square M r c : makePi 1 Beta RL v = Ok M -> (r < 3 * v)%nat -> (c < 3 * v)%nat ->
  rsum (3 * v) (fun s => M r s * M s c) = nz c * (1 / (2 * INR v)) + 1 / (4 * INR v) * (u r * u c + w r * w c).
Proof.
  intros E Hr Hc. pose proof vpos. set (b := 1 / (2 * INR v)).
  rewrite (rsum_ext _ _ (fun s => b * b * nz c * nz s + b * b * u c * (nz s * u s) + b * b * w c * (nz s * w s)
     + b * b * nz c * u r * u s + b * b * nz c * w r * w s
     + b * b * u r * u c * (u s * u s) + b * b * w r * w c * (w s * w s)
     + b * b * (u r * w c + w r * u c) * (u s * w s))).
  - rewrite !rsum_plus, !rsum_scal, sum_nz, sum_nzu, sum_nzw, sum_u, sum_w, sum_uu, sum_ww, sum_uw.
    unfold b. field. lra.
  - intros s Hs. rewrite (pi1_form M r s E Hr Hs), (pi1_form M s c E Hs Hc). unfold b. ring.
Qed.

Lemma pi1_not_idem M : makePi 1 Beta RL v = Ok M -> ~ idempotent (3 * v) M.
Proof.
  intros E I. assert (Hr : (1 * v + 0 < 3 * v)%nat) by lia.
  specialize (I _ _ Hr Hr). rewrite (pi1_square M _ _ E Hr Hr), (pi1_form M _ _ E Hr Hr) in I.
  unfold uvec, wvec in I. destruct (block_add v 1 0) as [B1 B2]; [lia|]. rewrite B1, B2 in I.
  simpl (INR 0) in I. rewrite Rmult_0_l, cos_0, sin_0 in I. pose proof vpos.
  assert (1 / (4 * INR v) = 1 / (2 * INR v)) by lra.
  assert (1 / (2 * INR v) = 2 * (1 / (4 * INR v))) by (field; lra).
  assert (0 < 1 / (4 * INR v)) by (apply Rdiv_lt_0_compat; lra). lra.
Qed.

(** a negative entry of the idempotent matrix, for every valence from three on *)
Lemma pi0_negative M : makePi 0 Beta RL v = Ok M ->
  exists j, (j < v)%nat /\ M (v + j)%nat v < 0.
Proof.
  intros E. exists (v / 2)%nat.
  pose proof (Nat.div_mod v 2 ltac:(lia)) as D. pose proof (Nat.mod_upper_bound v 2 ltac:(lia)) as B.
  assert (J : (v / 2 < v)%nat) by lia. split; [assumption|].
  set (j := (v / 2)%nat) in *.
  rewrite (pi0_form M (v + j) v E) by lia.
  unfold uvec, wvec.
  destruct (block_add v 1 j J) as [B1 B2]. destruct (block_add v 1 0) as [B3 B4]; [lia|].
  rewrite Nat.mul_1_l in *. rewrite Nat.add_0_r in *. rewrite B1, B2, B3, B4.
  simpl (INR 0). rewrite Rmult_0_l, cos_0, sin_0.
  pose proof vpos as V.
  assert (C : cos (INR j * phi) <= - (1 / 2)).
  { replace (- (1 / 2)) with (cos (PI - PI / 3)).
    - pose proof PI_RGT_0. rewrite phi_eq.
      assert (V3 : 3 <= INR v) by (apply le_INR in Hv3; simpl in Hv3; lra).
      assert (J1 : 2 * INR j <= INR v).
      { assert (L : (2 * j <= v)%nat) by lia. apply le_INR in L. rewrite mult_INR in L. simpl in L. lra. }
      assert (J2 : INR v - 1 <= 2 * INR j).
      { assert (L : (v <= 2 * j + 1)%nat) by lia. apply le_INR in L. rewrite plus_INR, mult_INR in L. simpl in L. lra. }
      assert (K1 : 2 * INR j / INR v <= 1).
      { apply Rmult_le_reg_r with (INR v); [lra|]. unfold Rdiv. rewrite Rmult_assoc, Rinv_l; lra. }
      assert (K2 : 2 / 3 <= 2 * INR j / INR v).
      { apply Rmult_le_reg_r with (INR v); [lra|]. unfold Rdiv at 2. rewrite Rmult_assoc, Rinv_l; lra. }
      replace (INR j * (2 * PI / INR v)) with (PI * (2 * INR j / INR v)) by (field; lra).
      set (q := 2 * INR j / INR v) in *.
      apply cos_decr_1; try nra.
    - rewrite Rtrigo_facts.cos_pi_minus, cos_PI3. reflexivity. }
  assert (1 / (3 * INR v) = 1 / 3 * (1 / INR v)) as -> by (field; lra).
  assert (0 < 1 / INR v) by (apply Rdiv_lt_0_compat; lra). nra.
Qed.
End V3.

Lemma pi0_sym M : makePi 0 Beta RL v = Ok M -> symmetric (3 * v) M.
Proof.
  intros E r c Hr Hc. rewrite (pi0_form M r c E Hr Hc), (pi0_form M c r E Hc Hr). ring.
Qed.

Lemma pi1_nonneg M : makePi 1 Beta RL v = Ok M -> nonnegative (3 * v) M.
Proof.
  intros E r c Hr Hc. rewrite (pi1_form M r c E Hr Hc). pose proof vpos.
  assert (0 < 1 / (2 * INR v)) by (apply Rdiv_lt_0_compat; lra).
  rewrite uw_sum by assumption. unfold nz.
  destruct (block_lt v r Hr) as [Br Mr], (block_lt v c Hc) as [Bc Mc].
  destruct (r / v)%nat as [|[|[|?]]] eqn:E1; try lia;
  destruct (c / v)%nat as [|[|[|?]]] eqn:E2; try lia; cbn [Nat.mul Nat.add]; try lra;
  match goal with |- context [cos ?x] => pose proof (COS_bound x); nra end.
Qed.
End V.

Lemma makePi_ok opt Beta RL v : (opt = 0 \/ opt = 1)%Z -> exists M, makePi opt Beta RL v = Ok M.
Proof. intros [-> | ->]; unfold makePi, pi_table; cbn; eauto. Qed.
Lemma makePi_err opt Beta RL v : opt <> 0%Z -> opt <> 1%Z -> makePi opt Beta RL v = Err.
Proof.
  intros H0 H1. unfold makePi, pi_table.
  destruct (Z.eqb_spec opt 0); [contradiction|]. destruct (Z.eqb_spec opt 1); [contradiction|]. reflexivity.
Qed.

(** the angle psi *)
Lemma carg_polar rho th : 0 < rho -> - PI < th <= PI -> carg (rho * cos th) (rho * sin th) = th.
Proof.
  intros Hr [L U]. pose proof PI_RGT_0 as P. unfold carg.
  assert (T : forall x, cos x <> 0 -> rho * sin x / (rho * cos x) = tan x)
    by (intros; unfold tan; field; lra).
  destruct (Rlt_dec 0 (rho * cos th)) as [C|C].
  - assert (C' : 0 < cos th) by (apply Rmult_lt_reg_l with rho; lra).
    rewrite T by lra. apply atan_tan. split.
    + destruct (Rlt_dec (- (PI / 2)) th); [assumption|exfalso].
      assert (cos (- th) <= 0).
      { apply cos_le_0; lra. } rewrite cos_neg in H. lra.
    + destruct (Rlt_dec th (PI / 2)); [assumption|exfalso].
      assert (cos th <= 0) by (apply cos_le_0; lra). lra.
  - destruct (Rlt_dec (rho * cos th) 0) as [D|D].
    + assert (D' : cos th < 0).
      { destruct (Rlt_dec (cos th) 0); [assumption|exfalso].
        assert (0 <= rho * cos th) by (apply Rmult_le_pos; lra). lra. }
      rewrite T by lra.
      destruct (Rlt_dec (rho * sin th) 0) as [N|N].
      * assert (N' : sin th < 0).
        { destruct (Rlt_dec (sin th) 0); [assumption|exfalso].
          assert (0 <= rho * sin th) by (apply Rmult_le_pos; lra). lra. }
        assert (A : th < - (PI / 2)).
        { destruct (Rlt_dec th (- (PI / 2))); [assumption|exfalso].
          destruct (Rlt_dec th 0).
          - assert (0 <= cos th) by (apply cos_ge_0; lra). lra.
          - assert (0 <= sin th) by (apply sin_ge_0; lra). lra. }
        replace (tan th) with (tan (th + PI)).
        -- rewrite atan_tan by lra. ring.
        -- unfold tan. rewrite neg_sin, neg_cos. field. lra.
      * assert (N' : 0 <= sin th).
        { destruct (Rlt_dec (sin th) 0); [exfalso|lra].
          assert (0 < rho * - sin th) by (apply Rmult_lt_0_compat; lra). lra. }
        assert (A : PI / 2 < th).
        { destruct (Rlt_dec (PI / 2) th); [assumption|exfalso].
          destruct (Rlt_dec th 0).
          - assert (0 < sin (- th)) by (apply sin_gt_0; lra). rewrite sin_neg in H. lra.
          - assert (0 <= cos th) by (apply cos_ge_0; lra). lra. }
        replace (tan th) with (tan (th - PI)).
        -- rewrite atan_tan by lra. ring.
        -- replace th with ((th - PI) + PI) at 2 by ring. unfold tan. rewrite neg_sin, neg_cos. field.
           replace th with ((th - PI) + PI) in D' by ring. rewrite neg_cos in D'. lra.
    + assert (Z : cos th = 0).
      { assert (Q : rho * cos th = 0) by lra. apply Rmult_integral in Q. destruct Q; lra. }
      assert (W : th = PI / 2 \/ th = - (PI / 2)).
      { destruct (Rtotal_order th (- (PI / 2))) as [A|[A|A]]; [exfalso|auto|].
        - assert (cos (- th) < 0) by (apply cos_lt_0; lra). rewrite cos_neg in H. lra.
        - destruct (Rtotal_order th (PI / 2)) as [B|[B|B]]; [exfalso|auto|exfalso].
          + assert (0 < cos th) by (apply cos_gt_0; lra). lra.
          + assert (cos th < 0) by (apply cos_lt_0; lra). lra. }
      destruct W as [-> | ->].
      * rewrite sin_PI2. destruct (Rlt_dec 0 (rho * 1)); [reflexivity|lra].
      * rewrite sin_neg, sin_PI2. destruct (Rlt_dec 0 (rho * - (1))); [lra|].
        destruct (Rlt_dec (rho * - (1)) 0); [reflexivity|lra].
Qed.

Lemma psi_eq Beta RL v : (2 <= v)%nat ->
  pi_psi Beta RL v = atan (pi_beta Beta RL * sin (pi_phi v)) - pi_phi v / 2.
Proof.
  intros Hv. unfold pi_psi. set (b := pi_beta Beta RL * sin (pi_phi v)).
  pose proof (atan_bound b) as [B1 B2]. pose proof PI_RGT_0 as P.
  assert (V : 2 <= INR v) by (apply le_INR in Hv; simpl in Hv; lra).
  assert (F : 0 <= pi_phi v <= PI).
  { rewrite phi_eq. assert (0 < / INR v) by (apply Rinv_0_lt_compat; lra).
    assert (/ INR v <= / 2) by (apply Rinv_le_contravar; lra).
    unfold Rdiv. split; [apply Rmult_le_pos; lra|].
    replace PI with (2 * PI * / 2) at 2 by field. apply Rmult_le_compat_l; lra. }
  set (phi := pi_phi v) in *.
  assert (S : 0 < sqrt (1 + b²)) by (apply sqrt_lt_R0; pose proof (Rle_0_sqr b); lra).
  rewrite <- (carg_polar (sqrt (1 + b²)) (atan b - phi / 2)) by lra.
  replace (- phi / 2) with (- (phi / 2)) by field.
  rewrite cos_minus, sin_minus, cos_atan, sin_atan, cos_neg, sin_neg.
  f_equal; field; lra.
Qed.

Lemma projected_form opt Beta RL v M : (2 <= v)%nat -> makePi opt Beta RL v = Ok M ->
  forall x, exists m a d, forall r, (r < 3 * v)%nat ->
    papply (3 * v) M x r = m + a * uvec (pi_psi Beta RL v) (pi_phi v) v r + d * wvec (pi_psi Beta RL v) (pi_phi v) v r.
Proof.
  intros Hv E x.
  assert (O : (opt = 0 \/ opt = 1)%Z).
  { destruct (Z.eq_dec opt 0), (Z.eq_dec opt 1); auto. rewrite makePi_err in E by assumption. discriminate. }
  set (u := uvec (pi_psi Beta RL v) (pi_phi v) v). set (w := wvec (pi_psi Beta RL v) (pi_phi v) v).
  destruct O as [-> | ->].
  - exists (rsum (3 * v) (fun c => 1 / (3 * INR v) * x c)), (rsum (3 * v) (fun c => 1 / INR v * u c * x c)),
      (rsum (3 * v) (fun c => 1 / INR v * w c * x c)).
    intros r Hr. unfold papply. rewrite (Rmult_comm _ (u r)), (Rmult_comm _ (w r)), <- !rsum_scal, <- !rsum_plus.
    apply rsum_ext. intros c Hc. rewrite (pi0_form Beta RL v Hv M r c E Hr Hc). fold u w. ring.
  - exists (rsum (3 * v) (fun c => nz v c * (1 / (2 * INR v)) * x c)), (rsum (3 * v) (fun c => 1 / (2 * INR v) * u c * x c)),
      (rsum (3 * v) (fun c => 1 / (2 * INR v) * w c * x c)).
    intros r Hr. unfold papply. rewrite (Rmult_comm _ (u r)), (Rmult_comm _ (w r)), <- !rsum_scal, <- !rsum_plus.
    apply rsum_ext. intros c Hc. rewrite (pi1_form Beta RL v Hv M r c E Hr Hc). fold u w. ring.
Qed.

Lemma projected_plane opt Beta RL v M : (2 <= v)%nat -> makePi opt Beta RL v = Ok M ->
  forall x, exists m a d, forall j, (j < v)%nat ->
    let t1 := INR j * (2 * PI / INR v) in
    let t2 := INR (S j) * (2 * PI / INR v) - 2 * atan (Beta * (1 / 2) ^ RL * sin (2 * PI / INR v)) in
    papply (3 * v) M x j = m /\
    papply (3 * v) M x (v + j) = m + a * cos t1 + d * sin t1 /\
    papply (3 * v) M x (2 * v + j) = m + a * cos t2 + d * sin t2.
Proof.
  intros Hv E x. destruct (projected_form opt Beta RL v M Hv E x) as (m & a & d & H).
  exists m, a, d. intros j Hj t1 t2.
  pose proof (block_add v 0 j Hj) as [P0 Q0]. pose proof (block_add v 1 j Hj) as [P1 Q1].
  pose proof (block_add v 2 j Hj) as [P2 Q2]. rewrite Nat.mul_0_l, Nat.add_0_l in *. rewrite Nat.mul_1_l in *.
  rewrite !H by lia. unfold uvec, wvec. rewrite P0, P1, P2, Q1, Q2, psi_eq by assumption.
  unfold t1, t2. rewrite !S_INR. unfold pi_beta. rewrite !phi_eq.
  split; [ring|]. split; [reflexivity|].
  set (f := 2 * PI / INR v). set (e := atan (Beta * (1 / 2) ^ RL * sin f)).
  replace (INR j * f - 2 * (e - f / 2)) with ((INR j + 1) * f - 2 * e) by field. reflexivity.
Qed.

(** sums of functions *)
Lemma rsum_swap n m f : rsum n (fun i => rsum m (f i)) = rsum m (fun j => rsum n (fun i => f i j)).
Proof.
  induction n as [|n IH]; simpl; [symmetry; apply rsum_zero|].
  rewrite IH, <- rsum_plus. apply rsum_ext. reflexivity.
Qed.

Lemma pou_kept opt Beta RL v M : (2 <= v)%nat -> makePi opt Beta RL v = Ok M ->
  forall k (x : nat -> nat -> R), (forall c, (c < 3 * v)%nat -> rsum k (fun i => x i c) = 1) ->
  forall r, (r < 3 * v)%nat -> rsum k (fun i => papply (3 * v) M (x i) r) = 1.
Proof.
  intros Hv E k x Hx r Hr. unfold papply. rewrite rsum_swap.
  rewrite (rsum_ext _ _ (M r)).
  - destruct (Z.eq_dec opt 0) as [-> | N0]; [exact (pi0_rows Beta RL v Hv M E r Hr)|].
    destruct (Z.eq_dec opt 1) as [-> | N1]; [exact (pi1_rows Beta RL v Hv M E r Hr)|].
    rewrite makePi_err in E by assumption. discriminate.
  - intros c Hc. rewrite rsum_scal, Hx by assumption. ring.
Qed.

Lemma pi_rows opt Beta RL v : (opt = 0 \/ opt = 1)%Z -> (2 <= v)%nat ->
  exists M, makePi opt Beta RL v = Ok M /\ rows_sum_to_one (3 * v) M.
Proof.
  intros O Hv. destruct (makePi_ok opt Beta RL v O) as (M & E). exists M. split; [assumption|].
  destruct O as [-> | ->]; [eapply pi0_rows|eapply pi1_rows]; eassumption.
Qed.

Lemma pi_swapped Beta RL v : (3 <= v)%nat ->
  exists M N, makePi 0 Beta RL v = Ok M /\ makePi 1 Beta RL v = Ok N /\
    idempotent (3 * v) M /\ symmetric (3 * v) M /\ trace (3 * v) M = 3 /\ nonnegative (3 * v) N.
Proof.
  intros Hv. destruct (makePi_ok 0 Beta RL v (or_introl eq_refl)) as (M & E).
  destruct (makePi_ok 1 Beta RL v (or_intror eq_refl)) as (N & F). exists M, N.
  assert (Hv2 : (2 <= v)%nat) by lia.
  split; [assumption|]. split; [assumption|].
  split; [eapply pi0_idem; eassumption|]. split; [eapply pi0_sym; eassumption|].
  split; [eapply pi0_trace; eassumption|]. eapply pi1_nonneg; eassumption.
Qed.

Lemma pi_documented_wrong Beta RL v : (3 <= v)%nat ->
  exists M N, makePi 0 Beta RL v = Ok M /\ makePi 1 Beta RL v = Ok N /\
    ~ nonnegative (3 * v) M /\ ~ idempotent (3 * v) N.
Proof.
  intros Hv. destruct (makePi_ok 0 Beta RL v (or_introl eq_refl)) as (M & E).
  destruct (makePi_ok 1 Beta RL v (or_intror eq_refl)) as (N & F). exists M, N.
  assert (Hv2 : (2 <= v)%nat) by lia.
  split; [assumption|]. split; [assumption|]. split.
  - intros P. destruct (pi0_negative Beta RL v Hv2 Hv M E) as (j & Hj & L).
    specialize (P (v + j)%nat v ltac:(lia) ltac:(lia)). lra.
  - eapply pi1_not_idem; eassumption.
Qed.

(** a concrete matrix: valence 4, flat beta *)
Lemma pi_example : exists M, makePi 0 0 0 4 = Ok M /\ M 4%nat 4%nat = 1 / 3 /\ M 6%nat 4%nat = - (1 / 6).
Proof.
  destruct (makePi_ok 0 0 0 4 (or_introl eq_refl)) as (M & E). exists M. split; [assumption|].
  unfold makePi, pi_table in E. cbn [Z.eqb bind] in E.
  match type of E with Ok ?F = Ok _ => assert (EM : F = M) by congruence end.
  rewrite <- EM. clear E EM. cbv beta. unfold pi_circ. cbn -[INR cos pi_phi].
  split.
  - rewrite Rmult_0_l, cos_0. simpl. field.
  - replace (2 * pi_phi 4) with PI.
    + rewrite cos_PI. simpl. field.
    + rewrite phi_eq. simpl. field.
Qed.

Lemma pi_example_apply : exists M, makePi 0 0 0 4 = Ok M /\
  papply (3 * 4) M (fun c => if Nat.eqb c 4 then 1 else 0) 4 = 1 / 3 /\
  papply (3 * 4) M (fun c => if Nat.eqb c 4 then 1 else 0) 6 = - (1 / 6).
Proof.
  destruct pi_example as (M & E & A & B). exists M. split; [assumption|].
  unfold papply. cbn -[makePi]. split; [rewrite <- A|rewrite <- B]; ring.
Qed.
