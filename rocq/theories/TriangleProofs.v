From Coq Require Import Reals List Lra Lia Psatz Nsatz.
From Verif Require Import Common ListLemmas PiSpec PiProofs TriangleModel TriangleSpec.
Import ListNotations.
Open Scope R_scope.

Lemma vec_eq a b : vx a = vx b -> vy a = vy b -> vz a = vz b -> a = b.
Proof. destruct a, b; simpl; intros -> -> ->; reflexivity. Qed.
Ltac vring := apply vec_eq; cbn [vx vy vz vadd vsub vscale vdot vcross mapply mtrans row0 row1 row2 vopp vzero dropz mident madd mscale]; unfold vdot; cbn [vx vy vz]; try ring.

Lemma vdot_nonneg a : 0 <= vdot a a.
Proof. unfold vdot. nra. Qed.
Lemma vdot_zero a : vdot a a = 0 -> a = vzero.
Proof.
  unfold vdot. intros H.
  assert (vx a = 0) by nra. assert (vy a = 0) by nra. assert (vz a = 0) by nra.
  apply vec_eq; assumption.
Qed.
Lemma vnorm_sq a : vnorm a * vnorm a = vdot a a.
Proof. apply sqrt_sqrt, vdot_nonneg. Qed.
Lemma vnorm_pos a : 0 < vdot a a -> 0 < vnorm a.
Proof. intros. apply sqrt_lt_R0. assumption. Qed.
Lemma vnorm_unit a : unit_vec a -> vnorm a = 1.
Proof. unfold unit_vec, vnorm. intros ->. apply sqrt_1. Qed.
Lemma vnorm_nonneg a : 0 <= vnorm a.
Proof. apply sqrt_pos. Qed.

Lemma mapply_add M x y : mapply M (vadd x y) = vadd (mapply M x) (mapply M y).
Proof. unfold mapply, vadd. vring. Qed.
Lemma mapply_scale M s x : mapply M (vscale s x) = vscale s (mapply M x).
Proof. unfold mapply, vscale. vring. Qed.
Lemma vdot_trans M x y : vdot (mapply (mtrans M) x) y = vdot x (mapply M y).
Proof. unfold mapply, mtrans, vdot. cbn. ring. Qed.
Lemma iso_trans M x : isometry M -> mapply (mtrans M) (mapply M x) = x.
Proof.
  intros I. apply vec_eq.
  - pose proof (vdot_trans M (mapply M x) (V3 1 0 0)) as T. rewrite I in T.
    unfold vdot in T. cbn [vx vy vz] in T. lra.
  - pose proof (vdot_trans M (mapply M x) (V3 0 1 0)) as T. rewrite I in T.
    unfold vdot in T. cbn [vx vy vz] in T. lra.
  - pose proof (vdot_trans M (mapply M x) (V3 0 0 1)) as T. rewrite I in T.
    unfold vdot in T. cbn [vx vy vz] in T. lra.
Qed.

(** Rodrigues' formula *)
Lemma rodrigues_rotation v s c : vdot v v = 1 -> s * s + c * c = 1 -> is_rotation (rodrigues v s c).
Proof.
  intros V S. destruct v as [a b d]. unfold vdot in V. cbn in V. split.
  - intros [x1 x2 x3] [y1 y2 y3]. unfold rodrigues, mapply, madd, mscale, mident, vdot, vscale, vadd. cbn.
    assert (S' : s * s = 1 - c * c) by lra. assert (D : d * d = 1 - a * a - b * b) by lra.
    nsatz.
  - unfold mdet, rodrigues, mapply, madd, mscale, mident, vdot, vcross, vscale, vadd. cbn.
    nsatz.
Qed.

Lemma lagrange a b : unit_vec a -> unit_vec b -> vdot (vcross a b) (vcross a b) = 1 - vdot a b * vdot a b.
Proof.
  unfold unit_vec. intros A B.
  replace 1 with (vdot a a * vdot b b) by (rewrite A, B; ring).
  unfold vdot, vcross. cbn. ring.
Qed.
Lemma dot_bound a b : unit_vec a -> unit_vec b -> -1 <= vdot a b <= 1.
Proof.
  intros A B. pose proof (lagrange a b A B) as L. pose proof (vdot_nonneg (vcross a b)). nra.
Qed.
Lemma diff_sq a b : unit_vec a -> unit_vec b -> vdot (vsub a b) (vsub a b) = 2 - 2 * vdot a b.
Proof.
  unfold unit_vec. intros A B. replace 2 with (vdot a a + vdot b b) at 1 by (rewrite A, B; ring).
  unfold vdot, vsub. cbn. ring.
Qed.
Lemma sum_sq a b : unit_vec a -> unit_vec b -> vdot (vadd a b) (vadd a b) = 2 + 2 * vdot a b.
Proof.
  unfold unit_vec. intros A B. replace 2 with (vdot a a + vdot b b) at 1 by (rewrite A, B; ring).
  unfold vdot, vadd. cbn. ring.
Qed.

(** what the function returns on unit vectors *)
Definition rotcore (a b : vec3) : mat3 :=
  let v := vnormalized (vcross a b) in
  rodrigues v (sqrt (1 - (vdot a b)²)) (vdot a b).

Lemma rodrigues_zero c : forall x, mapply (rodrigues vzero 0 c) x = vscale c x.
Proof. intros x. unfold rodrigues, vzero, mapply, madd, mscale, mident, vscale, vadd, vdot. vring. Qed.

Lemma rotcore_cases a b : unit_vec a -> unit_vec b ->
  (is_rotation (rotcore a b) /\ mapply (rotcore a b) a = b) \/
  (b = vopp a /\ forall x, mapply (rotcore a b) x = vopp x).
Proof.
  intros A B. unfold rotcore, vnormalized. set (n := vcross a b). set (d := vdot a b).
  pose proof (lagrange a b A B) as L. fold n d in L. pose proof (dot_bound a b A B) as Bd. fold d in Bd.
  assert (O : vdot n a = 0) by (unfold n, vdot, vcross; cbn; ring).
  assert (C : vcross n a = vsub b (vscale d a)).
  { unfold unit_vec in A. unfold n, d.
    replace b with (vscale (vdot a a) b) at 2 by (rewrite A; unfold vscale; vring).
    unfold vcross, vscale, vsub. vring. }
  pose proof (diff_sq a b A B) as DS. pose proof (sum_sq a b A B) as SS. fold d in DS, SS. clearbody n d.
  destruct (Rlt_dec 0 (vdot n n)) as [P|P].
  - left. set (N := vnorm n). assert (NP : 0 < N) by (apply vnorm_pos; assumption).
    assert (NN : N * N = vdot n n) by apply vnorm_sq.
    assert (SN : sqrt (1 - d²) = N) by (unfold N, vnorm; f_equal; unfold Rsqr; lra).
    rewrite SN. split.
    + apply rodrigues_rotation.
      * unfold vdot. cbn.
        replace (vx n / N * (vx n / N) + vy n / N * (vy n / N) + vz n / N * (vz n / N)) with (vdot n n / (N * N))
          by (unfold vdot; field; lra).
        rewrite <- NN. field. lra.
      * rewrite NN, L. ring.
    + assert (Rod : forall v, mapply (rodrigues v N d) a
        = vadd (vscale d a) (vadd (vscale N (vcross v a)) (vscale ((1 - d) * vdot v a) v))).
      { intros v. unfold rodrigues, mapply, madd, mscale, mident, vscale, vadd, vcross. vring. }
      rewrite Rod.
      replace (vdot _ a) with (vdot n a / N) by (unfold vdot; cbn; field; lra).
      rewrite O.
      assert (C' : vscale N (vcross (V3 (vx n / N) (vy n / N) (vz n / N)) a) = vcross n a).
      { unfold vscale, vcross. cbn. apply vec_eq; cbn; field; lra. }
      rewrite C', C. unfold vadd, vscale, vsub. vring; field; lra.
  - assert (Z : vdot n n = 0) by (pose proof (vdot_nonneg n); lra).
    assert (D : d = 1 \/ d = -1) by (assert ((d - 1) * (d + 1) = 0) as Q by lra; apply Rmult_integral in Q; destruct Q; lra).
    assert (NZ : n = vzero) by (apply vdot_zero; assumption). rewrite NZ.
    replace (sqrt (1 - d²)) with 0 by (replace (1 - d²) with 0 by (unfold Rsqr; lra); rewrite sqrt_0; reflexivity).
    destruct D as [D|D].
    + left. rewrite D. split.
      * split.
        -- intros x y. rewrite !rodrigues_zero. unfold vdot, vscale. cbn. ring.
        -- unfold mdet, rodrigues, vzero, madd, mscale, mident, vdot, vcross, vscale, vadd. cbn. ring.
      * rewrite rodrigues_zero.
        assert (E : vsub a b = vzero) by (apply vdot_zero; rewrite DS; lra).
        unfold vsub, vzero in E. injection E as E1 E2 E3. unfold vscale. vring; lra.
    + right. rewrite D. split.
      * assert (E : vadd a b = vzero) by (apply vdot_zero; rewrite SS; lra).
        unfold vadd, vzero in E. injection E as E1 E2 E3. unfold vopp. vring; lra.
      * intros x. rewrite rodrigues_zero. unfold vopp, vscale. vring.
Qed.

Lemma getRotation_value a b : unit_vec a -> unit_vec b -> getRotationMatrix a b = Ok (rotcore a b).
Proof.
  intros A B. unfold getRotationMatrix.
  rewrite (vnorm_unit a A), (vnorm_unit b B).
  assert (P14 : 0 < 1 / 10 ^ 14) by (apply Rdiv_lt_0_compat; [lra|apply pow_lt; lra]).
  assert (P12 : 0 < 1 / 10 ^ 12) by (apply Rdiv_lt_0_compat; [lra|apply pow_lt; lra]).
  rewrite Rminus_diag_eq, Rabs_R0 by reflexivity.
  destruct (Rlt_dec 0 (1 / 10 ^ 14)); [|contradiction].
  pose proof (dot_bound a b A B) as Bd.
  replace (vdot a b / (1 * 1)) with (vdot a b) by field.
  rewrite cos_acos, sin_acos by lra.
  fold (rotcore a b).
  assert (E : mapply (rotcore a b) a = b).
  { destruct (rotcore_cases a b A B) as [[_ H]|[H1 H2]]; [assumption|]. rewrite H2, H1. reflexivity. }
  rewrite E. replace (vnorm (vsub b b)) with 0.
  - destruct (Rlt_dec 0 (1 / 10 ^ 12)); [reflexivity|contradiction].
  - unfold vnorm. replace (vdot (vsub b b) (vsub b b)) with 0 by (unfold vdot, vsub; cbn; ring). symmetry. apply sqrt_0.
Qed.

Lemma rotation_ok a b : unit_vec a -> unit_vec b -> b <> vopp a ->
  exists M, getRotationMatrix a b = Ok M /\ is_rotation M /\ mapply M a = b.
Proof.
  intros A B N. exists (rotcore a b). split; [apply getRotation_value; assumption|].
  destruct (rotcore_cases a b A B) as [H|[H _]]; [assumption|contradiction].
Qed.

Lemma opp_unit a : unit_vec a -> unit_vec (vopp a).
Proof. unfold unit_vec, vopp, vdot. cbn. intros H. rewrite <- H. ring. Qed.

Lemma rotation_antiparallel a : unit_vec a ->
  exists M, getRotationMatrix a (vopp a) = Ok M /\ mapply M a = vopp a /\ isometry M /\ mdet M = -1.
Proof.
  intros A. exists (rotcore a (vopp a)). split; [apply getRotation_value; [|apply opp_unit]; assumption|].
  unfold rotcore.
  assert (D : vdot a (vopp a) = -1) by (unfold unit_vec in A; unfold vopp, vdot in *; cbn; lra).
  assert (C : vcross a (vopp a) = vzero) by (unfold vcross, vopp; vring).
  rewrite D, C. unfold vnormalized. destruct (Rlt_dec 0 (vdot vzero vzero)) as [P|P]; [exfalso; unfold vdot, vzero in P; cbn in P; lra|].
  replace (sqrt (1 - (-1)²)) with 0 by (replace (1 - (-1)²) with 0 by (unfold Rsqr; ring); rewrite sqrt_0; reflexivity).
  split; [rewrite rodrigues_zero; unfold vscale, vopp; vring|]. split.
  - intros x y. rewrite !rodrigues_zero. unfold vdot, vscale. cbn. ring.
  - unfold mdet, rodrigues, vzero, madd, mscale, mident, vdot, vcross, vscale, vadd. cbn. ring.
Qed.

(** in all cases an isometry mapping the first onto the second *)
Lemma rotation_iso a b : unit_vec a -> unit_vec b ->
  exists M, getRotationMatrix a b = Ok M /\ isometry M /\ mapply M a = b.
Proof.
  intros A B. exists (rotcore a b). split; [apply getRotation_value; assumption|].
  destruct (rotcore_cases a b A B) as [[[H _] H2]|[H1 H2]]; [auto|]. split.
  - intros x y. rewrite !H2. unfold vdot, vopp. cbn. ring.
  - rewrite H2, H1. reflexivity.
Qed.

Lemma normalized_unit a : 0 < vdot a a -> unit_vec (vnormalized a) /\ vscale (vnorm a) (vnormalized a) = a.
Proof.
  intros P. pose proof (vnorm_pos a P) as Q. unfold vnormalized. destruct (Rlt_dec 0 (vdot a a)); [|contradiction].
  split.
  - unfold unit_vec, vdot. cbn.
    replace (_ + _) with (vdot a a / (vnorm a * vnorm a)) by (unfold vdot; field; lra).
    rewrite vnorm_sq. field. lra.
  - apply vec_eq; cbn; field; lra.
Qed.
Lemma normalized_of_unit a : unit_vec a -> vnormalized a = a.
Proof.
  intros A. unfold vnormalized. rewrite (vnorm_unit a A). destruct (Rlt_dec 0 (vdot a a)); [|reflexivity].
  apply vec_eq; cbn; field.
Qed.

Lemma norm_zero a : vnorm a = 0 <-> a = vzero.
Proof.
  split.
  - intros H. apply vdot_zero. rewrite <- vnorm_sq, H. ring.
  - intros ->. unfold vnorm. replace (vdot vzero vzero) with 0 by (unfold vdot, vzero; cbn; ring). apply sqrt_0.
Qed.

Lemma vadd_assoc a b c : vadd a (vadd b c) = vadd (vadd a b) c.
Proof. unfold vadd. vring. Qed.
Lemma vadd_zero_r a : vadd a vzero = a.
Proof. unfold vadd, vzero. vring. Qed.
Lemma vadd_zero_l a : vadd vzero a = a.
Proof. unfold vadd, vzero. vring. Qed.
Lemma fold_vsum l a : fold_left vadd l a = vadd a (vsum l).
Proof.
  revert a. induction l as [|x l IH]; intros a; simpl; [symmetry; apply vadd_zero_r|].
  rewrite IH, vadd_assoc. reflexivity.
Qed.

Lemma avgNormal_ok normals : normals <> [] -> Forall unit_vec normals ->
  exists n, avgNormal normals = Ok n /\ mean_direction normals (vnormalized n).
Proof.
  intros NE U. unfold avgNormal. rewrite fold_vsum, vadd_zero_l.
  set (k := INR (length normals)).
  assert (K : 0 < k) by (apply lt_0_INR; destruct normals; [contradiction|simpl; lia]).
  set (avg := vscale (1 / k) (vsum normals)).
  assert (SA : vscale k avg = vsum normals) by (unfold avg, vscale; apply vec_eq; cbn; field; lra).
  destruct (Req_EM_T (vnorm avg) 0) as [Z|Z].
  - apply norm_zero in Z. destruct normals as [|n t]; [contradiction|].
    exists n. split; [reflexivity|]. inversion U; subst. rewrite normalized_of_unit by assumption.
    split; [assumption|]. right. split; [|reflexivity]. rewrite <- SA, Z. unfold vscale, vzero. vring.
  - exists avg. split; [reflexivity|].
    assert (P : 0 < vdot avg avg).
    { destruct (Rlt_dec 0 (vdot avg avg)); [assumption|]. pose proof (vdot_nonneg avg).
      exfalso. apply Z, norm_zero, vdot_zero. lra. }
    destruct (normalized_unit avg P) as [N1 N2]. split; [assumption|]. left.
    exists (k * vnorm avg). split; [apply Rmult_lt_0_compat; [assumption|apply vnorm_pos; assumption]|].
    rewrite <- SA. rewrite <- N2 at 3. unfold vscale. vring.
Qed.

(** the farthest point *)
Lemma maxPoint_fold l r0 o0 :
  (match o0 with None => r0 = 0 | Some m => r0 = vnorm m /\ 0 < r0 end) ->
  let (r, o) := fold_left (fun acc p => if Rlt_dec (fst acc) (vnorm p) then (vnorm p, Some p) else acc) l (r0, o0) in
  (match o with None => r = 0 | Some m => r = vnorm m /\ 0 < r /\ (o0 = Some m \/ In m l) end) /\
  r0 <= r /\ (forall p, In p l -> vnorm p <= r).
Proof.
  revert r0 o0. induction l as [|q l IH]; intros r0 o0 H0; simpl.
  - split; [destruct o0; intuition|]. split; [lra|]. intros p [].
  - destruct (Rlt_dec r0 (vnorm q)) as [L|L].
    + specialize (IH (vnorm q) (Some q)). cbn in IH.
      assert (0 <= r0) by (destruct o0; [destruct H0; lra|lra]).
      destruct (fold_left _ l (vnorm q, Some q)) as [r o].
      destruct IH as (A & B & C); [split; [reflexivity|lra]|].
      split; [|split; [lra|]].
      * destruct o; [|assumption]. destruct A as (A1 & A2 & A3). split; [assumption|]. split; [assumption|].
        right. destruct A3 as [A3|A3]; [injection A3 as ->; left; reflexivity|right; assumption].
      * intros p [->|P]; [lra|apply C; assumption].
    + specialize (IH r0 o0 H0). destruct (fold_left _ l (r0, o0)) as [r o].
      destruct IH as (A & B & C). split; [|split; [lra|]].
      * destruct o; [|assumption]. destruct A as (A1 & A2 & A3). split; [assumption|]. split; [assumption|].
        destruct A3; [left; assumption|right; right; assumption].
      * intros p [->|P]; [lra|apply C; assumption].
Qed.

Lemma maxPoint_ok l : (exists p, In p l /\ p <> vzero) ->
  exists m, maxPoint l = (vnorm m, Some m) /\ In m l /\ 0 < vnorm m /\ forall p, In p l -> vnorm p <= vnorm m.
Proof.
  intros (p & P & N). pose proof (maxPoint_fold l 0 None eq_refl) as H. unfold maxPoint.
  destruct (fold_left _ l (0, None)) as [r o]. destruct H as (A & B & C).
  assert (0 < vnorm p).
  { pose proof (vnorm_nonneg p). destruct (Req_EM_T (vnorm p) 0) as [Z|Z]; [apply norm_zero in Z; contradiction|lra]. }
  destruct o as [m|].
  - destruct A as (A1 & A2 & A3). subst r. exists m. destruct A3 as [A3|A3]; [discriminate|]. auto.
  - specialize (C p P). lra.
Qed.
Lemma maxPoint_none l : (forall p, In p l -> p = vzero) -> snd (maxPoint l) = None.
Proof.
  intros H. pose proof (maxPoint_fold l 0 None eq_refl) as F. unfold maxPoint.
  destruct (fold_left _ l (0, None)) as [r o]. destruct F as (A & B & C). destruct o as [m|]; [|reflexivity].
  destruct A as (A1 & A2 & [A3|A3]); [discriminate|]. apply H in A3. apply norm_zero in A3. lra.
Qed.

(** the rotation in the plane keeps the plane *)
Lemma rotcore_plane m p : vz m = 0 -> vz p = 0 -> vz (mapply (rotcore m (V3 1 0 0)) p) = 0.
Proof.
  intros M P. unfold rotcore, vnormalized. set (s := sqrt _). set (d := vdot m (V3 1 0 0)).
  destruct (Rlt_dec _ _).
  - set (N := vnorm _). unfold rodrigues, mapply, madd, mscale, mident, vscale, vadd, vcross, vdot. cbn.
    rewrite M, P. unfold Rdiv. ring.
  - unfold rodrigues, mapply, madd, mscale, mident, vscale, vadd, vcross, vdot. cbn. rewrite M, P. ring.
Qed.

(** the barycentric coordinates *)
Definition triA (r : R) : mat3 :=
  let a := 1 / (1 / 6 * sqrt 3) * r in
  let rr := 1 / 3 * sqrt 3 * a in
  M3 (V3 rr (- r) (- r)) (V3 0 (1 / 2 * a) (- (1 / 2) * a)) (V3 1 1 1).

Lemma tri_solve r p : 0 < r -> vdot (dropz p) (dropz p) <= r * r ->
  exists l, solve3 (triA r) (V3 (vx p) (vy p) 1) = Ok l /\ convex_weights l /\
    mapply (triA r) l = V3 (vx p) (vy p) 1.
Proof.
  intros Hr Hp. unfold triA. pose proof (sqrt_lt_R0 3 ltac:(lra)) as S3.
  pose proof (sqrt_sqrt 3 ltac:(lra)) as SS. set (q := sqrt 3) in *. clearbody q.
  assert (Ea : 1 / (1 / 6 * q) * r = 2 * q * r).
  { replace (2 * q * r) with (2 * (q * q) * r / q) by (field; lra). rewrite SS. field. lra. }
  rewrite Ea. clear Ea.
  assert (Er : 1 / 3 * q * (2 * q * r) = 2 * r).
  { replace (1 / 3 * q * (2 * q * r)) with (2 / 3 * (q * q) * r) by field. rewrite SS. field. }
  rewrite Er. clear Er.
  destruct p as [x y z]. unfold dropz, vdot in Hp. cbn in Hp.
  unfold solve3, mtrans, mdet, vcross, vdot. cbn.
  match goal with |- context [Req_EM_T ?D 0] => assert (DE : D = 6 * q * (r * r)) by field; rewrite DE; clear DE end.
  assert (QP : 0 < q * (r * r)) by (apply Rmult_lt_0_compat; [lra|apply Rmult_lt_0_compat; lra]).
  destruct (Req_EM_T (6 * q * (r * r)) 0); [lra|].
  eexists. split; [reflexivity|].
  assert (QN : q <> 0) by lra. assert (RN : r <> 0) by lra.
  match goal with |- convex_weights (V3 ?X ?Y ?Z) /\ _ =>
    assert (EX : X = (x + r) / (3 * r)) by (field; lra);
    assert (EY : Y = (2 * r - x + q * y) / (6 * r)) by
      (replace (2 * r - x + q * y) with ((2 * r - x) + (q * q) * y / q) by (field; lra); rewrite SS; field; lra);
    assert (EZ : Z = (2 * r - x - q * y) / (6 * r)) by
      (replace (2 * r - x - q * y) with ((2 * r - x) - (q * q) * y / q) by (field; lra); rewrite SS; field; lra)
  end.
  rewrite EX, EY, EZ. clear EX EY EZ.
  assert (Bx : 0 <= x + r) by nra.
  assert (C1 : (x - q * y) * (x - q * y) <= 4 * (r * r)).
  { pose proof (Rle_0_sqr (q * x + y)) as Q0. unfold Rsqr in Q0.
    assert (T : (q * x + y) * (q * x + y) + (x - q * y) * (x - q * y) = (1 + q * q) * (x * x + y * y)) by ring.
    rewrite SS in T. lra. }
  assert (C2 : (x + q * y) * (x + q * y) <= 4 * (r * r)).
  { pose proof (Rle_0_sqr (q * x - y)) as Q0. unfold Rsqr in Q0.
    assert (T : (q * x - y) * (q * x - y) + (x + q * y) * (x + q * y) = (1 + q * q) * (x * x + y * y)) by ring.
    rewrite SS in T. lra. }
  assert (B1 : 0 <= 2 * r - (x - q * y)) by nra.
  assert (B2 : 0 <= 2 * r - (x + q * y)) by nra.
  assert (I3 : 0 < / (3 * r)) by (apply Rinv_0_lt_compat; lra).
  assert (I6 : 0 < / (6 * r)) by (apply Rinv_0_lt_compat; lra).
  split.
  - unfold convex_weights. cbn. unfold Rdiv. split; [|split; [|split]].
    + apply Rmult_le_pos; lra.
    + apply Rmult_le_pos; lra.
    + apply Rmult_le_pos; lra.
    + field. lra.
  - unfold mapply, vdot. cbn. f_equal; [field; lra| |field; lra].
    replace (_ + _) with ((q * q) * y / 3) by (field; lra). rewrite SS. field.
Qed.

Lemma mapM_Forall2 {A B} (f : A -> res B) (P : A -> B -> Prop) l :
  (forall x, In x l -> exists y, f x = Ok y /\ P x y) -> exists ys, mapM f l = Ok ys /\ Forall2 P l ys.
Proof.
  induction l as [|x l IH]; intros H; simpl.
  - exists []. split; [reflexivity|constructor].
  - destruct (H x (or_introl eq_refl)) as (y & E & Py). rewrite E. simpl.
    destruct IH as (ys & E2 & F); [intros; apply H; right; assumption|]. rewrite E2. simpl.
    exists (y :: ys). split; [reflexivity|constructor; assumption].
Qed.
Lemma Forall2_map_l {A A' B} (g : A -> A') (P : A' -> B -> Prop) l ys :
  Forall2 P (map g l) ys -> Forall2 (fun x y => P (g x) y) l ys.
Proof.
  revert ys. induction l as [|x l IH]; intros ys H; inversion H; subst; constructor; auto.
Qed.
Lemma Forall2_imp_in {A B} (P Q : A -> B -> Prop) l ys :
  (forall x y, In x l -> P x y -> Q x y) -> Forall2 P l ys -> Forall2 Q l ys.
Proof.
  intros H F. induction F; constructor; [apply H; [left; reflexivity|assumption]|].
  apply IHF. intros. apply H; [right|]; assumption.
Qed.

Lemma triangle_core up m Rx : (forall p, In p up -> vz p = 0) -> In m up -> 0 < vnorm m ->
  (forall p, In p up -> vnorm p <= vnorm m) -> isometry Rx -> (forall p, vz p = 0 -> vz (mapply Rx p) = 0) ->
  exists ub,
    mapM (fun p => do l <- solve3 (triA (vnorm m)) (V3 (vx p) (vy p) 1);
      if Rlt_dec (vnorm (vsub (dropz (mapply (triA (vnorm m)) l)) (dropz p))) (1 / 10 ^ 12) then Ok l else Err)
      (map (mapply Rx) up) = Ok ub /\
    Forall2 (fun p l => convex_weights l /\ mapply (triA (vnorm m)) l = vadd (mapply Rx p) (V3 0 0 1)) up ub.
Proof.
  intros Z Im Pm Mx Iso Pl. set (r := vnorm m) in *.
  destruct (mapM_Forall2 (fun p => do l <- solve3 (triA r) (V3 (vx p) (vy p) 1);
      if Rlt_dec (vnorm (vsub (dropz (mapply (triA r) l)) (dropz p))) (1 / 10 ^ 12) then Ok l else Err)
      (fun p l => convex_weights l /\ mapply (triA r) l = V3 (vx p) (vy p) 1) (map (mapply Rx) up)) as (ub & E & F).
  - intros p' Hp. apply in_map_iff in Hp. destruct Hp as (p & <- & Hp).
    set (p' := mapply Rx p).
    assert (B : vdot (dropz p') (dropz p') <= r * r).
    { assert (vz p' = 0) by (apply Pl, Z; assumption).
      assert (D : vdot p' p' = vdot p p) by apply Iso.
      assert (L : vdot p p <= r * r).
      { rewrite <- vnorm_sq. apply Rmult_le_compat; try apply vnorm_nonneg; apply Mx; assumption. }
      clearbody p'. unfold vdot, dropz in *. cbn [vx vy vz]. rewrite H in D. lra. }
    destruct (tri_solve r p' Pm B) as (l & E & C & A). exists l. rewrite E. cbn [bind]. rewrite A.
    replace (vnorm _) with 0.
    + assert (P12 : 0 < 1 / 10 ^ 12) by (apply Rdiv_lt_0_compat; [lra|apply pow_lt; lra]).
      destruct (Rlt_dec 0 (1 / 10 ^ 12)); [auto|contradiction].
    + symmetry. apply norm_zero. unfold vsub, dropz, vzero. cbn. f_equal; ring.
  - exists ub. split; [assumption|]. apply Forall2_map_l in F.
    eapply Forall2_imp_in; [|eassumption]. cbv beta. intros p l Hp (C & A). split; [assumption|].
    rewrite A. unfold vadd. cbn [vx vy vz]. rewrite (Pl p) by (apply Z; assumption). f_equal; ring.
Qed.

Lemma combination_back (Rn Rx : mat3) um r l q : 0 < r -> convex_weights l ->
  mapply (triA r) l = vadd q (V3 0 0 1) -> vz q = 0 ->
  let a := 1 / (1 / 6 * sqrt 3) * r in
  let rr := 1 / 3 * sqrt 3 * a in
  let back := fun p => vadd (mapply (mtrans Rn) (mapply (mtrans Rx) p)) um in
  combination (back (V3 rr 0 0)) (back (V3 (- r) (1 / 2 * a) 0)) (back (V3 (- r) (- (1 / 2) * a) 0)) l = back q.
Proof.
  intros Hr C A Q a rr back.
  set (g := fun p => mapply (mtrans Rn) (mapply (mtrans Rx) p)).
  assert (G : forall l c0 c1 c2, g (combination c0 c1 c2 l) = combination (g c0) (g c1) (g c2) l).
  { intros. unfold g, combination. repeat rewrite ?mapply_add, ?mapply_scale. reflexivity. }
  assert (S : forall c0 c1 c2, combination (vadd c0 um) (vadd c1 um) (vadd c2 um) l = vadd (combination c0 c1 c2 l) um).
  { intros. destruct C as (_ & _ & _ & C). apply vec_eq; unfold combination, vadd, vscale; cbn;
    match goal with |- _ = _ + ?x => replace x with ((vx l + vy l + vz l) * x) at 4 by (rewrite C; ring) end; ring. }
  unfold back. fold (g (V3 rr 0 0)) (g (V3 (- r) (1 / 2 * a) 0)) (g (V3 (- r) (- (1 / 2) * a) 0)) (g q).
  rewrite S, <- G. do 2 f_equal.
  unfold triA in A. fold a in A. fold rr in A. unfold mapply, vdot, vadd in A. cbn in A.
  injection A as A1 A2 A3. apply vec_eq; unfold combination, vadd, vscale; cbn; try lra.
Qed.

Lemma mean_unique normals n n' : mean_direction normals n -> mean_direction normals n' -> n = n'.
Proof.
  intros (U & H) (U' & H'). unfold unit_vec in *.
  assert (X : forall s a, 0 < s -> vdot a a = 1 -> vscale s a = vzero -> False).
  { intros s a Hs Ha E. assert (Q : vdot (vscale s a) (vscale s a) = s * s * vdot a a) by (unfold vdot, vscale; cbn; ring).
    rewrite E, Ha in Q. unfold vdot, vzero in Q. cbn in Q. nra. }
  destruct H as [(s & P & E)|(E & F)], H' as [(s' & P' & E')|(E' & F')].
  - rewrite <- E' in E. assert (s = s').
    { assert (Q : vdot (vscale s n) (vscale s n) = s * s * vdot n n) by (unfold vdot, vscale; cbn; ring).
      assert (Q' : vdot (vscale s' n') (vscale s' n') = s' * s' * vdot n' n') by (unfold vdot, vscale; cbn; ring).
      rewrite E, Q', U, U' in Q. nra. }
    subst s'. unfold vscale in E. injection E as E1 E2 E3.
    apply vec_eq; apply Rmult_eq_reg_l with s; try assumption; apply Rgt_not_eq; assumption.
  - exfalso. rewrite E' in E. exact (X s n P U E).
  - exfalso. rewrite E in E'. exact (X s' n' P' U' E').
  - congruence.
Qed.

Lemma norm_positive m : m <> vzero -> 0 < vdot m m.
Proof.
  intros H. pose proof (vdot_nonneg m). destruct (Req_EM_T (vdot m m) 0) as [Z|Z]; [|lra].
  apply vdot_zero in Z. contradiction.
Qed.

Lemma pos_norm_pos m : 0 < vnorm m -> 0 < vdot m m.
Proof. intros H. rewrite <- vnorm_sq. apply Rmult_lt_0_compat; assumption. Qed.

Lemma Rx_ok m : 0 < vnorm m -> vz m = 0 ->
  exists Rx, getRotationMatrix (vnormalized m) (V3 1 0 0) = Ok Rx /\ isometry Rx /\
    (forall p, vz p = 0 -> vz (mapply Rx p) = 0).
Proof.
  intros P Z. destruct (normalized_unit m (pos_norm_pos m P)) as [U _].
  assert (UX : unit_vec (V3 1 0 0)) by (unfold unit_vec, vdot; cbn; ring).
  destruct (rotation_iso _ _ U UX) as (M & E & I & _). exists M. split; [assumption|]. split; [assumption|].
  intros p Hp. rewrite getRotation_value in E by assumption. injection E as <-.
  apply rotcore_plane; [|assumption]. unfold vnormalized. destruct (Rlt_dec _ _); [cbn; rewrite Z; unfold Rdiv; ring|assumption].
Qed.

Lemma mident_iso : isometry mident.
Proof. intros x y. unfold mapply, mident, vdot. cbn. ring. Qed.
Lemma mident_apply x : mapply (mtrans mident) x = x.
Proof. unfold mapply, mident, mtrans, vdot. cbn. apply vec_eq; cbn; ring. Qed.
Lemma dropz_combination c0 c1 c2 l : combination (dropz c0) (dropz c1) (dropz c2) l = dropz (combination c0 c1 c2 l).
Proof. unfold combination, dropz, vadd, vscale. cbn. f_equal; ring. Qed.

(** everything after step 4 *)
Lemma triangle_tail (lift : vec3 -> vec3) Rn um up :
  (forall p, In p up -> vz p = 0) -> (exists p, In p up /\ p <> vzero) ->
  (forall c0 c1 c2 l, combination (lift c0) (lift c1) (lift c2) l = lift (combination c0 c1 c2 l)) ->
  exists c0 c1 c2 ub,
   (let (r, umax) := maxPoint up in
    match umax with
    | None => Err
    | Some m =>
      do Rx <- getRotationMatrix (vnormalized m) (V3 1 0 0);
      let up := map (mapply Rx) up in
      let a := 1 / (1 / 6 * sqrt 3) * r in
      let rr := 1 / 3 * sqrt 3 * a in
      let A := M3 (V3 rr (- r) (- r)) (V3 0 (1 / 2 * a) (- (1 / 2) * a)) (V3 1 1 1) in
      do ub <- mapM (fun p =>
                 do l <- solve3 A (V3 (vx p) (vy p) 1);
                 if Rlt_dec (vnorm (vsub (dropz (mapply A l)) (dropz p))) (1 / 10 ^ 12) then Ok l else Err) up;
      let back := fun p => vadd (mapply (mtrans Rn) (mapply (mtrans Rx) p)) um in
      let Cg := map (fun p => lift (back p)) [V3 rr 0 0; V3 (- r) (1 / 2 * a) 0; V3 (- r) (- (1 / 2) * a) 0] in
      Ok (Cg, ub)
    end) = Ok ([c0; c1; c2], ub) /\
    Forall2 (fun p l => convex_weights l /\
      combination c0 c1 c2 l = lift (vadd (mapply (mtrans Rn) p) um)) up ub.
Proof.
  intros Z NE LC. destruct (maxPoint_ok up NE) as (m & E & Im & Pm & Mx). rewrite E.
  destruct (Rx_ok m Pm (Z m Im)) as (Rx & ER & Iso & Pl). rewrite ER. cbn [bind].
  destruct (triangle_core up m Rx Z Im Pm Mx Iso Pl) as (ub & EU & F).
  unfold triA in EU. rewrite EU. cbn [bind map].
  do 4 eexists. split; [reflexivity|].
  eapply Forall2_imp_in; [|exact F]. cbv beta. intros p l Hp (C & A). split; [assumption|].
  rewrite LC. f_equal.
  rewrite (combination_back Rn Rx um (vnorm m) l (mapply Rx p) Pm C A (Pl p (Z p Hp))).
  rewrite iso_trans by assumption. reflexivity.
Qed.

Lemma triangle_planar um us normals : (exists u, In u us /\ dropz u <> dropz um) ->
  exists c0 c1 c2 ub, makeTriangle 2 um us normals = Ok ([c0; c1; c2], ub) /\
    Forall2 (fun u l => convex_weights l /\ combination c0 c1 c2 l = dropz u) us ub.
Proof.
  intros (u & Iu & Nu). unfold makeTriangle. cbn [Nat.eqb bind].
  destruct (triangle_tail dropz mident (dropz um) (map (fun p => vsub p (dropz um)) (map dropz us))) as (c0 & c1 & c2 & ub & E & F).
  - intros p Hp. rewrite map_map in Hp. apply in_map_iff in Hp. destruct Hp as (x & <- & _). cbn. ring.
  - exists (vsub (dropz u) (dropz um)). split.
    + rewrite map_map. apply in_map_iff. exists u. auto.
    + intros Q. apply Nu. unfold vsub, dropz, vzero in Q. cbn in Q. injection Q as Q1 Q2. unfold dropz. f_equal; lra.
  - apply dropz_combination.
  - exists c0, c1, c2, ub. split; [exact E|].
    rewrite map_map in F. apply Forall2_map_l in F. eapply Forall2_imp_in; [|exact F]. cbv beta.
    intros x l _ (C & A). split; [assumption|]. rewrite A, mident_apply. unfold vadd, vsub, dropz. cbn. f_equal; ring.
Qed.

Lemma triangle_surface um us normals n : normals <> [] -> Forall unit_vec normals -> mean_direction normals n ->
  (exists u, In u us /\ foot um n u <> um) ->
  exists c0 c1 c2 ub, makeTriangle 3 um us normals = Ok ([c0; c1; c2], ub) /\
    Forall2 (fun u l => convex_weights l /\ combination c0 c1 c2 l = foot um n u) us ub.
Proof.
  intros NE U MD (u & Iu & Nu). unfold makeTriangle. cbn [Nat.eqb].
  destruct (avgNormal_ok normals NE U) as (n' & EN & MD'). rewrite EN. cbn [bind].
  assert (n = vnormalized n') by (eapply mean_unique; eassumption). subst n. set (n := vnormalized n') in *.
  assert (Un : unit_vec n) by apply MD. assert (Uz : unit_vec (V3 0 0 1)) by (unfold unit_vec, vdot; cbn; ring).
  destruct (rotation_iso n (V3 0 0 1) Un Uz) as (Rn & ER & Iso & Map). rewrite ER. cbn [bind].
  assert (FT : forall p, vadd (mapply (mtrans Rn) (dropz (mapply Rn (vsub p um)))) um = foot um n p).
  { intros p.
    assert (D : dropz (mapply Rn (vsub p um)) = mapply Rn (vsub (vsub p um) (vscale (vdot (vsub p um) n) n))).
    { assert (Lin : forall M x s y, mapply M (vsub x (vscale s y)) = vsub (mapply M x) (vscale s (mapply M y))).
      { intros. unfold mapply, vsub, vscale. vring. }
      rewrite Lin, Map.
      assert (ZZ : vz (mapply Rn (vsub p um)) = vdot (vsub p um) n).
      { rewrite <- (Iso (vsub p um) n), Map. unfold vdot. cbn [vx vy vz]. ring. }
      rewrite <- ZZ. unfold dropz. apply vec_eq; unfold vsub, vscale; cbn [vx vy vz]; ring. }
    rewrite D, iso_trans by assumption. unfold foot, vadd, vsub. apply vec_eq; cbn; ring. }
  cbv zeta beta.
  assert (Eid : map (fun p : vec3 => p) us = us) by apply map_id. rewrite Eid.
  rewrite map_map.
  destruct (triangle_tail (fun p => p) Rn um (map (fun x => dropz (mapply Rn (vsub x um))) us)) as (c0 & c1 & c2 & ub & E & F).
  - intros p Hp. apply in_map_iff in Hp. destruct Hp as (x & <- & _). reflexivity.
  - exists (dropz (mapply Rn (vsub u um))). split; [apply in_map_iff; exists u; auto|].
    intros Q. apply Nu. rewrite <- FT, Q. unfold vadd, mapply, vzero, vdot. apply vec_eq; cbn; ring.
  - reflexivity.
  - exists c0, c1, c2, ub. split; [exact E|].
    apply Forall2_map_l in F. eapply Forall2_imp_in; [|exact F]. cbv beta.
    intros x l _ (C & A). split; [assumption|]. rewrite A. apply FT.
Qed.

Lemma triangle_degenerate um us normals : (forall u, In u us -> dropz u = dropz um) ->
  makeTriangle 2 um us normals = Err.
Proof.
  intros H. unfold makeTriangle. cbn [Nat.eqb bind]. cbv zeta.
  pose proof (maxPoint_none (map (fun p => vsub p (dropz um)) (map dropz us))) as N.
  destruct (maxPoint _) as [r o]. cbn in N. rewrite N; [reflexivity|].
  intros p Hp. rewrite map_map in Hp. apply in_map_iff in Hp. destruct Hp as (u & <- & Hu).
  rewrite (H u Hu). unfold vsub, vzero. f_equal; ring.
Qed.

(** writing the weights *)
Lemma prune_all uind M r c : fold_left pruneColumn uind M r c = if existsb (Nat.eqb c) uind then 0 else M r c.
Proof.
  revert M. induction uind as [|u l IH]; intros M; simpl; [reflexivity|].
  rewrite IH. unfold pruneColumn. destruct (existsb _ l), (c =? u)%nat; reflexivity.
Qed.

Lemma writeRow_spec i row cols M r c : NoDup (map fst cols) ->
  writeRow i row cols M r c =
    if (r =? row)%nat then match find (fun cu => (c =? fst cu)%nat) cols with Some cu => ubat (snd cu) i | None => M r c end
    else M r c.
Proof.
  unfold writeRow. revert M. induction cols as [|[k u] l IH]; intros M ND; cbn [fold_left find fst snd].
  - destruct (r =? row)%nat; reflexivity.
  - cbn [map fst] in ND. inversion ND as [|? ? NI ND']; subst. rewrite IH by assumption.
    destruct (r =? row)%nat eqn:E; [|unfold writeEntry; rewrite E; reflexivity].
    unfold writeEntry. rewrite E. cbn [andb].
    destruct (c =? k)%nat eqn:Ek; [|reflexivity].
    apply Nat.eqb_eq in Ek. subst k.
    destruct (find _ l) as [[k2 u2]|] eqn:F; [|reflexivity].
    exfalso. apply find_some in F. destruct F as (F1 & F2). cbn in F2. apply Nat.eqb_eq in F2. subst k2.
    apply NI. apply in_map_iff. exists (c, u2). auto.
Qed.

Lemma find_combine (uind : list nat) (ub : list vec3) k c l :
  NoDup uind -> nth_error uind k = Some c -> nth_error ub k = Some l ->
  find (fun cu => (c =? fst cu)%nat) (combine uind ub) = Some (c, l).
Proof.
  revert ub k. induction uind as [|u t IH]; intros ub k ND H1 H2; [destruct k; discriminate|].
  inversion ND; subst. destruct ub as [|l0 ub]; [destruct k; discriminate|].
  destruct k; cbn in *.
  - injection H1 as ->. injection H2 as ->. rewrite Nat.eqb_refl. reflexivity.
  - destruct (Nat.eqb_spec c u) as [->|]; [exfalso; apply H3; eapply nth_error_In; eassumption|].
    eapply IH; eassumption.
Qed.
Lemma find_combine_none (uind : list nat) (ub : list vec3) c : ~ In c uind ->
  find (fun cu => (c =? fst cu)%nat) (combine uind ub) = None.
Proof.
  revert ub. induction uind as [|u t IH]; intros ub H; [reflexivity|]. destruct ub; [reflexivity|]. cbn.
  destruct (Nat.eqb_spec c u) as [->|]; [exfalso; apply H; left; reflexivity|]. apply IH. intros Q. apply H. right. assumption.
Qed.

Lemma nodup3 {A} (a b c : A) : NoDup [a; b; c] -> a <> b /\ a <> c /\ b <> c.
Proof.
  intros H. apply NoDup_cons_iff in H. destruct H as (H1 & H). apply NoDup_cons_iff in H. destruct H as (H2 & _).
  split; [|split]; intros ->; [apply H1|apply H1|apply H2]; simpl; auto.
Qed.

Lemma step_entries M r0 r1 r2 rest uind ub :
  NoDup [r0; r1; r2] -> NoDup uind -> length uind = length ub ->
  exists M', triangleStep M (r0 :: r1 :: r2 :: rest) uind ub = Ok M' /\
    (forall r c, ~ In c uind -> M' r c = M r c) /\
    (forall k c l, nth_error uind k = Some c -> nth_error ub k = Some l ->
       M' r0 c = vx l /\ M' r1 c = vy l /\ M' r2 c = vz l /\ forall r, ~ In r [r0; r1; r2] -> M' r c = 0).
Proof.
  intros NR NU L. unfold triangleStep. eexists. split; [reflexivity|].
  assert (NC : NoDup (map fst (combine uind ub))).
  { replace (map fst (combine uind ub)) with uind; [assumption|]. clear - L.
    revert ub L. induction uind as [|u t IH]; intros [|x ub] L; try discriminate; [reflexivity|].
    cbn. f_equal. apply IH. cbn in L. lia. }
  destruct (nodup3 _ _ _ NR) as (D01 & D02 & D12).
  split.
  - intros r c Hc. rewrite !writeRow_spec, find_combine_none, prune_all by assumption.
    replace (existsb (Nat.eqb c) uind) with false.
    + destruct (r =? r2)%nat, (r =? r1)%nat, (r =? r0)%nat; reflexivity.
    + symmetry. apply existsb_false. intros x Hx. apply Nat.eqb_neq. intros ->. contradiction.
  - intros k c l H1 H2.
    assert (X : forall r, writeRow 2 r2 (combine uind ub) (writeRow 1 r1 (combine uind ub)
        (writeRow 0 r0 (combine uind ub) (fold_left pruneColumn uind M))) r c
      = if (r =? r2)%nat then vz l else if (r =? r1)%nat then vy l else if (r =? r0)%nat then vx l else 0).
    { intros r. rewrite !writeRow_spec, (find_combine uind ub k c l), prune_all by assumption.
      replace (existsb (Nat.eqb c) uind) with true; [reflexivity|].
      symmetry. apply existsb_exists. exists c. split; [eapply nth_error_In; eassumption|apply Nat.eqb_refl]. }
    rewrite !X. rewrite !Nat.eqb_refl.
    destruct (Nat.eqb_spec r0 r2); [contradiction|]. destruct (Nat.eqb_spec r0 r1); [contradiction|].
    destruct (Nat.eqb_spec r1 r2); [contradiction|].
    split; [reflexivity|]. split; [reflexivity|]. split; [reflexivity|].
    intros r Hr. rewrite X. destruct (Nat.eqb_spec r r2); [exfalso; apply Hr; subst; simpl; auto|].
    destruct (Nat.eqb_spec r r1); [exfalso; apply Hr; subst; simpl; auto|].
    destruct (Nat.eqb_spec r r0); [exfalso; apply Hr; subst; simpl; auto|]. reflexivity.
Qed.

Lemma rsum_point n (r0 : nat) x : (r0 < n)%nat -> rsum n (fun r => if (r =? r0)%nat then x else 0) = x.
Proof.
  induction n as [|n IH]; intros H; [lia|]. cbn [rsum]. destruct (Nat.eq_dec r0 n) as [->|D].
  - rewrite Nat.eqb_refl. rewrite (rsum_ext n _ (fun _ => 0)).
    + rewrite rsum_zero. ring.
    + intros k Hk. destruct (Nat.eqb_spec k n); [lia|reflexivity].
  - rewrite IH by lia. destruct (Nat.eqb_spec n r0); [lia|]. ring.
Qed.

Lemma step_columns M r0 r1 r2 rest uind ub n :
  NoDup [r0; r1; r2] -> NoDup uind -> length uind = length ub -> Forall convex_weights ub ->
  (r0 < n)%nat -> (r1 < n)%nat -> (r2 < n)%nat ->
  exists M', triangleStep M (r0 :: r1 :: r2 :: rest) uind ub = Ok M' /\
    (forall c, rsum n (fun r => M r c) = 1 -> rsum n (fun r => M' r c) = 1) /\
    (forall c, In c uind -> rsum n (fun r => M' r c) = 1 /\ forall r, 0 <= M' r c).
Proof.
  intros NR NU L CW H0 H1 H2. destruct (step_entries M r0 r1 r2 rest uind ub NR NU L) as (M' & E & Out & In').
  exists M'. split; [assumption|].
  destruct (nodup3 _ _ _ NR) as (D01 & D02 & D12).
  assert (C : forall c, In c uind -> rsum n (fun r => M' r c) = 1 /\ forall r, 0 <= M' r c).
  { intros c Hc. apply In_nth_error in Hc. destruct Hc as (k & Hk).
    destruct (nth_error ub k) as [l|] eqn:Hl.
    2:{ exfalso. apply nth_error_None in Hl. assert (k < length uind)%nat by (apply nth_error_Some; congruence). lia. }
    destruct (In' k c l Hk Hl) as (A0 & A1 & A2 & A3).
    assert (W : convex_weights l) by (rewrite Forall_forall in CW; apply CW; eapply nth_error_In; eassumption).
    destruct W as (W0 & W1 & W2 & W3).
    assert (V : forall r, M' r c = (if (r =? r0)%nat then vx l else 0) + (if (r =? r1)%nat then vy l else 0) + (if (r =? r2)%nat then vz l else 0)).
    { intros r. destruct (Nat.eqb_spec r r0) as [E0|N0], (Nat.eqb_spec r r1) as [E1|N1], (Nat.eqb_spec r r2) as [E2|N2]; try congruence; try (subst r; lra).
      rewrite A3; [ring|]. intros [Q|[Q|[Q|[]]]]; subst; contradiction. }
    split.
    - rewrite (rsum_ext n _ _ (fun r _ => V r)), !rsum_plus, !rsum_point by assumption. assumption.
    - intros r. rewrite V. destruct (r =? r0)%nat, (r =? r1)%nat, (r =? r2)%nat; lra. }
  split; [|exact C].
  intros c Hc. destruct (in_dec Nat.eq_dec c uind) as [I|I]; [apply C; assumption|].
  rewrite <- Hc. apply rsum_ext. intros r _. apply Out. assumption.
Qed.

(** concrete data *)
Lemma rotation_example : exists M, getRotationMatrix (V3 1 0 0) (V3 0 1 0) = Ok M /\ mapply M (V3 0 1 0) = V3 (-1) 0 0 /\
  mapply M (V3 0 0 1) = V3 0 0 1.
Proof.
  exists (rotcore (V3 1 0 0) (V3 0 1 0)).
  split; [apply getRotation_value; unfold unit_vec, vdot; cbn; ring|].
  unfold rotcore. assert (C : vcross (V3 1 0 0) (V3 0 1 0) = V3 0 0 1) by (unfold vcross; cbn; f_equal; ring).
  assert (D : vdot (V3 1 0 0) (V3 0 1 0) = 0) by (unfold vdot; cbn; ring).
  rewrite C, D, normalized_of_unit by (unfold unit_vec, vdot; cbn; ring).
  replace (1 - 0²) with 1 by (unfold Rsqr; ring). rewrite sqrt_1.
  unfold rodrigues, mapply, madd, mscale, mident, vscale, vadd, vdot. cbn. split; f_equal; ring.
Qed.

Lemma triangle_example : exists c0 c1 c2 ub,
  makeTriangle 2 (V3 1 1 0) [V3 1 1 0; V3 3 1 0; V3 1 4 0] [] = Ok ([c0; c1; c2], ub) /\
  Forall2 (fun u l => convex_weights l /\ combination c0 c1 c2 l = dropz u) [V3 1 1 0; V3 3 1 0; V3 1 4 0] ub.
Proof.
  apply triangle_planar. exists (V3 3 1 0). split; [right; left; reflexivity|].
  unfold dropz. cbn. intros Q. injection Q. lra.
Qed.

Lemma triangle_dimension : forall tdim um us normals, tdim <> 2%nat -> tdim <> 3%nat ->
  makeTriangle tdim um us normals = Err.
Proof.
  intros tdim um us normals A B. unfold makeTriangle. apply Nat.eqb_neq in A, B. rewrite A, B. reflexivity.
Qed.
