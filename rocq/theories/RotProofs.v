(** Proofs for C41. *)
From Coq Require Import Lra Nsatz.
From Verif Require Import Common SplineModel GluingModel GluingSpec GluingProofs RotModel RotSpec.
Open Scope R_scope.

(** the matrix with the zeros of z removed *)
Lemma rot_simple n0 n1 n2 : (n0, n1, n2) <> (0, 0, 0) -> exists c s r L, 0 < L /\ 0 <= r /\ r * r = n0 * n0 + n1 * n1 /\ L * L = r * r + n2 * n2 /\ c * L = n2 /\ s * L = r /\ L = norm3 (n0, n1, n2) /\
  rotMatrix (n0, n1, n2) = ((c + n1 * n1 * (1 - c), - (n0 * n1 * (1 - c)), - (n0 * s)), (- (n0 * n1 * (1 - c)), c + n0 * n0 * (1 - c), - (n1 * s)), (n0 * s, n1 * s, c)).
Proof.
  intros H. pose proof (dot3_pos _ H) as P. cbn [dot3] in P. set (L := norm3 (n0, n1, n2)). set (r := sqrt (n0 * n0 + n1 * n1)).
  assert (PL : 0 < L) by (apply sqrt_lt_R0; exact P). assert (LL : L * L = n0 * n0 + n1 * n1 + n2 * n2) by (apply sqrt_sqrt; lra).
  pose proof (Rle_0_sqr n0) as Q0. pose proof (Rle_0_sqr n1) as Q1. unfold Rsqr in *. assert (RR : r * r = n0 * n0 + n1 * n1) by (apply sqrt_sqrt; lra).
  exists (n2 / L), (r / L), r, L. split; [exact PL|]. split; [apply sqrt_pos|]. split; [exact RR|]. split; [lra|]. split; [field; lra|]. split; [field; lra|]. split; [reflexivity|].
  unfold rotMatrix. fold L. replace (norm3 (0, 0, 1)) with 1 by (cbn [norm3]; replace (0 * 0 + 0 * 0 + 1 * 1) with 1 by ring; now rewrite sqrt_1).
  replace (norm3 (n1 * 1 - n2 * 0, n2 * 0 - n0 * 1, n0 * 0 - n1 * 0)) with r by (unfold r; cbn [norm3]; f_equal; ring).
  replace ((n0 * 0 + n1 * 0 + n2 * 1) / (L * 1)) with (n2 / L) by (field; lra). replace (r / (L * 1)) with (r / L) by (field; lra).
  repeat match goal with |- (_, _) = (_, _) => f_equal end; ring.
Qed.

Lemma cs1 c s r L n2 : 0 < L -> L * L = r * r + n2 * n2 -> c * L = n2 -> s * L = r -> c * c + s * s = 1.
Proof.
  intros P LL C S. apply (Rmult_eq_reg_r (L * L)); [|nra]. replace ((c * c + s * s) * (L * L)) with ((c * L) * (c * L) + (s * L) * (s * L)) by ring. rewrite C, S. lra.
Qed.

Theorem orthogonal_iff_pf : forall n, n <> (0, 0, 0) -> orthogonal (rotMatrix n) <-> flat2 n = 1 \/ flat2 n = 0.
Proof.
  intros ((n0 & n1) & n2) H. destruct (rot_simple n0 n1 n2 H) as (c & s & r & L & P & PR & RR & LL & C & S & _ & E). rewrite E. pose proof (cs1 c s r L n2 P LL C S) as CS. cbn [flat2 orthogonal dot3]. split.
  - intros (_ & _ & Z & _). assert (K : s * s * (n0 * n0 + n1 * n1 - 1) = 0) by lra. apply Rmult_integral in K. destruct K as [K|K]; [|left; lra]. right. apply Rmult_integral in K. assert (s = 0) by tauto. subst s. rewrite Rmult_0_l in S. rewrite <- RR, <- S. ring.
  - intros [F|F].
    + assert (R1 : r = 1) by (apply Rsqr_inj; unfold Rsqr; lra). assert (N0 : n0 * n0 = 1 - n1 * n1) by lra.
      repeat split.
      * replace ((c + n1 * n1 * (1 - c)) * (c + n1 * n1 * (1 - c)) + - (n0 * n1 * (1 - c)) * - (n0 * n1 * (1 - c)) + - (n0 * s) * - (n0 * s)) with (c * c + 2 * c * (1 - c) * (n1 * n1) + (1 - c) * (1 - c) * (n1 * n1) * (n1 * n1 + n0 * n0) + (n0 * n0) * (s * s)) by ring. rewrite N0. replace (s * s) with (1 - c * c) by lra. ring.
      * replace (- (n0 * n1 * (1 - c)) * - (n0 * n1 * (1 - c)) + (c + n0 * n0 * (1 - c)) * (c + n0 * n0 * (1 - c)) + - (n1 * s) * - (n1 * s)) with (c * c + 2 * c * (1 - c) * (n0 * n0) + (1 - c) * (1 - c) * (n0 * n0) * (n1 * n1 + n0 * n0) + (n1 * n1) * (s * s)) by ring. rewrite N0. replace (s * s) with (1 - c * c) by lra. ring.
      * replace (n0 * s * (n0 * s) + n1 * s * (n1 * s) + c * c) with ((n0 * n0 + n1 * n1) * (s * s) + c * c) by ring. rewrite F. lra.
      * match goal with |- ?l = 0 => replace l with (n0 * n1 * (- (1 - c) * (2 * c + (n0 * n0 + n1 * n1) * (1 - c)) + s * s)) by ring end. rewrite F. replace (s * s) with (1 - c * c) by lra. ring.
      * match goal with |- ?l = 0 => replace l with (n0 * s * (1 - c) * (n1 * n1 - n1 * n1)) by ring end. ring.
      * match goal with |- ?l = 0 => replace l with (n1 * s * (1 - c) * (n0 * n0 - n0 * n0)) by ring end. ring.
    + assert (Z0 : n0 = 0) by (pose proof (Rle_0_sqr n0); pose proof (Rle_0_sqr n1); unfold Rsqr in *; apply Rsqr_0_uniq; unfold Rsqr; lra). assert (Z1 : n1 = 0) by (pose proof (Rle_0_sqr n0); pose proof (Rle_0_sqr n1); unfold Rsqr in *; apply Rsqr_0_uniq; unfold Rsqr; lra).
      assert (R0 : r = 0) by (apply Rsqr_0_uniq; unfold Rsqr; lra). rewrite R0 in S. apply Rmult_integral in S. assert (S0 : s = 0) by (destruct S; [assumption|lra]). rewrite Z0, Z1, S0 in *. repeat split; lra.
Qed.

Theorem rotation_pf : forall n, flat2 n = 1 -> rotation (rotMatrix n) /\ mul3 (rotMatrix n) n = (0, 0, norm3 n).
Proof.
  intros ((n0 & n1) & n2) F. assert (H : (n0, n1, n2) <> (0, 0, 0)) by (intros E; injection E as -> -> ->; cbn [flat2] in F; lra). pose proof (proj2 (orthogonal_iff_pf _ H) (or_introl F)) as ORT.
  destruct (rot_simple n0 n1 n2 H) as (c & s & r & L & P & PR & RR & LL & C & S & EL & E). rewrite E in *. pose proof (cs1 c s r L n2 P LL C S) as CS. cbn [flat2] in F. assert (R1 : r = 1) by (apply Rsqr_inj; unfold Rsqr; lra). split; [split; [exact ORT|]|].
  - cbn [det3]. replace ((c + n1 * n1 * (1 - c)) * ((c + n0 * n0 * (1 - c)) * c - - (n1 * s) * (n1 * s)) - - (n0 * n1 * (1 - c)) * (- (n0 * n1 * (1 - c)) * c - - (n0 * s) * (n1 * s)) + n0 * s * (- (n0 * n1 * (1 - c)) * - (n1 * s) - - (n0 * s) * (c + n0 * n0 * (1 - c))))
      with (c * (c * c + c * (1 - c) * (n0 * n0 + n1 * n1)) + s * s * (c * (n0 * n0 + n1 * n1) + (1 - c) * ((n0 * n0 + n1 * n1) * (n0 * n0 + n1 * n1)))) by ring. rewrite F. replace (s * s) with (1 - c * c) by lra. ring.
  - cbn [mul3]. rewrite <- EL. rewrite R1 in S. rewrite <- C. f_equal; [f_equal|].
    + replace ((c + n1 * n1 * (1 - c)) * n0 + - (n0 * n1 * (1 - c)) * n1 + - (n0 * s) * (c * L)) with (n0 * c * (1 - s * L)) by ring. rewrite S. ring.
    + replace (- (n0 * n1 * (1 - c)) * n0 + (c + n0 * n0 * (1 - c)) * n1 + - (n1 * s) * (c * L)) with (n1 * c * (1 - s * L)) by ring. rewrite S. ring.
    + replace (n0 * s * n0 + n1 * s * n1 + c * (c * L)) with (s * (n0 * n0 + n1 * n1) + c * c * L) by ring. rewrite F. apply (Rmult_eq_reg_r L); [|lra]. replace ((s * 1 + c * c * L) * L) with (s * L + (c * L) * (c * L)) by ring. rewrite C, S. lra.
Qed.

Theorem upright_pf : forall n2, 0 < n2 -> rotMatrix (0, 0, n2) = ((1, 0, 0), (0, 1, 0), (0, 0, 1)).
Proof.
  intros n2 P. assert (H : (0, 0, n2) <> (0, 0, 0)) by (intros E; injection E as E; lra). destruct (rot_simple 0 0 n2 H) as (c & s & r & L & PL & PR & RR & LL & C & S & EL & E). rewrite E. assert (R0 : r = 0) by (apply Rsqr_0_uniq; unfold Rsqr; lra). rewrite R0 in *.
  assert (LN : L = n2) by (apply Rsqr_inj; unfold Rsqr; lra). rewrite LN in *. assert (C1 : c = 1) by (apply (Rmult_eq_reg_r n2); lra). rewrite C1. apply Rmult_integral in S. assert (S0 : s = 0) by (destruct S; lra). rewrite S0. repeat match goal with |- (_, _) = (_, _) => f_equal end; ring.
Qed.
Theorem upside_down_pf : forall n2, n2 < 0 -> rotMatrix (0, 0, n2) = ((-1, 0, 0), (0, -1, 0), (0, 0, -1)).
Proof.
  intros n2 P. assert (H : (0, 0, n2) <> (0, 0, 0)) by (intros E; injection E as E; lra). destruct (rot_simple 0 0 n2 H) as (c & s & r & L & PL & PR & RR & LL & C & S & EL & E). rewrite E. assert (R0 : r = 0) by (apply Rsqr_0_uniq; unfold Rsqr; lra). rewrite R0 in *.
  assert (LN : L = - n2) by (apply Rsqr_inj; unfold Rsqr; lra). rewrite LN in *. assert (C1 : c = -1) by (apply (Rmult_eq_reg_r (- n2)); lra). rewrite C1. apply Rmult_integral in S. assert (S0 : s = 0) by (destruct S; lra). rewrite S0. repeat match goal with |- (_, _) = (_, _) => f_equal end; ring.
Qed.

Lemma norm_345 : norm3 (3, 0, 4) = 5.
Proof. cbn [norm3]. replace (3 * 3 + 0 * 0 + 4 * 4) with (5 * 5) by ring. apply sqrt_square. lra. Qed.
Theorem refuted_pf : exists J, normalN J = (3, 0, 4) /\ ~ orthogonal (vertexRotation J) /\
  exists x y z, mul3 (vertexRotation J) (3, 0, 4) = (x, y, z) /\ x <> 0.
Proof.
  exists (mkJ3 4 0 0 1 (-3) 0). assert (E : normalN (mkJ3 4 0 0 1 (-3) 0) = (3, 0, 4)) by (unfold normalN; cbn; f_equal; [f_equal|]; ring). split; [exact E|]. unfold vertexRotation. rewrite E.
  assert (H : (3, 0, 4) <> (0, 0, 0)) by (intros K; injection K; intros; lra). split; [rewrite (orthogonal_iff_pf _ H); cbn [flat2]; lra|].
  destruct (rot_simple 3 0 4 H) as (c & s & r & L & PL & PR & RR & LL & C & S & EL & M). rewrite norm_345 in EL. rewrite EL in *. assert (R3 : r = 3) by (apply Rsqr_inj; unfold Rsqr; lra). rewrite R3 in *. rewrite M. cbn [mul3]. eexists _, _, _. split; [reflexivity|]. assert (C4 : c = 4 / 5) by lra. assert (S3 : s = 3 / 5) by lra. rewrite C4, S3. lra.
Qed.

Lemma columns p0 p1 p2 q0 q1 q2 r0 r1 r2 : p0 * p0 + p1 * p1 + p2 * p2 = 1 -> q0 * q0 + q1 * q1 + q2 * q2 = 1 -> r0 * r0 + r1 * r1 + r2 * r2 = 1 ->
  p0 * q0 + p1 * q1 + p2 * q2 = 0 -> p0 * r0 + p1 * r1 + p2 * r2 = 0 -> q0 * r0 + q1 * r1 + q2 * r2 = 0 ->
  p0 * p0 + q0 * q0 + r0 * r0 = 1 /\ p1 * p1 + q1 * q1 + r1 * r1 = 1 /\ p2 * p2 + q2 * q2 + r2 * r2 = 1 /\ p0 * p1 + q0 * q1 + r0 * r1 = 0 /\ p0 * p2 + q0 * q2 + r0 * r2 = 0 /\ p1 * p2 + q1 * q2 + r1 * r2 = 0.
Proof. intros. repeat split; nsatz. Qed.

(** coefficients *)
Theorem coefs_pf : forall M c0 cs, exists ds, rotateCoefs M (c0 :: cs) = Ok (c0 :: ds) /\ length ds = length cs /\
  (orthogonal M -> forall i j a b a' b', nth_error (c0 :: cs) i = Some a -> nth_error (c0 :: cs) j = Some b -> nth_error (c0 :: ds) i = Some a' -> nth_error (c0 :: ds) j = Some b' -> dist2 a' b' = dist2 a b).
Proof.
  intros M c0 cs. set (f := fun c : R * R * R => let '(a0, a1, a2) := c in let '(b0, b1, b2) := c0 in let '(m0, m1, m2) := mul3 M (a0 - b0, a1 - b1, a2 - b2) in (m0 + b0, m1 + b1, m2 + b2)).
  assert (F0 : f c0 = c0). { unfold f. destruct c0 as ((b0 & b1) & b2), M as ((((p0 & p1) & p2) & ((q0 & q1) & q2)) & ((r0 & r1) & r2)). cbn [mul3]. f_equal; [f_equal|]; ring. }
  exists (map f cs). split; [transitivity (Ok (f c0 :: map f cs)); [reflexivity|now rewrite F0]|]. split; [apply map_length|].
  intros O i j a b a' b' A B A' B'. assert (EA : c0 :: map f cs = map f (c0 :: cs)) by (cbn [map]; now rewrite F0). rewrite EA in A', B'. rewrite nth_error_map, A in A'. rewrite nth_error_map, B in B'. cbn [option_map] in A', B'. injection A' as <-. injection B' as <-.
  unfold f. destruct a as ((a0 & a1) & a2), b as ((b0 & b1) & b2), c0 as ((k0 & k1) & k2), M as ((((p0 & p1) & p2) & ((q0 & q1) & q2)) & ((r0 & r1) & r2)). cbn [mul3 dist2 sub3 dot3]. unfold orthogonal in O. cbn [dot3] in O. unfold dist2. cbn [sub3 dot3].
  set (u := a0 - b0). set (v := a1 - b1). set (w := a2 - b2).
  (* rows orthonormal implies columns orthonormal *)
  destruct O as (O1 & O2 & O3 & O4 & O5 & O6).
  destruct (columns _ _ _ _ _ _ _ _ _ O1 O2 O3 O4 O5 O6) as (C1 & C2 & C3 & C4 & C5 & C6). clear O1 O2 O3 O4 O5 O6.
  match goal with |- ?l = _ => replace l with (u * u * (p0 * p0 + q0 * q0 + r0 * r0) + v * v * (p1 * p1 + q1 * q1 + r1 * r1) + w * w * (p2 * p2 + q2 * q2 + r2 * r2) + 2 * u * v * (p0 * p1 + q0 * q1 + r0 * r1) + 2 * u * w * (p0 * p2 + q0 * q2 + r0 * r2) + 2 * v * w * (p1 * p2 + q1 * q2 + r1 * r2)) by (unfold u, v, w; ring) end.
  rewrite C1, C2, C3, C4, C5, C6. ring.
Qed.
