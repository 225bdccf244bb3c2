(** Proofs for C40. *)
From Coq Require Import Lra.
From Verif Require Import Common SplineModel SplineSpec SplineProofs GluingModel GluingSpec.
Open Scope R_scope.

Lemma row_along m s c : row (near_edge m s c) m = s. Proof. destruct m; reflexivity. Qed.
Lemma row_across m s c : row (near_edge m s c) (1 - m) = c. Proof. destruct m; reflexivity. Qed.
Lemma near_edge0 m s : near_edge m s 0 = edgePoint m s. Proof. destruct m; reflexivity. Qed.

(** the first two functions of the component across the edge *)
Lemma first_two b : open_basis b 2 -> (1 <= sdeg b)%nat -> exists tau n0 n1, vget (sknots b) (sdeg b + 1) = Ok tau /\ 0 < tau /\ 0 < INR (sdeg b) /\
  (forall x, evalSingle b 0 x = Ok (n0 x)) /\ (forall x, evalSingle b 1 x = Ok (n1 x)) /\ n0 0 = 1 /\ n1 0 = 0 /\ rderiv n0 0 (- (INR (sdeg b) / tau)) /\ rderiv n1 0 (INR (sdeg b) / tau).
Proof.
  intros Ob D. destruct (single_ok b 2 0 Ob ltac:(lia)) as (n0 & n0' & n0'' & E0 & E0' & _ & R0 & _). destruct (single_ok b 2 1 Ob ltac:(lia)) as (n1 & n1' & n1'' & E1 & E1' & _ & R1 & _).
  pose proof (first_value b 2 Ob 0 ltac:(lia)) as V0. pose proof (first_value b 2 Ob 1 ltac:(lia)) as V1. cbn [Nat.eqb] in V0, V1. rewrite E0 in V0. rewrite E1 in V1. injection V0 as V0. injection V1 as V1.
  pose proof (first_deriv b 2 Ob 0 D ltac:(lia)) as D0. pose proof (first_deriv b 2 Ob 1 D ltac:(lia)) as D1. rewrite E0' in D0. rewrite E1' in D1. injection D0 as D0. injection D1 as D1.
  pose proof Ob as (_ & _ & _ & (x & X & P)). exists x, n0, n1. unfold vget. rewrite X. assert (T : tknot b (sdeg b + 1)%nat = x) by (unfold tknot; now apply nth_error_nth with (d := 0) in X). rewrite T in *.
  split; [reflexivity|]. split; [exact P|]. split; [apply lt_0_INR; lia|]. split; [exact E0|]. split; [exact E1|]. split; [exact V0|]. split; [exact V1|]. split; [rewrite <- D0; apply R0|rewrite <- D1; apply R1].
Qed.

Theorem trace_jet_pf : forall comp bp n beta boundary bfID m s, open_basis (comp (1 - m)%nat) 2 -> (1 <= sdeg (comp (1 - m)%nat))%nat -> open_basis bp n -> (bfID < n)%nat ->
  exists N N', (forall s, evalSingle bp bfID s = Ok (N s)) /\ (forall s, rderiv N s (N' s)) /\
    edge_jet (traceEval comp bp beta boundary bfID m) m s (N s) (N' s) (if boundary then 0 else - beta s * N' s).
Proof.
  intros comp bp n beta bd i m s Ob D Op L. destruct (single_ok bp n i Op L) as (N & N' & N'' & E & E' & _ & R & _). exists N, N'. split; [exact E|]. split; [exact R|].
  destruct (first_two _ Ob D) as (tau & n0 & n1 & T & P & PD & E0 & E1 & V0 & V1 & R0 & R1). set (b := comp (1 - m)%nat) in *.
  set (F := fun s c => N s * (n0 c + n1 c) - (if bd then 0 else beta s) * N' s * n1 c * tau / INR (sdeg b)).
  assert (EV : forall s c, traceEval comp bp beta bd i m (near_edge m s c) = Ok (F s c)).
  { intros s' c. unfold traceEval. fold b. rewrite T. cbn [bind]. rewrite row_across, row_along. rewrite E0. cbn [bind]. rewrite E1. cbn [bind]. rewrite E. cbn [bind]. rewrite E'. cbn [bind]. reflexivity. }
  exists (fun s => F s 0), (fun c => F s c). split; [intros s'; apply EV|]. split; [intros c; apply EV|]. split; [unfold F; rewrite V0, V1; unfold Rdiv; ring|]. split.
  - apply (rderiv_ext N); [|apply R]. intros y. unfold F. rewrite V0, V1. unfold Rdiv. ring.
  - eapply rderiv_eq; [eapply rderiv_ext; [|exact (rderiv_add _ _ _ _ _ (rderiv_scal (N s) _ _ _ (rderiv_add _ _ _ _ _ R0 R1)) (rderiv_scal (- ((if bd then 0 else beta s) * N' s * tau / INR (sdeg b))) _ _ _ R1))]|].
    + intros y. unfold F, Rdiv. cbv beta. ring.
    + destruct bd; field; lra.
Qed.

Theorem normal_jet_pf : forall comp bm n alpha boundary bfID m s, open_basis (comp (1 - m)%nat) 2 -> (1 <= sdeg (comp (1 - m)%nat))%nat -> open_basis bm n -> (bfID < n)%nat ->
  exists N, (forall s, evalSingle bm bfID s = Ok (N s)) /\
    edge_jet (normalEval comp bm alpha boundary bfID m) m s 0 0
      (match m with O => - (1) | _ => 1 end * (if boundary then INR (sdeg (comp (1 - m)%nat)) / tknot (comp (1 - m)%nat) (sdeg (comp (1 - m)%nat) + 1) else alpha s) * N s).
Proof.
  intros comp bm n alpha bd i m s Ob D Op L. destruct (single_ok bm n i Op L) as (N & N' & N'' & E & _). exists N. split; [exact E|].
  destruct (first_two _ Ob D) as (tau & n0 & n1 & T & P & PD & E0 & E1 & V0 & V1 & R0 & R1). set (b := comp (1 - m)%nat) in *. set (sg := match m with O => - (1) | S _ => 1 end).
  assert (T' : tknot b (sdeg b + 1)%nat = tau) by (unfold vget in T; unfold tknot; destruct (nth_error (sknots b) (sdeg b + 1)) as [x|] eqn:X; [injection T as <-; now apply nth_error_nth with (d := 0) in X|discriminate]). rewrite T'.
  set (k := fun s => sg * (if bd then 1 else alpha s * (tau / INR (sdeg b))) * N s).
  assert (EV : forall s c, normalEval comp bm alpha bd i m (near_edge m s c) = Ok (k s * n1 c)).
  { intros s' c. unfold normalEval. fold b. rewrite T. cbn [bind]. rewrite row_across, row_along. rewrite E1. cbn [bind]. rewrite E. cbn [bind]. fold sg. unfold k. destruct bd; f_equal; [ring|]. unfold Rdiv. ring. }
  exists (fun s => k s * n1 0), (fun c => k s * n1 c). split; [intros s'; apply EV|]. split; [intros c; apply EV|]. split; [rewrite V1; ring|]. split.
  - apply (rderiv_ext (fun _ => 0)); [intros y; rewrite V1; ring|apply rderiv_const].
  - eapply rderiv_eq; [exact (rderiv_scal (k s) _ _ _ R1)|]. unfold k. destruct bd; field; lra.
Qed.

(** ** The gluing condition for any data *)
Theorem glued_pf : forall compA compB bp n betaA betaB alphaA alphaB bfID mA mB s,
  open_basis (compA (1 - mA)%nat) 2 -> open_basis (compB (1 - mB)%nat) 2 -> (1 <= sdeg (compA (1 - mA)%nat))%nat -> (1 <= sdeg (compB (1 - mB)%nat))%nat -> open_basis bp n -> (bfID < n)%nat ->
  exists v a dA dB, edge_jet (traceEval compA bp betaA false bfID mA) mA s v a dA /\ edge_jet (traceEval compB bp betaB false bfID mB) mB s v a dB /\
    alphaB * dA + alphaA * dB + (alphaA * betaB s + alphaB * betaA s) * a = 0.
Proof.
  intros cA cB bp n bA bB aA aB i mA mB s OA OB DA DB Op L. destruct (trace_jet_pf cA bp n bA false i mA s OA DA Op L) as (N & N' & E & R & JA). destruct (trace_jet_pf cB bp n bB false i mB s OB DB Op L) as (M & M' & E2 & R2 & JB).
  assert (EQ : forall x, N x = M x) by (intros x; specialize (E x); specialize (E2 x); congruence). assert (EQ' : N' s = M' s) by (apply (rderiv_unique N s); [apply R|apply (rderiv_ext M); [intros y; symmetry; apply EQ|apply R2]]).
  exists (N s), (N' s), (- bA s * N' s), (- bB s * N' s). split; [exact JA|]. split; [rewrite EQ, EQ'; exact JB|]. ring.
Qed.
Theorem glued_normal_pf : forall compA compB bm n alphaA alphaB bfID s,
  open_basis (compA 0%nat) 2 -> open_basis (compB 1%nat) 2 -> (1 <= sdeg (compA 0%nat))%nat -> (1 <= sdeg (compB 1%nat))%nat -> open_basis bm n -> (bfID < n)%nat ->
  exists dA dB, edge_jet (normalEval compA bm alphaA false bfID 1) 1 s 0 0 dA /\ edge_jet (normalEval compB bm alphaB false bfID 0) 0 s 0 0 dB /\
    alphaB s * dA + alphaA s * dB = 0.
Proof.
  intros cA cB bm n aA aB i s OA OB DA DB Op L. destruct (normal_jet_pf cA bm n aA false i 1 s OA DA Op L) as (N & E & JA). destruct (normal_jet_pf cB bm n aB false i 0 s OB DB Op L) as (M & E2 & JB).
  assert (EQ : N s = M s) by (specialize (E s); specialize (E2 s); congruence). eexists _, _. split; [exact JA|]. split; [exact JB|]. cbv beta iota. rewrite EQ. ring.
Qed.

(** ** Planar geometries *)
Lemma sqrt_inv a : 0 < a -> 1 / sqrt a * (1 / sqrt a) = / a.
Proof. intros H. pose proof (sqrt_lt_R0 a H). unfold Rdiv. rewrite !Rmult_1_l, <- Rinv_mult. rewrite sqrt_sqrt by lra. reflexivity. Qed.

Definition sq2 (t : R * R) : R := fst t * fst t + snd t * snd t.
Lemma sq2_pos t : t <> (0, 0) -> 0 < sq2 t.
Proof.
  intros H. unfold sq2. destruct t as (a & b). cbn [fst snd]. destruct (Req_dec a 0) as [->|A]; [destruct (Req_dec b 0) as [->|B]; [contradiction|]|].
  - pose proof (Rsqr_pos_lt b B) as Q. unfold Rsqr in Q. lra.
  - pose proof (Rsqr_pos_lt a A) as Q. pose proof (Rle_0_sqr b) as Q'. unfold Rsqr in *. lra.
Qed.

Theorem planar_trace_one : forall jac comp bp n bfID m s, open_basis (comp (1 - m)%nat) 2 -> (1 <= sdeg (comp (1 - m)%nat))%nat -> open_basis bp n -> (bfID < n)%nat ->
  let t := tangent2 (jac (near_edge m s 0)) m in t <> (0, 0) -> exists N N', (forall s, evalSingle bp bfID s = Ok (N s)) /\ (forall s, rderiv N s (N' s)) /\
  smooth2 jac m (traceEval comp bp (betaPlanar jac m) false bfID m) s (N s) (N' s / sq2 t * fst t, N' s / sq2 t * snd t).
Proof.
  intros jac comp bp n i m s Ob D Op L t T. destruct (trace_jet_pf comp bp n (betaPlanar jac m) false i m s Ob D Op L) as (N & N' & E & R & J). exists N, N'. split; [exact E|]. split; [exact R|].
  exists (N' s), (- betaPlanar jac m s * N' s). split; [exact J|]. apply sq2_pos in T. unfold t in *. clear t. unfold gradient2, betaPlanar. rewrite near_edge0 in *. set (K := jac (edgePoint m s)) in *. destruct m as [|m]; cbn [tangent2 fst snd] in *; unfold sq2 in *; cbn [fst snd] in *.
  - set (q := xu K * xu K + yu K * yu K) in *. split; [unfold Rdiv; replace (N' s * / q * xu K * xu K + N' s * / q * yu K * yu K) with (N' s * (q * / q)) by (unfold q; ring); rewrite Rinv_r by lra; ring|].
    match goal with |- _ = ?r => replace r with ((1 / sqrt q * (1 / sqrt q)) * (xv K * xu K + yv K * yu K) * N' s) by ring end. rewrite sqrt_inv by exact T. unfold Rdiv. ring.
  - set (q := xv K * xv K + yv K * yv K) in *. split; [unfold Rdiv; replace (N' s * / q * xv K * xv K + N' s * / q * yv K * yv K) with (N' s * (q * / q)) by (unfold q; ring); rewrite Rinv_r by lra; ring|].
    match goal with |- _ = ?r => replace r with ((1 / sqrt q * (1 / sqrt q)) * (xv K * xu K + yv K * yu K) * N' s) by ring end. rewrite sqrt_inv by exact T. unfold Rdiv. ring.
Qed.
Theorem planar_normal_one : forall jac comp bm n bfID m s, open_basis (comp (1 - m)%nat) 2 -> (1 <= sdeg (comp (1 - m)%nat))%nat -> open_basis bm n -> (bfID < n)%nat ->
  let t := tangent2 (jac (near_edge m s 0)) m in exists N, (forall s, evalSingle bm bfID s = Ok (N s)) /\
  smooth2 jac m (normalEval comp bm (alphaPlanar jac m) false bfID m) s 0 (N s * snd t, - (N s * fst t)).
Proof.
  intros jac comp bm n i m s Ob D Op L t. destruct (normal_jet_pf comp bm n (alphaPlanar jac m) false i m s Ob D Op L) as (N & E & J). exists N. split; [exact E|]. eexists _, _. split; [exact J|].
  unfold t. clear t. unfold gradient2, alphaPlanar. rewrite near_edge0 in *. set (K := jac (edgePoint m s)) in *. destruct m as [|m]; cbn [tangent2 fst snd]; split; ring.
Qed.

Theorem planar_trace_pf : forall jacA jacB compA compB bp n bfID mA mB s,
  open_basis (compA (1 - mA)%nat) 2 -> open_basis (compB (1 - mB)%nat) 2 -> (1 <= sdeg (compA (1 - mA)%nat))%nat -> (1 <= sdeg (compB (1 - mB)%nat))%nat -> open_basis bp n -> (bfID < n)%nat ->
  tangent2 (jacA (near_edge mA s 0)) mA = tangent2 (jacB (near_edge mB s 0)) mB -> tangent2 (jacA (near_edge mA s 0)) mA <> (0, 0) ->
  exists v g, smooth2 jacA mA (traceEval compA bp (betaPlanar jacA mA) false bfID mA) s v g /\
              smooth2 jacB mB (traceEval compB bp (betaPlanar jacB mB) false bfID mB) s v g.
Proof.
  intros jA jB cA cB bp n i mA mB s OA OB DA DB Op L T NZ. destruct (planar_trace_one jA cA bp n i mA s OA DA Op L NZ) as (N & N' & E & R & SA). rewrite T in NZ. destruct (planar_trace_one jB cB bp n i mB s OB DB Op L NZ) as (M & M' & E2 & R2 & SB).
  assert (EQ : forall x, N x = M x) by (intros x; specialize (E x); specialize (E2 x); congruence). assert (EQ' : N' s = M' s) by (apply (rderiv_unique N s); [apply R|apply (rderiv_ext M); [intros y; symmetry; apply EQ|apply R2]]).
  eexists _, _. split; [exact SA|]. rewrite T, EQ, EQ'. exact SB.
Qed.
Theorem planar_normal_pf : forall jacA jacB compA compB bm n bfID mA mB s,
  open_basis (compA (1 - mA)%nat) 2 -> open_basis (compB (1 - mB)%nat) 2 -> (1 <= sdeg (compA (1 - mA)%nat))%nat -> (1 <= sdeg (compB (1 - mB)%nat))%nat -> open_basis bm n -> (bfID < n)%nat ->
  tangent2 (jacA (near_edge mA s 0)) mA = tangent2 (jacB (near_edge mB s 0)) mB ->
  exists g, smooth2 jacA mA (normalEval compA bm (alphaPlanar jacA mA) false bfID mA) s 0 g /\
            smooth2 jacB mB (normalEval compB bm (alphaPlanar jacB mB) false bfID mB) s 0 g.
Proof.
  intros jA jB cA cB bm n i mA mB s OA OB DA DB Op L T. destruct (planar_normal_one jA cA bm n i mA s OA DA Op L) as (N & E & SA). destruct (planar_normal_one jB cB bm n i mB s OB DB Op L) as (M & E2 & SB).
  assert (EQ : N s = M s) by (specialize (E s); specialize (E2 s); congruence). eexists. split; [exact SA|]. rewrite T, EQ. exact SB.
Qed.

(** the gradient is determined where the geometry is regular *)
Theorem gradient_unique_pf : forall J m a d g h, xu J * yv J - xv J * yu J <> 0 -> gradient2 J m a d g -> gradient2 J m a d h -> g = h.
Proof.
  intros J m a d (g1 & g2) (h1 & h2) D G H. assert (E : (g1 - h1) * xu J + (g2 - h2) * yu J = 0 /\ (g1 - h1) * xv J + (g2 - h2) * yv J = 0).
  { destruct m; cbn [gradient2 fst snd] in G, H; destruct G, H; lra. }
  destruct E as (A & B). assert (X : (g1 - h1) * (xu J * yv J - xv J * yu J) = 0) by (replace ((g1 - h1) * (xu J * yv J - xv J * yu J)) with (((g1 - h1) * xu J + (g2 - h2) * yu J) * yv J - ((g1 - h1) * xv J + (g2 - h2) * yv J) * yu J) by ring; rewrite A, B; ring).
  assert (Y : (g2 - h2) * (xu J * yv J - xv J * yu J) = 0) by (replace ((g2 - h2) * (xu J * yv J - xv J * yu J)) with (((g1 - h1) * xv J + (g2 - h2) * yv J) * xu J - ((g1 - h1) * xu J + (g2 - h2) * yu J) * xv J) by ring; rewrite A, B; ring).
  apply Rmult_integral in X, Y. f_equal; [destruct X; [lra|contradiction]|destruct Y; [lra|contradiction]].
Qed.

(** ** Surfaces *)
Lemma dot3_pos t : t <> (0, 0, 0) -> 0 < dot3 t t.
Proof.
  intros H. destruct t as ((a & b) & c). cbn [dot3]. pose proof (Rle_0_sqr a) as A. pose proof (Rle_0_sqr b) as B. pose proof (Rle_0_sqr c) as C. unfold Rsqr in *.
  destruct (Req_dec a 0) as [->|N]; [|pose proof (Rsqr_pos_lt a N) as Q; unfold Rsqr in Q; lra]. destruct (Req_dec b 0) as [->|N]; [|pose proof (Rsqr_pos_lt b N) as Q; unfold Rsqr in Q; lra].
  destruct (Req_dec c 0) as [->|N]; [contradiction|pose proof (Rsqr_pos_lt c N) as Q; unfold Rsqr in Q; lra].
Qed.
Definition scal3 (k : R) (a : R * R * R) : R * R * R := let '(x, y, z) := a in (k * x, k * y, k * z).
Definition cross3 (a b : R * R * R) : R * R * R := let '(a1, a2, a3) := a in let '(b1, b2, b3) := b in (a2 * b3 - a3 * b2, a3 * b1 - a1 * b3, a1 * b2 - a2 * b1).

Lemma span_perp u v n k l : dot3 n u = 0 -> dot3 n v = 0 -> (let '(u1, u2, u3) := u in let '(v1, v2, v3) := v in dot3 (k * u1 + l * v1, k * u2 + l * v2, k * u3 + l * v3) n = 0).
Proof. destruct u as ((u1 & u2) & u3), v as ((v1 & v2) & v3), n as ((n1 & n2) & n3). cbn [dot3]. intros A B. replace ((k * u1 + l * v1) * n1 + (k * u2 + l * v2) * n2 + (k * u3 + l * v3) * n3) with (k * (n1 * u1 + n2 * u2 + n3 * u3) + l * (n1 * v1 + n2 * v2 + n3 * v3)) by ring. rewrite A, B. ring. Qed.

Theorem surface_trace_one : forall jac comp bp n bfID m s, open_basis (comp (1 - m)%nat) 2 -> (1 <= sdeg (comp (1 - m)%nat))%nat -> open_basis bp n -> (bfID < n)%nat ->
  let t := tangent3 (jac (near_edge m s 0)) m in t <> (0, 0, 0) -> exists N N', (forall s, evalSingle bp bfID s = Ok (N s)) /\ (forall s, rderiv N s (N' s)) /\
  smooth3 jac m (traceEval comp bp (betaSurface jac m) false bfID m) s (N s) (scal3 (N' s / dot3 t t) t).
Proof.
  intros jac comp bp n i m s Ob D Op L t T. destruct (trace_jet_pf comp bp n (betaSurface jac m) false i m s Ob D Op L) as (N & N' & E & R & J). exists N, N'. split; [exact E|]. split; [exact R|].
  exists (N' s), (- betaSurface jac m s * N' s). split; [exact J|]. apply dot3_pos in T. unfold t in *. clear t. unfold gradient3, betaSurface. rewrite near_edge0 in *. set (K := jac (edgePoint m s)) in *. destruct m as [|m]; cbn [tangent3] in *; unfold Fu, Fv in *; cbn [dot3 scal3 norm3] in *.
  - set (q := Xu K * Xu K + Yu K * Yu K + Zu K * Zu K) in *. split; [split|].
    + unfold Rdiv. match goal with |- ?l = _ => replace l with (N' s * (q * / q)) by (unfold q; ring) end. rewrite Rinv_r by lra; ring.
    + match goal with |- _ = ?r => replace r with ((1 / sqrt q * (1 / sqrt q)) * (Xv K * Xu K + Yv K * Yu K + Zv K * Zu K) * N' s) by ring end. rewrite sqrt_inv by exact T. unfold Rdiv. ring.
    + intros ((n1 & n2) & n3) A B. cbn [dot3] in *. match goal with |- ?l = _ => replace l with (N' s / q * (n1 * Xu K + n2 * Yu K + n3 * Zu K)) by ring end. rewrite A. ring.
  - set (q := Xv K * Xv K + Yv K * Yv K + Zv K * Zv K) in *. split; [split|].
    + unfold Rdiv. match goal with |- ?l = _ => replace l with (N' s * (q * / q)) by (unfold q; ring) end. rewrite Rinv_r by lra; ring.
    + match goal with |- _ = ?r => replace r with ((1 / sqrt q * (1 / sqrt q)) * (Xv K * Xu K + Yv K * Yu K + Zv K * Zu K) * N' s) by ring end. rewrite sqrt_inv by exact T. unfold Rdiv. ring.
    + intros ((n1 & n2) & n3) A B. cbn [dot3] in *. match goal with |- ?l = _ => replace l with (N' s / q * (n1 * Xv K + n2 * Yv K + n3 * Zv K)) by ring end. rewrite B. ring.
Qed.

(** N = |N| n *)
Lemma normal_unit J n : unit_normal J n -> exists k, 0 < k /\ normalN J = scal3 k n /\ k = dot3 (normalN J) n /\ sqrt (det3 (Fu J) (Fv J) (normalN J)) = k.
Proof.
  intros (A & B & C & D). destruct n as ((n1 & n2) & n3). unfold Fu, Fv, normalN in *. cbn [dot3 det3 scal3] in *.
  set (N1 := Yu J * Zv J - Zu J * Yv J). set (N2 := Zu J * Xv J - Xu J * Zv J). set (N3 := Xu J * Yv J - Yu J * Xv J). set (k := N1 * n1 + N2 * n2 + N3 * n3).
  assert (K : k = Xu J * (Yv J * n3 - Zv J * n2) - Xv J * (Yu J * n3 - Zu J * n2) + n1 * (Yu J * Zv J - Zu J * Yv J)) by (unfold k, N1, N2, N3; ring).
  assert (P : 0 < k) by (rewrite K; exact D). clear D K.
  (* N x n = 0 *)
  assert (X1 : N2 * n3 - N3 * n2 = 0).
  { replace (N2 * n3 - N3 * n2) with (Xv J * (n1 * Xu J + n2 * Yu J + n3 * Zu J) - Xu J * (n1 * Xv J + n2 * Yv J + n3 * Zv J)) by (unfold N2, N3; ring). rewrite A, B. ring. }
  assert (X2 : N3 * n1 - N1 * n3 = 0).
  { replace (N3 * n1 - N1 * n3) with (Yv J * (n1 * Xu J + n2 * Yu J + n3 * Zu J) - Yu J * (n1 * Xv J + n2 * Yv J + n3 * Zv J)) by (unfold N1, N3; ring). rewrite A, B. ring. }
  assert (X3 : N1 * n2 - N2 * n1 = 0).
  { replace (N1 * n2 - N2 * n1) with (Zv J * (n1 * Xu J + n2 * Yu J + n3 * Zu J) - Zu J * (n1 * Xv J + n2 * Yv J + n3 * Zv J)) by (unfold N1, N2; ring). rewrite A, B. ring. }
  assert (E1 : N1 = k * n1). { unfold k. replace (N1) with (N1 * (n1 * n1 + n2 * n2 + n3 * n3)) at 1 by (rewrite C; ring). replace (N1 * (n1 * n1 + n2 * n2 + n3 * n3)) with ((N1 * n1 + N2 * n2 + N3 * n3) * n1 + (N1 * n2 - N2 * n1) * n2 - (N3 * n1 - N1 * n3) * n3) by ring. rewrite X2, X3. ring. }
  assert (E2 : N2 = k * n2). { unfold k. replace (N2) with (N2 * (n1 * n1 + n2 * n2 + n3 * n3)) at 1 by (rewrite C; ring). replace (N2 * (n1 * n1 + n2 * n2 + n3 * n3)) with ((N1 * n1 + N2 * n2 + N3 * n3) * n2 - (N1 * n2 - N2 * n1) * n1 + (N2 * n3 - N3 * n2) * n3) by ring. rewrite X1, X3. ring. }
  assert (E3 : N3 = k * n3). { unfold k. replace (N3) with (N3 * (n1 * n1 + n2 * n2 + n3 * n3)) at 1 by (rewrite C; ring). replace (N3 * (n1 * n1 + n2 * n2 + n3 * n3)) with ((N1 * n1 + N2 * n2 + N3 * n3) * n3 + (N3 * n1 - N1 * n3) * n1 - (N2 * n3 - N3 * n2) * n2) by ring. rewrite X1, X2. ring. }
  exists k. split; [exact P|]. split; [rewrite E1, E2, E3 at 1; reflexivity|]. split; [reflexivity|].
  assert (SQ : N1 * N1 + N2 * N2 + N3 * N3 = k * k). { rewrite E1, E2, E3. replace (k * n1 * (k * n1) + k * n2 * (k * n2) + k * n3 * (k * n3)) with (k * k * (n1 * n1 + n2 * n2 + n3 * n3)) by ring. rewrite C. ring. }
  match goal with |- sqrt ?x = _ => replace x with (k * k) end; [apply sqrt_square; lra|]. rewrite <- SQ. unfold N1, N2, N3. ring.
Qed.

Lemma conormal_perp J n t k : unit_normal J n -> (t = Fu J \/ t = Fv J) -> forall n', dot3 n' (Fu J) = 0 -> dot3 n' (Fv J) = 0 -> dot3 (scal3 k (cross3 n t)) n' = 0.
Proof.
  intros U T n' A B. destruct (normal_unit J n U) as (l & P & E & _). assert (Z : l * dot3 (scal3 k (cross3 n t)) n' = 0).
  { destruct n as ((n1 & n2) & n3), n' as ((m1 & m2) & m3), t as ((t1 & t2) & t3). cbn [scal3 cross3 dot3] in *. unfold normalN in E. injection E as E1 E2 E3. unfold Fu, Fv in *. cbn [dot3] in *.
    replace (l * (k * (n2 * t3 - n3 * t2) * m1 + k * (n3 * t1 - n1 * t3) * m2 + k * (n1 * t2 - n2 * t1) * m3)) with (k * (((l * n2) * t3 - (l * n3) * t2) * m1 + ((l * n3) * t1 - (l * n1) * t3) * m2 + ((l * n1) * t2 - (l * n2) * t1) * m3)) by ring.
    rewrite <- E1, <- E2, <- E3.
    match goal with |- ?l = _ => replace l with (k * (- (t1 * Xv J + t2 * Yv J + t3 * Zv J) * (m1 * Xu J + m2 * Yu J + m3 * Zu J) + (t1 * Xu J + t2 * Yu J + t3 * Zu J) * (m1 * Xv J + m2 * Yv J + m3 * Zv J))) by ring end. rewrite A, B. ring. }
  apply Rmult_integral in Z. destruct Z as [Z|Z]; [lra|exact Z].
Qed.

Theorem surface_normal_one : forall jac comp bm n bfID m s nu, open_basis (comp (1 - m)%nat) 2 -> (1 <= sdeg (comp (1 - m)%nat))%nat -> open_basis bm n -> (bfID < n)%nat ->
  let t := tangent3 (jac (near_edge m s 0)) m in t <> (0, 0, 0) -> unit_normal (jac (near_edge m s 0)) nu -> exists N, (forall s, evalSingle bm bfID s = Ok (N s)) /\
  smooth3 jac m (normalEval comp bm (alphaSurface jac m) false bfID m) s 0 (scal3 (- N s / norm3 t) (cross3 nu t)).
Proof.
  intros jac comp bm n i m s nu Ob D Op L t T U. destruct (normal_jet_pf comp bm n (alphaSurface jac m) false i m s Ob D Op L) as (N & E & J). exists N. split; [exact E|]. eexists _, _. split; [exact J|].
  apply dot3_pos in T. unfold t in *. clear t. unfold gradient3, alphaSurface. rewrite near_edge0 in *. set (K := jac (edgePoint m s)) in *. split; [|apply (conormal_perp K nu _ _ U); destruct m; tauto].
  destruct (normal_unit K nu U) as (k & P & _ & KD & SQ). unfold Fu, Fv in *. destruct nu as ((n1 & n2) & n3). unfold normalN in KD. cbn [dot3] in KD. destruct m as [|m]; cbn [tangent3]; rewrite SQ; unfold Fu, Fv; cbn [dot3 scal3 cross3]; split; [unfold Rdiv; ring|rewrite KD; unfold Rdiv; ring|unfold Rdiv; ring|rewrite KD; unfold Rdiv; ring].
Qed.

Theorem surface_trace_pf : forall jacA jacB compA compB bp n bfID mA mB s,
  open_basis (compA (1 - mA)%nat) 2 -> open_basis (compB (1 - mB)%nat) 2 -> (1 <= sdeg (compA (1 - mA)%nat))%nat -> (1 <= sdeg (compB (1 - mB)%nat))%nat -> open_basis bp n -> (bfID < n)%nat ->
  tangent3 (jacA (near_edge mA s 0)) mA = tangent3 (jacB (near_edge mB s 0)) mB -> tangent3 (jacA (near_edge mA s 0)) mA <> (0, 0, 0) ->
  exists v g, smooth3 jacA mA (traceEval compA bp (betaSurface jacA mA) false bfID mA) s v g /\
              smooth3 jacB mB (traceEval compB bp (betaSurface jacB mB) false bfID mB) s v g.
Proof.
  intros jA jB cA cB bp n i mA mB s OA OB DA DB Op L T NZ. destruct (surface_trace_one jA cA bp n i mA s OA DA Op L NZ) as (N & N' & E & R & SA). rewrite T in NZ. destruct (surface_trace_one jB cB bp n i mB s OB DB Op L NZ) as (M & M' & E2 & R2 & SB).
  assert (EQ : forall x, N x = M x) by (intros x; specialize (E x); specialize (E2 x); congruence). assert (EQ' : N' s = M' s) by (apply (rderiv_unique N s); [apply R|apply (rderiv_ext M); [intros y; symmetry; apply EQ|apply R2]]).
  eexists _, _. split; [exact SA|]. rewrite T, EQ, EQ'. exact SB.
Qed.
Theorem surface_normal_pf : forall jacA jacB compA compB bm n bfID mA mB s nu,
  open_basis (compA (1 - mA)%nat) 2 -> open_basis (compB (1 - mB)%nat) 2 -> (1 <= sdeg (compA (1 - mA)%nat))%nat -> (1 <= sdeg (compB (1 - mB)%nat))%nat -> open_basis bm n -> (bfID < n)%nat ->
  tangent3 (jacA (near_edge mA s 0)) mA = tangent3 (jacB (near_edge mB s 0)) mB -> tangent3 (jacA (near_edge mA s 0)) mA <> (0, 0, 0) ->
  unit_normal (jacA (near_edge mA s 0)) nu -> unit_normal (jacB (near_edge mB s 0)) nu ->
  exists g, smooth3 jacA mA (normalEval compA bm (alphaSurface jacA mA) false bfID mA) s 0 g /\
            smooth3 jacB mB (normalEval compB bm (alphaSurface jacB mB) false bfID mB) s 0 g.
Proof.
  intros jA jB cA cB bm n i mA mB s nu OA OB DA DB Op L T NZ UA UB. destruct (surface_normal_one jA cA bm n i mA s nu OA DA Op L NZ UA) as (N & E & SA). rewrite T in NZ. destruct (surface_normal_one jB cB bm n i mB s nu OB DB Op L NZ UB) as (M & E2 & SB).
  assert (EQ : N s = M s) by (specialize (E s); specialize (E2 s); congruence). eexists. split; [exact SA|]. rewrite T, EQ. exact SB.
Qed.
