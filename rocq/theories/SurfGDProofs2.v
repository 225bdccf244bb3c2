(** Proofs for C58. *)
From Coq Require Import Lra.
From Verif Require Import Common SplineModel SplineSpec SplineProofs GluingModel GluingSpec GluingProofs SurfGDModel SurfGDSpec SurfGDProofs.
Open Scope R_scope.

Lemma double_tau b tau : double_start b -> vget (sknots b) (sdeg b + 1) = Ok tau -> vget (sknots b) (sdeg b + 2) = Ok tau.
Proof. intros (x & A & B) T. unfold vget in *. rewrite A in T. rewrite B. exact T. Qed.
Lemma tau_slope b tau : vget (sknots b) (sdeg b + 1) = Ok tau -> tknot b (sdeg b + 1) = tau.
Proof. unfold vget, tknot. destruct (nth_error (sknots b) (sdeg b + 1)) as [x|] eqn:X; [|discriminate]. intros T. injection T as <-. now apply nth_error_nth with (d := 0) in X. Qed.

(** the gluing data of the patch with the edge in direction [uv] *)
Definition aSide (c : nat -> R) (uv : nat) (s : R) : R := match uv with O => aL c s | _ => aR c s end.
Definition bSide (c : nat -> R) (uv : nat) (s : R) : R := match uv with O => bL c s | _ => bR c s end.

(** the plus functions, with any knot in the place of tau *)
Lemma plus_jet_gen : forall comp bs n sol solB bd bfID uv s tau2, open_basis (comp (1 - uv)%nat) 2 -> (1 <= sdeg (comp (1 - uv)%nat))%nat -> vget (sknots (comp (1 - uv)%nat)) (sdeg (comp (1 - uv)%nat) + 2) = Ok tau2 -> open_basis bs n -> (bfID < n)%nat ->
  exists N N', (forall s, evalSingle bs bfID s = Ok (N s)) /\ (forall s, derivSingle bs bfID s = Ok (N' s)) /\ (forall s, rderiv N s (N' s)) /\
    edge_jet (surfEdge comp bs sol solB bd true bfID uv) uv s (N s) (N' s) (if bd then 0 else - (bSide solB uv s) * N' s * (tau2 / tknot (comp (1 - uv)%nat) (sdeg (comp (1 - uv)%nat) + 1))).
Proof.
  intros comp bs n sol solB bd i uv s tau2 Ob D T2 Op L. destruct (single_ok bs n i Op L) as (N & N' & N'' & E & E' & _ & R & _). exists N, N'. split; [exact E|]. split; [exact E'|]. split; [exact R|].
  destruct (first_two _ Ob D) as (tau & n0 & n1 & T & P & PD & E0 & E1 & V0 & V1 & R0 & R1). set (b := comp (1 - uv)%nat) in *. rewrite (tau_slope _ _ T).
  set (F := fun s c => N s * (n0 c + n1 c) - (if bd then 0 else bSide solB uv s) * n1 c * N' s * tau2 / INR (sdeg b)).
  assert (EV : forall s c, surfEdge comp bs sol solB bd true i uv (near_edge uv s c) = Ok (F s c)).
  { intros s' c. unfold surfEdge. fold b. rewrite T2. cbn [bind]. rewrite row_across, row_along. rewrite E0. cbn [bind]. rewrite E1. cbn [bind]. rewrite E. cbn [bind]. rewrite E'. cbn [bind]. unfold F. f_equal. f_equal. f_equal. f_equal. f_equal. destruct bd; [reflexivity|]. f_equal. pose proof (evals_pf sol solB s') as (_ & _ & A & B). destruct uv; [exact B|exact A]. }
  exists (fun s => F s 0), (fun c => F s c). split; [intros s'; apply EV|]. split; [intros c; apply EV|]. split; [unfold F; rewrite V0, V1; unfold Rdiv; ring|]. split.
  - apply (rderiv_ext N); [|apply R]. intros y. unfold F. rewrite V0, V1. unfold Rdiv. ring.
  - eapply rderiv_eq; [eapply rderiv_ext; [|exact (rderiv_add _ _ _ _ _ (rderiv_scal (N s) _ _ _ (rderiv_add _ _ _ _ _ R0 R1)) (rderiv_scal (- ((if bd then 0 else bSide solB uv s) * N' s * tau2 / INR (sdeg b))) _ _ _ R1))]|].
    + intros y. unfold F, Rdiv. cbv beta. ring.
    + destruct bd; field; lra.
Qed.

Theorem plus_jet_pf : forall comp bs n sol solB bd bfID uv s, open_basis (comp (1 - uv)%nat) 2 -> (1 <= sdeg (comp (1 - uv)%nat))%nat -> double_start (comp (1 - uv)%nat) -> open_basis bs n -> (bfID < n)%nat ->
  exists N N', (forall s, evalSingle bs bfID s = Ok (N s)) /\ (forall s, derivSingle bs bfID s = Ok (N' s)) /\ (forall s, rderiv N s (N' s)) /\
    edge_jet (surfEdge comp bs sol solB bd true bfID uv) uv s (N s) (N' s) (if bd then 0 else - (match uv with O => bL solB s | _ => bR solB s end) * N' s).
Proof.
  intros comp bs n sol solB bd i uv s Ob D Db Op L. destruct (first_two _ Ob D) as (tau & _ & _ & T & P & _). pose proof (double_tau _ _ Db T) as T2.
  destruct (plus_jet_gen comp bs n sol solB bd i uv s tau Ob D T2 Op L) as (N & N' & E & E' & R & J). exists N, N'. split; [exact E|]. split; [exact E'|]. split; [exact R|]. rewrite (tau_slope _ _ T) in J.
  replace (if bd then 0 else - match uv with O => bL solB s | S _ => bR solB s end * N' s) with (if bd then 0 else - bSide solB uv s * N' s * (tau / tau)); [exact J|]. destruct bd; [reflexivity|]. unfold bSide. field. lra.
Qed.

Theorem minus_jet_pf : forall comp bs n sol solB bd bfID uv s, open_basis (comp (1 - uv)%nat) 2 -> (1 <= sdeg (comp (1 - uv)%nat))%nat -> double_start (comp (1 - uv)%nat) -> open_basis bs n -> (bfID < n)%nat ->
  exists N, (forall s, evalSingle bs bfID s = Ok (N s)) /\
    edge_jet (surfEdge comp bs sol solB bd false bfID uv) uv s 0 0
      ((match uv with O => - (1) | _ => 1 end) * (if bd then 1 else match uv with O => aL sol s | _ => aR sol s end) * N s * slope (comp (1 - uv)%nat)).
Proof.
  intros comp bs n sol solB bd i uv s Ob D Db Op L. destruct (single_ok bs n i Op L) as (N & N' & N'' & E & _). exists N. split; [exact E|].
  destruct (first_two _ Ob D) as (tau & n0 & n1 & T & P & PD & E0 & E1 & V0 & V1 & R0 & R1). pose proof (double_tau _ _ Db T) as T2. set (b := comp (1 - uv)%nat) in *. unfold slope. rewrite (tau_slope _ _ T).
  set (k := fun s => match uv with O => - (1) | _ => 1 end * (if bd then 1 else match uv with O => aL sol s | _ => aR sol s end) * N s).
  assert (EV : forall s c, surfEdge comp bs sol solB bd false i uv (near_edge uv s c) = Ok (k s * n1 c)).
  { intros s' c. unfold surfEdge. fold b. rewrite T2. cbn [bind]. rewrite row_across, row_along. rewrite E0. cbn [bind]. rewrite E1. cbn [bind]. rewrite E. cbn [bind]. unfold k. pose proof (evals_pf sol solB s') as (A & B & _). destruct uv, bd; f_equal; rewrite ?A, ?B; ring. }
  exists (fun s => k s * n1 0), (fun c => k s * n1 c). split; [intros s'; apply EV|]. split; [intros c; apply EV|]. split; [rewrite V1; ring|]. split.
  - apply (rderiv_ext (fun _ => 0)); [intros y; rewrite V1; ring|apply rderiv_const].
  - exact (rderiv_scal (k s) _ _ _ R1).
Qed.

(** ** What is left of the gluing condition *)
Theorem plus_defect_pf : forall compR compL bs n sol solB bfID s,
  open_basis (compR 0%nat) 2 -> (1 <= sdeg (compR 0%nat))%nat -> double_start (compR 0%nat) -> open_basis (compL 1%nat) 2 -> (1 <= sdeg (compL 1%nat))%nat -> double_start (compL 1%nat) -> open_basis bs n -> (bfID < n)%nat ->
  exists v a dR dL, edge_jet (surfEdge compR bs sol solB false true bfID 1) 1 s v a dR /\ edge_jet (surfEdge compL bs sol solB false true bfID 0) 0 s v a dL /\
    evalSingle bs bfID s = Ok v /\ derivSingle bs bfID s = Ok a /\
    aR sol s * dL + aL sol s * dR + bt sol s * a = - split_defect sol solB s * a.
Proof.
  intros cR cL bs n sol solB i s OR DR TR OL DL TL Op L. destruct (plus_jet_pf cR bs n sol solB false i 1 s OR DR TR Op L) as (N & N' & E & E' & R & JR). destruct (plus_jet_pf cL bs n sol solB false i 0 s OL DL TL Op L) as (M & M' & E2 & E2' & R2 & JL).
  assert (EQ : N s = M s) by (specialize (E s); specialize (E2 s); congruence). assert (EQ' : N' s = M' s) by (specialize (E' s); specialize (E2' s); congruence).
  exists (N s), (N' s), (- bR solB s * N' s), (- bL solB s * N' s). split; [exact JR|]. split; [rewrite EQ, EQ'; exact JL|]. split; [apply E|]. split; [apply E'|]. unfold split_defect. ring.
Qed.
Theorem minus_defect_pf : forall compR compL bs n sol solB bfID s,
  open_basis (compR 0%nat) 2 -> (1 <= sdeg (compR 0%nat))%nat -> double_start (compR 0%nat) -> open_basis (compL 1%nat) 2 -> (1 <= sdeg (compL 1%nat))%nat -> double_start (compL 1%nat) -> open_basis bs n -> (bfID < n)%nat ->
  exists m dR dL, edge_jet (surfEdge compR bs sol solB false false bfID 1) 1 s 0 0 dR /\ edge_jet (surfEdge compL bs sol solB false false bfID 0) 0 s 0 0 dL /\
    evalSingle bs bfID s = Ok m /\
    aR sol s * dL + aL sol s * dR = aR sol s * aL sol s * m * (slope (compR 0%nat) - slope (compL 1%nat)).
Proof.
  intros cR cL bs n sol solB i s OR DR TR OL DL TL Op L. destruct (minus_jet_pf cR bs n sol solB false i 1 s OR DR TR Op L) as (N & E & JR). destruct (minus_jet_pf cL bs n sol solB false i 0 s OL DL TL Op L) as (M & E2 & JL).
  assert (EQ : N s = M s) by (specialize (E s); specialize (E2 s); congruence). exists (N s). eexists _, _. split; [exact JR|]. split; [exact JL|]. split; [apply E|]. cbv beta iota. rewrite EQ. cbn [Nat.sub]. ring.
Qed.

(** ** Common gradients *)
Lemma solve_gradient u v a d : independent u v -> exists g, dot3 g u = d /\ dot3 g v = a /\ forall n, dot3 n u = 0 -> dot3 n v = 0 -> dot3 g n = 0.
Proof.
  intros ID. unfold independent in ID. set (D := dot3 u u * dot3 v v - dot3 u v * dot3 u v) in *. set (k := (d * dot3 v v - a * dot3 u v) / D). set (l := (a * dot3 u u - d * dot3 u v) / D).
  assert (B : forall n, dot3 (comb3 k u l v 0 (0, 0, 0)) n = k * dot3 n u + l * dot3 n v) by (intros n; destruct u as [[u1 u2] u3], v as [[v1 v2] v3], n as [[n1 n2] n3]; cbn; ring).
  assert (C : dot3 v u = dot3 u v) by (destruct u as [[u1 u2] u3], v as [[v1 v2] v3]; cbn; ring).
  exists (comb3 k u l v 0 (0, 0, 0)). split; [rewrite B; unfold k, l, D; field; exact ID|]. split; [rewrite B, C; unfold k, l, D; field; exact ID|]. intros n U V. rewrite B, U, V. ring.
Qed.

Lemma dot3_zero g : dot3 g (0, 0, 0) = 0. Proof. destruct g as [[a b] c]. cbn. ring. Qed.
Lemma dot3_comb g x a y b z c : dot3 g (comb3 x a y b z c) = x * dot3 g a + y * dot3 g b + z * dot3 g c.
Proof. destruct g as [[g1 g2] g3], a as [[a1 a2] a3], b as [[b1 b2] b3], c as [[c1 c2] c3]. cbn. ring. Qed.

(** jets that satisfy the gluing condition belong to one gradient *)
Lemma common_gradient jacR jacL sol s fR fL v a dR dL :
  independent (Fu (jacR (0, s))) (Fv (jacR (0, s))) -> Fu (jacL (s, 0)) = Fv (jacR (0, s)) -> aR sol s <> 0 -> aL sol s <> 0 -> defect jacR jacL sol s = (0, 0, 0) ->
  edge_jet fR 1 s v a dR -> edge_jet fL 0 s v a dL -> aR sol s * dL + aL sol s * dR + bt sol s * a = 0 ->
  exists g, smooth3 jacR 1 fR s v g /\ smooth3 jacL 0 fL s v g.
Proof.
  intros ID T NR NL Z JR JL G. destruct (solve_gradient _ _ a dR ID) as (g & GU & GV & GN). exists g. unfold defect in Z.
  assert (C : forall h, aR sol s * dot3 h (Fv (jacL (s, 0))) + aL sol s * dot3 h (Fu (jacR (0, s))) + bt sol s * dot3 h (Fv (jacR (0, s))) = 0) by (intros h; rewrite <- dot3_comb, Z; apply dot3_zero).
  split.
  - exists a, dR. split; [exact JR|]. cbn [near_edge]. split; [split; assumption|]. exact GN.
  - exists a, dL. split; [exact JL|]. cbn [near_edge]. split; [split|].
    + rewrite T. exact GV.
    + specialize (C g). rewrite GU, GV in C. apply (Rmult_eq_reg_l (aR sol s)); [lra|exact NR].
    + intros n U V. rewrite T in U. apply GN; [|exact U]. specialize (C n). rewrite U, V in C. apply (Rmult_eq_reg_l (aL sol s)); [lra|exact NL].
Qed.

Theorem plus_smooth_pf : forall jacR jacL compR compL bs n sol solB bfID s,
  open_basis (compR 0%nat) 2 -> (1 <= sdeg (compR 0%nat))%nat -> double_start (compR 0%nat) -> open_basis (compL 1%nat) 2 -> (1 <= sdeg (compL 1%nat))%nat -> double_start (compL 1%nat) -> open_basis bs n -> (bfID < n)%nat ->
  independent (Fu (jacR (0, s))) (Fv (jacR (0, s))) -> Fu (jacL (s, 0)) = Fv (jacR (0, s)) -> aR sol s <> 0 -> aL sol s <> 0 -> defect jacR jacL sol s = (0, 0, 0) -> split_defect sol solB s = 0 ->
  exists v g, evalSingle bs bfID s = Ok v /\ smooth3 jacR 1 (surfEdge compR bs sol solB false true bfID 1) s v g /\ smooth3 jacL 0 (surfEdge compL bs sol solB false true bfID 0) s v g.
Proof.
  intros jacR jacL cR cL bs n sol solB i s OR DR TR OL DL TL Op L ID T NR NL Z S. destruct (plus_defect_pf cR cL bs n sol solB i s OR DR TR OL DL TL Op L) as (v & a & dR & dL & JR & JL & E & _ & G). rewrite S in G.
  destruct (common_gradient jacR jacL sol s _ _ v a dR dL ID T NR NL Z JR JL) as (g & A & B); [lra|]. exists v, g. split; [exact E|]. split; assumption.
Qed.
Theorem minus_smooth_pf : forall jacR jacL compR compL bs n sol solB bfID s,
  open_basis (compR 0%nat) 2 -> (1 <= sdeg (compR 0%nat))%nat -> double_start (compR 0%nat) -> open_basis (compL 1%nat) 2 -> (1 <= sdeg (compL 1%nat))%nat -> double_start (compL 1%nat) -> open_basis bs n -> (bfID < n)%nat ->
  independent (Fu (jacR (0, s))) (Fv (jacR (0, s))) -> Fu (jacL (s, 0)) = Fv (jacR (0, s)) -> aR sol s <> 0 -> aL sol s <> 0 -> defect jacR jacL sol s = (0, 0, 0) -> slope (compR 0%nat) = slope (compL 1%nat) ->
  exists g, smooth3 jacR 1 (surfEdge compR bs sol solB false false bfID 1) s 0 g /\ smooth3 jacL 0 (surfEdge compL bs sol solB false false bfID 0) s 0 g.
Proof.
  intros jacR jacL cR cL bs n sol solB i s OR DR TR OL DL TL Op L ID T NR NL Z S. destruct (minus_defect_pf cR cL bs n sol solB i s OR DR TR OL DL TL Op L) as (m & dR & dL & JR & JL & E & G). rewrite S in G.
  apply (common_gradient jacR jacL sol s _ _ 0 0 dR dL ID T NR NL Z JR JL). rewrite G. ring.
Qed.

(** conversely, a common gradient satisfies the gluing condition *)
Lemma jet_unique f m s v a d v' a' d' : edge_jet f m s v a d -> edge_jet f m s v' a' d' -> v = v' /\ a = a' /\ d = d'.
Proof.
  intros (g & h & G & H & V & A & D) (g' & h' & G' & H' & V' & A' & D'). assert (EG : forall x, g x = g' x) by (intros x; specialize (G x); specialize (G' x); congruence). assert (EH : forall x, h x = h' x) by (intros x; specialize (H x); specialize (H' x); congruence).
  split; [rewrite <- V, <- V'; apply EG|]. split.
  - apply (rderiv_unique g s); [exact A|]. apply (rderiv_ext g'); [intros y; symmetry; apply EG|exact A'].
  - apply (rderiv_unique h 0); [exact D|]. apply (rderiv_ext h'); [intros y; symmetry; apply EH|exact D'].
Qed.
Lemma smooth_glues jacR jacL sol s fR fL v a dR dL vR vL g : defect jacR jacL sol s = (0, 0, 0) -> edge_jet fR 1 s v a dR -> edge_jet fL 0 s v a dL ->
  smooth3 jacR 1 fR s vR g -> smooth3 jacL 0 fL s vL g -> aR sol s * dL + aL sol s * dR + bt sol s * a = 0.
Proof.
  intros Z JR JL (a1 & d1 & J1 & ((A1 & D1) & _)) (a2 & d2 & J2 & ((A2 & D2) & _)). destruct (jet_unique _ _ _ _ _ _ _ _ _ JR J1) as (_ & -> & ->). destruct (jet_unique _ _ _ _ _ _ _ _ _ JL J2) as (_ & _ & ->).
  cbn [near_edge] in *. rewrite <- D1, <- D2, <- A1. rewrite <- dot3_comb. unfold defect in Z. rewrite Z. apply dot3_zero.
Qed.

(** ** The projection *)
Theorem projection_pf : forall n els c x, (forall k, In k (concat els) -> 0 < pw k * pmeas k) -> (forall k, In k (concat els) -> prhs k = sumTo n (fun i => pval k i * c i)) ->
  solves n (projMat els) (projRhs els) c /\
  (solves n (projMat els) (projRhs els) x -> forall k, In k (concat els) -> sumTo n (fun i => pval k i * x i) = prhs k).
Proof.
  intros n els c x P F.
  assert (SC : forall a f m, sumTo m (fun i => a * f i) = a * sumTo m f) by (clear; intros a f m; induction m as [|m IH]; cbn [sumTo]; [|rewrite IH]; ring).
  assert (SD : forall f g m, sumTo m (fun i => f i - g i) = sumTo m f - sumTo m g) by (clear; intros f g m; induction m as [|m IH]; cbn [sumTo]; [|rewrite IH]; ring).
  assert (RES : forall y d, sumTo n (fun i => d i * (sumTo n (fun j => projMat els i j * y j) - projRhs els i)) = total (fun k => pw k * pmeas k * (sumTo n (fun i => pval k i * d i) * (sumTo n (fun i => pval k i * y i) - prhs k))) (concat els)).
  { intros y d. transitivity (sumTo n (fun i => d i * (sumTo n (fun j => total (fun k => pval k i * pw k * pmeas k * pval k j) (concat els) * y j) - total (fun k => pw k * pmeas k * (pval k i * prhs k)) (concat els)))).
    - apply sumTo_ext. intros i I. f_equal. unfold projRhs. rewrite (fold_elements (fun k => pw k * pmeas k * (pval k i * prhs k))). f_equal. apply sumTo_ext. intros j J. unfold projMat. rewrite (fold_elements (fun k => pval k i * pw k * pmeas k * pval k j)). reflexivity.
    - rewrite (residual_total n (fun i j k => pval k i * pw k * pmeas k * pval k j) (fun i k => pw k * pmeas k * (pval k i * prhs k))). apply total_ext. intros k _.
      transitivity (sumTo n (fun i => pw k * pmeas k * ((sumTo n (fun j => pval k j * y j) - prhs k) * (pval k i * d i)))).
      + apply sumTo_ext. intros i I. transitivity (d i * (sumTo n (fun j => (pval k i * pw k * pmeas k) * (pval k j * y j)) - pw k * pmeas k * (pval k i * prhs k))); [do 2 f_equal; apply sumTo_ext; intros; ring|]. rewrite SC. ring.
      + rewrite (SC (pw k * pmeas k)). rewrite (SC (sumTo n (fun j => pval k j * y j) - prhs k)). ring. }
  split.
  - apply solves_residual. intros d. rewrite RES. rewrite <- (total_zero (concat els)). apply total_ext. intros k K. rewrite (F k K). ring.
  - intros H k K. pose proof (proj1 (solves_residual _ _ _ _) H (fun i => x i - c i)) as Z. rewrite RES in Z.
    assert (Z' : total (fun k => pw k * pmeas k * ((sumTo n (fun i => pval k i * x i) - prhs k) * (sumTo n (fun i => pval k i * x i) - prhs k))) (concat els) = 0).
    { rewrite <- Z. apply total_ext. intros q Q. f_equal. f_equal. rewrite (F q Q), <- SD. apply sumTo_ext. intros; ring. }
    assert (NN : forall q, In q (concat els) -> 0 <= pw q * pmeas q * ((sumTo n (fun i => pval q i * x i) - prhs q) * (sumTo n (fun i => pval q i * x i) - prhs q))).
    { intros q Q. specialize (P q Q). pose proof (Rle_0_sqr (sumTo n (fun i => pval q i * x i) - prhs q)) as S. unfold Rsqr in S. apply Rmult_le_pos; lra. }
    pose proof (total_pos_zero _ _ NN Z' k K) as E. cbv beta in E. specialize (P k K). apply Rmult_integral in E. destruct E as [E|E]; [lra|]. apply Rmult_integral in E. lra.
Qed.
