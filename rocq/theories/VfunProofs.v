(** Proofs for C54. *)
From Coq Require Import Lra.
From Verif Require Import Common SplineModel SplineSpec SplineProofs GluingModel GluingSpec GluingProofs VfunModel VfunSpec.
Open Scope R_scope.

(** ** One direction *)
Lemma first_three bp : open_basis bp 3 -> (2 <= sdeg bp)%nat -> exists (n n' n'' : nat -> R -> R) tau tau2,
  (forall k x, (k < 3)%nat -> evalSingle bp k x = Ok (n k x) /\ derivSingle bp k x = Ok (n' k x) /\ deriv2Single bp k x = Ok (n'' k x)) /\
  (forall k x, (k < 3)%nat -> rderiv (n k) x (n' k x) /\ rderiv (n' k) x (n'' k x)) /\ 0 < tau /\ 0 < tau2 /\
  n 0%nat 0 = 1 /\ n 1%nat 0 = 0 /\ n 2%nat 0 = 0 /\ n' 0%nat 0 = - (INR (sdeg bp) / tau) /\ n' 1%nat 0 = INR (sdeg bp) / tau /\ n' 2%nat 0 = 0 /\
  n'' 0%nat 0 = INR (sdeg bp) * INR (sdeg bp - 1) * / (tau * tau) /\ n'' 1%nat 0 = INR (sdeg bp) * INR (sdeg bp - 1) * (- / (tau * tau) - / (tau * tau2)) /\
  n'' 2%nat 0 = INR (sdeg bp) * INR (sdeg bp - 1) * / (tau * tau2).
Proof.
  intros Ob D. destruct (single_ok bp 3 0 Ob ltac:(lia)) as (f0 & f0' & f0'' & A0 & B0 & C0 & R0 & S0). destruct (single_ok bp 3 1 Ob ltac:(lia)) as (f1 & f1' & f1'' & A1 & B1 & C1 & R1 & S1).
  destruct (single_ok bp 3 2 Ob ltac:(lia)) as (f2 & f2' & f2'' & A2 & B2 & C2 & R2 & S2). destruct (first_deriv2 bp 3 Ob D ltac:(lia)) as (tau2 & LT & E2). destruct (open_knots bp 3 Ob) as (_ & P).
  exists (fun k => match k with O => f0 | 1%nat => f1 | _ => f2 end), (fun k => match k with O => f0' | 1%nat => f1' | _ => f2' end), (fun k => match k with O => f0'' | 1%nat => f1'' | _ => f2'' end), (tknot bp (sdeg bp + 1)%nat), tau2.
  split; [intros k x L; destruct k as [|[|[|k]]]; [auto..|lia]|]. split; [intros k x L; destruct k as [|[|[|k]]]; [auto..|lia]|].
  split; [exact P|]. split; [eapply Rlt_le_trans; [exact P|exact LT]|].
  pose proof (first_value bp 3 Ob 0 ltac:(lia)) as V0. pose proof (first_value bp 3 Ob 1 ltac:(lia)) as V1. pose proof (first_value bp 3 Ob 2 ltac:(lia)) as V2. rewrite A0 in V0. rewrite A1 in V1. rewrite A2 in V2. cbn [Nat.eqb] in *.
  pose proof (first_deriv bp 3 Ob 0 ltac:(lia) ltac:(lia)) as D0. pose proof (first_deriv bp 3 Ob 1 ltac:(lia) ltac:(lia)) as D1. pose proof (first_deriv bp 3 Ob 2 ltac:(lia) ltac:(lia)) as D2. rewrite B0 in D0. rewrite B1 in D1. rewrite B2 in D2.
  pose proof (E2 0%nat ltac:(lia)) as W0. pose proof (E2 1%nat ltac:(lia)) as W1. pose proof (E2 2%nat ltac:(lia)) as W2. rewrite C0 in W0. rewrite C1 in W1. rewrite C2 in W2. cbv beta iota in *.
  repeat split; congruence.
Qed.

Lemma rderiv_comb2 f g x a b k l : rderiv f x a -> rderiv g x b -> rderiv (fun y => k * f y + l * g y) x (k * a + l * b).
Proof. intros A B. apply (rderiv_add (fun y => k * f y) (fun y => l * g y)); now apply rderiv_scal. Qed.
Lemma rderiv_comb3 f g h x a b c k l m : rderiv f x a -> rderiv g x b -> rderiv h x c -> rderiv (fun y => k * f y + l * g y + m * h y) x (k * a + l * b + m * c).
Proof. intros A B C. apply (rderiv_add (fun y => k * f y + l * g y) (fun y => m * h y)); [now apply rderiv_comb2|now apply rderiv_scal]. Qed.
Lemma rderiv_comb3' f g h k l m x a b c d : rderiv f x a -> rderiv g x b -> rderiv h x c -> k * a + l * b + m * c = d -> rderiv (fun y => k * f y + l * g y + m * h y) x d.
Proof. intros A B C <-. now apply rderiv_comb3. Qed.
Lemma rderiv_comb2' f g k l x a b d : rderiv f x a -> rderiv g x b -> k * a + l * b = d -> rderiv (fun y => k * f y + l * g y) x d.
Proof. intros A B <-. now apply rderiv_comb2. Qed.

(** the functions c, c+, c- in one direction *)
Record dirOK (b bp bm : sbasis) (c0 c1 p0 p1 p2 q0 q1 q2 m0 m1 : R -> R) : Prop := {
  dE : forall x, evalC b bp bm x = Ok (mkC (c0 x) (c1 x) (p0 x) (p1 x) (p2 x) (q0 x) (q1 x) (q2 x) (m0 x) (m1 x));
  dc : c0 0 = 1 /\ c1 0 = 0 /\ rderiv c0 0 0 /\ rderiv c1 0 1;
  dp : forall x, rderiv p0 x (q0 x) /\ rderiv p1 x (q1 x) /\ rderiv p2 x (q2 x);
  dp0 : p0 0 = 1 /\ p1 0 = 0 /\ p2 0 = 0 /\ q0 0 = 0 /\ q1 0 = 1 /\ q2 0 = 0 /\ rderiv q0 0 0 /\ rderiv q1 0 0 /\ rderiv q2 0 1;
  dm : m0 0 = 1 /\ m1 0 = 0 /\ rderiv m0 0 0 /\ rderiv m1 0 1;
  dF : forall k l m, first_functions bp 2 (fun s => k * p0 s + l * p1 s + m * p2 s);
  dG : forall k l, first_functions bm 1 (fun s => k * m0 s + l * m1 s) }.

Lemma evalC_ok b bp bm : open_basis b 2 -> (1 <= sdeg b)%nat -> open_basis bp 3 -> (2 <= sdeg bp)%nat -> open_basis bm 2 -> (1 <= sdeg bm)%nat ->
  exists c0 c1 p0 p1 p2 q0 q1 q2 m0 m1, dirOK b bp bm c0 c1 p0 p1 p2 q0 q1 q2 m0 m1.
Proof.
  intros Ob Db Op Dp Om Dm. destruct (first_two b Ob Db) as (tb & b0 & b1 & _ & Pb & PDb & E0 & E1 & V0 & V1 & R0 & R1). destruct (first_two bm Om Dm) as (tm & n0 & n1 & _ & Pm & PDm & F0 & F1 & W0 & W1 & S0 & S1).
  destruct (first_three bp Op Dp) as (n & n' & n'' & tau & tau2 & E & RR & PT & PT2 & A0 & A1 & A2 & B0 & B1 & B2 & C0 & C1 & C2).
  assert (Eb : derivSingle b 1 0 = Ok (INR (sdeg b) / tb)). { destruct (single_ok b 2 1 Ob ltac:(lia)) as (f & f' & f'' & G1 & G2 & _ & G3 & _). rewrite G2. f_equal. apply (rderiv_unique f 0); [apply G3|]. apply (rderiv_ext b1); [|exact R1]. intros y. specialize (E1 y). specialize (G1 y). congruence. }
  assert (Em : derivSingle bm 1 0 = Ok (INR (sdeg bm) / tm)). { destruct (single_ok bm 2 1 Om ltac:(lia)) as (f & f' & f'' & G1 & G2 & _ & G3 & _). rewrite G2. f_equal. apply (rderiv_unique f 0); [apply G3|]. apply (rderiv_ext n1); [|exact S1]. intros y. specialize (F1 y). specialize (G1 y). congruence. }
  set (db := INR (sdeg b)) in *. set (dm := INR (sdeg bm)) in *. set (d := INR (sdeg bp)) in *. assert (Pd : 0 < d) by (apply lt_0_INR; lia). set (e := INR (sdeg bp - 1)) in *. assert (Pe : 0 < e) by (apply lt_0_INR; lia).
  clearbody db dm d e. assert (N1 : d / tau <> 0) by (apply Rgt_not_eq; apply Rdiv_lt_0_compat; lra). assert (N2 : d * e * / (tau * tau2) <> 0) by (apply Rgt_not_eq; apply Rmult_lt_0_compat; [apply Rmult_lt_0_compat; lra|apply Rinv_0_lt_compat; apply Rmult_lt_0_compat; lra]).
  set (k1 := 1 / n' 1%nat 0). set (k12 := - n'' 1%nat 0 / (n' 1%nat 0 * n'' 2%nat 0)). set (k2 := 1 / n'' 2%nat 0).
  assert (K1 : k1 * n' 1%nat 0 = 1) by (unfold k1; rewrite B1; field; lra). assert (K2 : k2 * n'' 2%nat 0 = 1) by (unfold k2; rewrite C2; field; lra).
  assert (K12 : k1 * n'' 1%nat 0 + k12 * n'' 2%nat 0 = 0) by (unfold k1, k12; rewrite B1, C2; field; lra).
  assert (K3 : n'' 0%nat 0 + n'' 1%nat 0 + n'' 2%nat 0 = 0) by (rewrite C0, C1, C2; ring). assert (K4 : n' 0%nat 0 + n' 1%nat 0 + n' 2%nat 0 = 0) by (rewrite B0, B1, B2; ring).
  set (f1 := 1 / (db / tb)). set (g1 := 1 / (dm / tm)). assert (FB : f1 * (db / tb) = 1) by (unfold f1; field; lra). assert (GM : g1 * (dm / tm) = 1) by (unfold g1; field; lra).
  exists (fun x => b0 x + b1 x), (fun x => f1 * b1 x), (fun x => n 0%nat x + n 1%nat x + n 2%nat x), (fun x => k1 * n 1%nat x + k12 * n 2%nat x), (fun x => k2 * n 2%nat x),
    (fun x => n' 0%nat x + n' 1%nat x + n' 2%nat x), (fun x => k1 * n' 1%nat x + k12 * n' 2%nat x), (fun x => k2 * n' 2%nat x), (fun x => n0 x + n1 x), (fun x => g1 * n1 x).
  pose proof (fun k L x => proj1 (RR k x L)) as RR1. pose proof (fun k L x => proj2 (RR k x L)) as RR2.
  constructor.
  - intros x. unfold evalC. rewrite E0. cbn [bind]. rewrite E1. cbn [bind]. rewrite (proj1 (E 0%nat x ltac:(lia))). cbn [bind]. rewrite (proj1 (E 1%nat x ltac:(lia))). cbn [bind]. rewrite (proj1 (E 2%nat x ltac:(lia))). cbn [bind]. rewrite (proj1 (proj2 (E 0%nat x ltac:(lia)))). cbn [bind]. rewrite (proj1 (proj2 (E 1%nat x ltac:(lia)))). cbn [bind]. rewrite (proj1 (proj2 (E 2%nat x ltac:(lia)))). cbn [bind]. 
    rewrite F0. cbn [bind]. rewrite F1. cbn [bind]. rewrite Eb. cbn [bind]. rewrite Em. cbn [bind]. rewrite (proj1 (proj2 (E 1%nat 0 ltac:(lia)))). cbn [bind]. rewrite (proj2 (proj2 (E 1%nat 0 ltac:(lia)))). cbn [bind]. rewrite (proj2 (proj2 (E 2%nat 0 ltac:(lia)))). cbn [bind]. reflexivity.
  - split; [lra|]. split; [rewrite V1; ring|]. split.
    + eapply rderiv_eq; [apply (rderiv_add b0 b1); eassumption|ring].
    + eapply rderiv_eq; [apply (rderiv_scal f1 b1); eassumption|exact FB].
  - intros x. split; [|split].
    + apply (rderiv_add (fun x => n 0%nat x + n 1%nat x) (n 2%nat)); [apply (rderiv_add (n 0%nat) (n 1%nat))|]; apply RR1; lia.
    + apply rderiv_comb2; apply RR1; lia.
    + apply rderiv_scal; apply RR1; lia.
  - split; [lra|]. split; [rewrite A1, A2; ring|]. split; [rewrite A2; ring|]. split; [exact K4|]. split; [rewrite B2, Rmult_0_r, Rplus_0_r; exact K1|]. split; [rewrite B2; ring|]. split; [|split].
    + eapply rderiv_eq; [|exact K3]. apply (rderiv_add (fun x => n' 0%nat x + n' 1%nat x) (n' 2%nat)); [apply (rderiv_add (n' 0%nat) (n' 1%nat))|]; apply RR2; lia.
    + eapply rderiv_eq; [|exact K12]. apply rderiv_comb2; apply RR2; lia.
    + eapply rderiv_eq; [|exact K2]. apply rderiv_scal; apply RR2; lia.
  - split; [lra|]. split; [rewrite W1; ring|]. split.
    + eapply rderiv_eq; [apply (rderiv_add n0 n1); eassumption|ring].
    + eapply rderiv_eq; [apply (rderiv_scal g1 n1); eassumption|exact GM].
  - intros k l m. exists (fun i => match i with O => k | 1%nat => k + l * k1 | _ => k + l * k12 + m * k2 end), n. split; [intros i s L; apply E; lia|]. intros s. cbn [sum_f_R0]. ring.
  - intros k l. exists (fun i => match i with O => k | _ => k + l * g1 end), (fun i => match i with O => n0 | _ => n1 end). split; [intros i s L; destruct i as [|[|i]]; [apply F0|apply F1|lia]|]. intros s. cbn [sum_f_R0]. ring.
Qed.

(** ** Both directions: [a] along the edge and [c] across it *)
Section Core.
Context (b bp bm b' bp' bm' : sbasis) (c0 c1 p0 p1 p2 q0 q1 q2 m0 m1 : R -> R) (c0' c1' p0' p1' p2' q0' q1' q2' m0' m1' : R -> R).
Context (DA : dirOK b bp bm c0 c1 p0 p1 p2 q0 q1 q2 m0 m1) (DC : dirOK b' bp' bm' c0' c1' p0' p1' p2' q0' q1' q2' m0' m1').
(** coefficients and data along and across, the sign, and the coefficients at the vertex *)
Context (x0 x1 x2 x3 x4 y0 y1 y2 y3 y4 e0 e1 e2 e3 sx sy : R) (al be al' be' : R -> R) (da db : R).
Context (Ra : rderiv al' 0 da) (Rb : rderiv be' 0 db).
Context (H0 : y0 = e0) (H1 : sy * al' 0 * y3 - be' 0 * y1 = e1) (H2 : y1 = e2) (H3 : sy * (da * y3 + al' 0 * y4) - (db * y1 + be' 0 * y2) = e3).

Definition coreF (s c : R) : R :=
  (x0 * p0 s + x1 * p1 s + x2 * p2 s) * c0' c + (sx * al s * (x3 * m0 s + x4 * m1 s) - be s * (x0 * q0 s + x1 * q1 s + x2 * q2 s)) * c1' c +
  (c0 s * (y0 * p0' c + y1 * p1' c + y2 * p2' c) + c1 s * (sy * (al' c * (y3 * m0' c + y4 * m1' c)) + - (1) * (be' c * (y0 * q0' c + y1 * q1' c + y2 * q2' c)))) -
  (e0 * c0 s * c0' c + e2 * c0 s * c1' c + e1 * c1 s * c0' c + e3 * c1 s * c1' c).

Lemma core_value s : coreF s 0 = x0 * p0 s + x1 * p1 s + x2 * p2 s.
Proof.
  unfold coreF. destruct DC as [_ (C0 & C1 & _) _ (P0 & P1 & P2 & Q0 & Q1 & Q2 & _) (M0 & M1 & _) _ _]. rewrite C0, C1, P0, P1, P2, Q0, Q1, Q2, M0, M1, H0. rewrite <- H1. ring.
Qed.
Lemma core_cross s : rderiv (coreF s) 0 (sx * al s * (x3 * m0 s + x4 * m1 s) - be s * (x0 * q0 s + x1 * q1 s + x2 * q2 s)).
Proof.
  destruct DC as [_ (C0 & C1 & C0' & C1') PP (P0 & P1 & P2 & Q0 & Q1 & Q2 & Q0' & Q1' & Q2') (M0 & M1 & M0' & M1') _ _]. destruct (PP 0) as (P0' & P1' & P2').
  set (A0 := x0 * p0 s + x1 * p1 s + x2 * p2 s). set (A1 := sx * al s * (x3 * m0 s + x4 * m1 s) - be s * (x0 * q0 s + x1 * q1 s + x2 * q2 s)).
  set (B0 := fun c => y0 * p0' c + y1 * p1' c + y2 * p2' c). set (B1 := fun c => y0 * q0' c + y1 * q1' c + y2 * q2' c). set (B2 := fun c => y3 * m0' c + y4 * m1' c).
  assert (R0 : rderiv B0 0 y1) by (apply (rderiv_comb3' _ _ _ _ _ _ _ _ _ _ _ P0' P1' P2'); rewrite Q0, Q1, Q2; ring).
  assert (R1 : rderiv B1 0 y2) by (apply (rderiv_comb3' _ _ _ _ _ _ _ _ _ _ _ Q0' Q1' Q2'); ring).
  assert (R2 : rderiv B2 0 y4) by (apply (rderiv_comb2' _ _ _ _ _ _ _ _ M0' M1'); ring).
  assert (V1 : B1 0 = y1) by (unfold B1; rewrite Q0, Q1, Q2; ring). assert (V2 : B2 0 = y3) by (unfold B2; rewrite M0, M1; ring).
  assert (RW : rderiv (fun c => sy * (al' c * B2 c) + - (1) * (be' c * B1 c)) 0 e3).
  { eapply rderiv_eq; [apply rderiv_comb2; [exact (rderiv_mult al' B2 0 _ _ Ra R2)|exact (rderiv_mult be' B1 0 _ _ Rb R1)]|]. rewrite V1, V2. rewrite <- H3. ring. }
  eapply rderiv_eq; [eapply rderiv_ext; [|exact (rderiv_add _ _ _ _ _ (rderiv_comb2 c0' c1' 0 0 1 (A0 - e0 * c0 s - e1 * c1 s) (A1 - e2 * c0 s - e3 * c1 s) C0' C1') (rderiv_comb2 B0 _ 0 _ _ (c0 s) (c1 s) R0 RW))]|].
  - intros y. unfold coreF. fold A0 A1 (B0 y) (B1 y) (B2 y). cbv beta. ring.
  - rewrite H2. ring.
Qed.
End Core.

(** ** The functions at the vertex *)
Definition Phi (surface : bool) (sigma : R) : nat -> nat -> R := if surface then PhiSurface sigma else PhiPlanar sigma.
Lemma Phi_value surface sigma b : (b < 6)%nat -> Phi surface sigma b 0%nat = jv (monomial sigma b).
Proof. intros L. do 6 (destruct b as [|b]; [destruct surface; reflexivity|]). lia. Qed.
Lemma Phi_first surface sigma b w : (b < 6)%nat -> firstPhi surface (Phi surface sigma) b w = along1 (monomial sigma b) w.
Proof. intros L. do 6 (destruct b as [|b]; [destruct surface; unfold firstPhi, Phi, PhiSurface, PhiPlanar, along1; cbn [Nat.eqb monomial jx jy]; ring|]). lia. Qed.
Lemma Phi_second surface sigma b p w e : (b < 6)%nat -> secondPhi surface (Phi surface sigma) b p w e = along2 (monomial sigma b) p w e.
Proof. intros L. do 6 (destruct b as [|b]; [destruct surface; unfold secondPhi, Phi, PhiSurface, PhiPlanar, along2, along1; cbn [Nat.eqb monomial jx jy jxx jxy jyy]; ring|]). lia. Qed.

Lemma along1_ext J w w' : (forall r, (r < 2)%nat -> w r = w' r) -> along1 J w = along1 J w'.
Proof. intros E. unfold along1. now rewrite !E by lia. Qed.
Lemma along2_ext J p p' w w' e e' : (forall r, (r < 2)%nat -> p r = p' r) -> (forall r, (r < 2)%nat -> w r = w' r) -> (forall r, (r < 2)%nat -> e r = e' r) -> along2 J p w e = along2 J p' w' e'.
Proof. intros A B C. unfold along2. rewrite !A, !B by lia. now rewrite (along1_ext J e e') by exact C. Qed.

Section Vertex.
Context (surface : bool) (comp plus minus : nat -> sbasis) (glue : nat -> gdata) (kind : nat -> bool) (G : vgeo) (sigma : R) (b : nat).
Context (GB : good_bases comp plus minus) (GG : good_glue glue kind) (Lb : (b < 6)%nat).
Let f := vertexEval surface comp plus minus glue kind G (Phi surface sigma) b.
Let J := monomial sigma b.
Let g (m : nat) := edgeData (kind m) (glue m).

Lemma eff_alpha m : galpha (g m) = edge_alpha glue kind m. Proof. unfold g, edgeData, edge_alpha. now destruct (kind m). Qed.
Lemma eff_beta m : gbeta (g m) = edge_beta glue kind m. Proof. unfold g, edgeData, edge_beta. now destruct (kind m). Qed.
Lemma eff_nz m : (m < 2)%nat -> galpha (g m) 0 <> 0.
Proof. intros L. unfold g, edgeData. destruct (kind m) eqn:K; [now apply GG|cbn; lra]. Qed.
Lemma eff_da m : (m < 2)%nat -> rderiv (galpha (g m)) 0 (galpha' (g m) 0).
Proof. intros L. unfold g, edgeData. destruct (kind m) eqn:K; [now apply GG|exact (rderiv_const 1 0)]. Qed.
Lemma eff_db m : (m < 2)%nat -> rderiv (gbeta (g m)) 0 (gbeta' (g m) 0).
Proof. intros L. unfold g, edgeData. destruct (kind m) eqn:K; [now apply GG|exact (rderiv_const 0 0)]. Qed.

Definition ddOf (m r : nat) : R := match m with O => ddMinus (g 0%nat) G r | _ => ddPlus (g 1%nat) G r end.
Definition ddOf' (m r : nat) : R := match m with O => ddMinus' (g 0%nat) G r | _ => ddPlus' (g 1%nat) G r end.

Lemma dd_transversal m : (m < 2)%nat -> transversal glue kind G m (ddOf m) (ddOf' m).
Proof.
  clear Lb. intros L da db RA RB r Lr. rewrite <- eff_alpha in *. rewrite <- eff_beta in *. pose proof (rderiv_unique _ _ _ _ RA (eff_da m L)) as ->. pose proof (rderiv_unique _ _ _ _ RB (eff_db m L)) as ->. pose proof (eff_nz m L) as NZ.
  assert (ET : (tangent' G m r = match m with O => d11 G r | _ => d22 G r end) /\ across' G r = d12 G r).
  { unfold tangent', across', d11, d22, d12. destruct m as [|[|m]]; [| |lia]; (destruct r as [|[|r]]; [| |lia]); split; reflexivity. } destruct ET as (-> & ->).
  unfold tangent, across, ddOf, ddOf'. destruct m as [|[|m]]; [| |lia]; cbn [Nat.sub sign]; unfold ddMinus, ddMinus', ddPlus, ddPlus'; split; field; exact NZ.
Qed.

Lemma transversal_unique m dd dd' : (m < 2)%nat -> transversal glue kind G m dd dd' -> forall r, (r < 2)%nat -> dd r = ddOf m r /\ dd' r = ddOf' m r.
Proof.
  clear Lb. intros L T r Lr. pose proof (eff_da m L) as RA. pose proof (eff_db m L) as RB. rewrite eff_alpha in RA. rewrite eff_beta in RB. destruct (T _ _ RA RB r Lr) as (A & B). destruct (dd_transversal m L _ _ RA RB r Lr) as (A2 & B2).
  pose proof (eff_nz m L) as NZ. rewrite eff_alpha in NZ. assert (NS : sign m <> 0) by (destruct m; cbn; lra). assert (NN : sign m * edge_alpha glue kind m 0 <> 0) by now apply Rmult_integral_contrapositive_currified.
  assert (E : dd r = ddOf m r) by (apply (Rmult_eq_reg_l (sign m * edge_alpha glue kind m 0)); [lra|exact NN]). split; [exact E|]. rewrite E in B.
  apply (Rmult_eq_reg_l (sign m * edge_alpha glue kind m 0)); [|exact NN]. lra.
Qed.

(** the coefficients *)
Let T (m : nat) := fun r => gjac G r m.
Let T' (m : nat) := match m with O => d11 G | _ => d22 G end.

Lemma cross_rel m : (m < 2)%nat -> sign m * galpha (g m) 0 * along1 J (ddOf m) - gbeta (g m) 0 * along1 J (T m) = along1 J (T (1 - m)).
Proof.
  intros L. pose proof (eff_nz m L) as NZ. unfold along1, T, ddOf. destruct m as [|[|m]]; [| |lia]; cbn [Nat.sub sign]; unfold ddMinus, ddPlus; field; exact NZ.
Qed.
Lemma cross_rel' m : (m < 2)%nat -> sign m * (galpha' (g m) 0 * along1 J (ddOf m) + galpha (g m) 0 * along2 J (T m) (ddOf m) (ddOf' m)) - (gbeta' (g m) 0 * along1 J (T m) + gbeta (g m) 0 * along2 J (T m) (T m) (T' m)) = along2 J (T 0) (T 1) (d12 G).
Proof.
  intros L. pose proof (eff_nz m L) as NZ. unfold along2, along1, T, T', ddOf, ddOf'. destruct m as [|[|m]]; [| |lia]; cbn [Nat.sub sign]; unfold ddMinus, ddPlus, ddMinus', ddPlus'; field; exact NZ.
Qed.

(** the trace, its derivative, and the normal derivative *)
Theorem edge_core m : (m < 2)%nat -> exists P P' Q,
  first_functions (plus m) 2 P /\ first_functions (minus m) 1 Q /\ (forall s, rderiv P s (P' s)) /\
  P 0 = jv J /\ P' 0 = along1 J (T m) /\ rderiv P' 0 (along2 J (T m) (T m) (T' m)) /\
  Q 0 = along1 J (ddOf m) /\ rderiv Q 0 (along2 J (T m) (ddOf m) (ddOf' m)) /\
  forall s, edge_jet f m s (P s) (P' s) (- edge_beta glue kind m s * P' s + sign m * edge_alpha glue kind m s * Q s).
Proof.
  intros L. destruct (GB 0%nat ltac:(lia)) as (A1 & A2 & A3 & A4 & A5 & A6). destruct (GB 1%nat ltac:(lia)) as (B1 & B2 & B3 & B4 & B5 & B6).
  destruct (evalC_ok _ _ _ A1 A2 A3 A4 A5 A6) as (c0 & c1 & p0 & p1 & p2 & q0 & q1 & q2 & m0 & m1 & DA). destruct (evalC_ok _ _ _ B1 B2 B3 B4 B5 B6) as (c0' & c1' & p0' & p1' & p2' & q0' & q1' & q2' & m0' & m1' & DB).
  clear A1 A2 A3 A4 A5 A6 B1 B2 B3 B4 B5 B6.
  set (X := fun m => (jv J, along1 J (T m), along2 J (T m) (T m) (T' m))). set (X3 := fun m => along1 J (ddOf m)). set (X4 := fun m => along2 J (T m) (ddOf m) (ddOf' m)).
  assert (EV : forall u v, f (u, v) = Ok (coreF c0 c1 p0 p1 p2 q0 q1 q2 m0 m1 c0' c1' p0' p1' p2' q0' q1' q2' m0' m1'
      (jv J) (along1 J (T 0)) (along2 J (T 0) (T 0) (T' 0)) (X3 0%nat) (X4 0%nat) (jv J) (along1 J (T 1)) (along2 J (T 1) (T 1) (T' 1)) (X3 1%nat) (X4 1%nat)
      (jv J) (along1 J (T 0)) (along1 J (T 1)) (along2 J (T 0) (T 1) (d12 G)) (- (1)) 1 (galpha (g 0)) (gbeta (g 0)) (galpha (g 1)) (gbeta (g 1)) u v)).
  { intros u v. unfold f, vertexEval. cbn [row fst snd]. rewrite (dE _ _ _ _ _ _ _ _ _ _ _ _ _ DA). cbn [bind]. rewrite (dE _ _ _ _ _ _ _ _ _ _ _ _ _ DB). cbn [bind]. f_equal. rewrite !Phi_first, !Phi_second, !Phi_value by exact Lb.
    fold (g 0) (g 1). fold J. fold (T 0) (T 1). cbn [c_0 c_1 cp_0 cp_1 cp_2 dp_0 dp_1 dp_2 cm_0 cm_1]. unfold coreF, X3, X4, T'.
    change (ddOf 0) with (ddMinus (g 0) G). change (ddOf 1) with (ddPlus (g 1) G). change (ddOf' 0) with (ddMinus' (g 0) G). change (ddOf' 1) with (ddPlus' (g 1) G). ring. }
  destruct m as [|[|m]]; [| |lia].
  - exists (fun s => jv J * p0 s + along1 J (T 0) * p1 s + along2 J (T 0) (T 0) (T' 0) * p2 s), (fun s => jv J * q0 s + along1 J (T 0) * q1 s + along2 J (T 0) (T 0) (T' 0) * q2 s), (fun s => X3 0%nat * m0 s + X4 0%nat * m1 s).
    destruct DA as [_ _ PP (P0 & P1 & P2 & Q0 & Q1 & Q2 & Q0' & Q1' & Q2') (M0 & M1 & M0' & M1') FF FG]. split; [apply FF|]. split; [apply FG|].
    assert (RP : forall s, rderiv (fun s => jv J * p0 s + along1 J (T 0) * p1 s + along2 J (T 0) (T 0) (T' 0) * p2 s) s (jv J * q0 s + along1 J (T 0) * q1 s + along2 J (T 0) (T 0) (T' 0) * q2 s)) by (intros s; apply rderiv_comb3; apply PP).
    split; [exact RP|]. split; [rewrite P0, P1, P2; ring|]. split; [rewrite Q0, Q1, Q2; ring|]. split; [eapply rderiv_comb3'; [exact Q0'|exact Q1'|exact Q2'|ring]|]. split; [unfold X3; rewrite M0, M1; ring|]. split; [eapply rderiv_comb2'; [exact M0'|exact M1'|unfold X4; ring]|].
    intros s. match type of EV with forall u v, _ = Ok (?F u v) => set (FF' := F) in EV end.
    assert (EC : (forall s, FF' s 0 = jv J * p0 s + along1 J (T 0) * p1 s + along2 J (T 0) (T 0) (T' 0) * p2 s) /\ rderiv (FF' s) 0 (- (1) * galpha (g 0) s * (X3 0%nat * m0 s + X4 0%nat * m1 s) - gbeta (g 0) s * (jv J * q0 s + along1 J (T 0) * q1 s + along2 J (T 0) (T 0) (T' 0) * q2 s))).
    { split; [intros s'; eapply core_value; [exact DB|reflexivity|exact (cross_rel 1 ltac:(lia))]|]. eapply core_cross; [exact DB|exact (eff_da 1 ltac:(lia))|exact (eff_db 1 ltac:(lia))|reflexivity|exact (cross_rel' 1 ltac:(lia))]. }
    destruct EC as (EC1 & EC2). exists (fun s => FF' s 0), (FF' s). cbn [near_edge]. split; [intros; apply EV|]. split; [intros; apply EV|]. split; [apply EC1|]. split; [apply (rderiv_ext _ _ _ _ (fun y => eq_sym (EC1 y))), RP|].
    eapply rderiv_eq; [exact EC2|]. rewrite <- eff_alpha, <- eff_beta. cbn [sign]. ring.
  - exists (fun s => jv J * p0' s + along1 J (T 1) * p1' s + along2 J (T 1) (T 1) (T' 1) * p2' s), (fun s => jv J * q0' s + along1 J (T 1) * q1' s + along2 J (T 1) (T 1) (T' 1) * q2' s), (fun s => X3 1%nat * m0' s + X4 1%nat * m1' s).
    pose proof DB as DB'. destruct DB as [_ _ PP (P0 & P1 & P2 & Q0 & Q1 & Q2 & Q0' & Q1' & Q2') (M0 & M1 & M0' & M1') FF FG]. split; [apply FF|]. split; [apply FG|].
    assert (RP : forall s, rderiv (fun s => jv J * p0' s + along1 J (T 1) * p1' s + along2 J (T 1) (T 1) (T' 1) * p2' s) s (jv J * q0' s + along1 J (T 1) * q1' s + along2 J (T 1) (T 1) (T' 1) * q2' s)) by (intros s; apply rderiv_comb3; apply PP).
    split; [exact RP|]. split; [rewrite P0, P1, P2; ring|]. split; [rewrite Q0, Q1, Q2; ring|]. split; [eapply rderiv_comb3'; [exact Q0'|exact Q1'|exact Q2'|ring]|]. split; [unfold X3; rewrite M0, M1; ring|]. split; [eapply rderiv_comb2'; [exact M0'|exact M1'|unfold X4; ring]|].
    intros s.
    assert (EV2 : forall u v, f (u, v) = Ok (coreF c0' c1' p0' p1' p2' q0' q1' q2' m0' m1' c0 c1 p0 p1 p2 q0 q1 q2 m0 m1
      (jv J) (along1 J (T 1)) (along2 J (T 1) (T 1) (T' 1)) (X3 1%nat) (X4 1%nat) (jv J) (along1 J (T 0)) (along2 J (T 0) (T 0) (T' 0)) (X3 0%nat) (X4 0%nat)
      (jv J) (along1 J (T 1)) (along1 J (T 0)) (along2 J (T 0) (T 1) (d12 G)) 1 (- (1)) (galpha (g 1)) (gbeta (g 1)) (galpha (g 0)) (gbeta (g 0)) v u)).
    { intros u v. rewrite EV. f_equal. unfold coreF. ring. } clear EV.
    match type of EV2 with forall u v, _ = Ok (?F v u) => set (FF' := F) in EV2 end.
    assert (EC : (forall s, FF' s 0 = jv J * p0' s + along1 J (T 1) * p1' s + along2 J (T 1) (T 1) (T' 1) * p2' s) /\ rderiv (FF' s) 0 (1 * galpha (g 1) s * (X3 1%nat * m0' s + X4 1%nat * m1' s) - gbeta (g 1) s * (jv J * q0' s + along1 J (T 1) * q1' s + along2 J (T 1) (T 1) (T' 1) * q2' s))).
    { split; [intros s'; eapply core_value; [exact DA|reflexivity|exact (cross_rel 0 ltac:(lia))]|]. eapply core_cross; [exact DA|exact (eff_da 0 ltac:(lia))|exact (eff_db 0 ltac:(lia))|reflexivity|exact (cross_rel' 0 ltac:(lia))]. }
    destruct EC as (EC1 & EC2). exists (fun s => FF' s 0), (FF' s). cbn [near_edge]. split; [intros; apply EV2|]. split; [intros; apply EV2|]. split; [apply EC1|]. split; [apply (rderiv_ext _ _ _ _ (fun y => eq_sym (EC1 y))), RP|].
    eapply rderiv_eq; [exact EC2|]. rewrite <- eff_alpha, <- eff_beta. cbn [sign]. ring.
Qed.
End Vertex.

Theorem edge_pf : forall surface comp plus minus glue kind G sigma b m dd dd', good_bases comp plus minus -> good_glue glue kind -> (b < 6)%nat -> (m < 2)%nat ->
  transversal glue kind G m dd dd' ->
  exists P P' Q, first_functions (plus m) 2 P /\ first_functions (minus m) 1 Q /\ (forall s, rderiv P s (P' s)) /\
    P 0 = jv (monomial sigma b) /\ P' 0 = along1 (monomial sigma b) (tangent G m) /\ rderiv P' 0 (along2 (monomial sigma b) (tangent G m) (tangent G m) (tangent' G m)) /\
    Q 0 = along1 (monomial sigma b) dd /\ rderiv Q 0 (along2 (monomial sigma b) (tangent G m) dd dd') /\
    forall s, edge_jet (vertexEval surface comp plus minus glue kind G (if surface then PhiSurface sigma else PhiPlanar sigma) b) m s (P s) (P' s)
      (- edge_beta glue kind m s * P' s + sign m * edge_alpha glue kind m s * Q s).
Proof.
  intros surface comp plus minus glue kind G sigma b m dd dd' GB GG Lb Lm TR. destruct (edge_core surface comp plus minus glue kind G sigma b GB GG Lb m Lm) as (P & P' & Q & FP & FQ & RP & P0 & P1 & P2 & Q0 & Q1 & EJ).
  pose proof (transversal_unique glue kind G GG m dd dd' Lm TR) as U. exists P, P', Q. split; [exact FP|]. split; [exact FQ|]. split; [exact RP|]. split; [exact P0|]. split; [exact P1|].
  split. { eapply rderiv_eq; [exact P2|]. apply along2_ext; [reflexivity|reflexivity|]. intros r Lr. unfold tangent', d11, d22. destruct m as [|[|m]]; [| |lia]; (destruct r as [|[|r]]; [| |lia]); reflexivity. }
  split; [rewrite Q0; apply along1_ext; intros r Lr; symmetry; now apply U|]. split; [|exact EJ]. eapply rderiv_eq; [exact Q1|]. apply along2_ext; [reflexivity| |]; intros r Lr; symmetry; now apply U.
Qed.

Theorem transversal_exists_pf : forall glue kind G m, good_glue glue kind -> (m < 2)%nat -> exists dd dd', transversal glue kind G m dd dd'.
Proof. intros glue kind G m GG L. exists (ddOf glue kind G m), (ddOf' glue kind G m). now apply dd_transversal. Qed.

Lemma rderiv_edge_alpha glue kind m : good_glue glue kind -> (m < 2)%nat -> exists a, rderiv (edge_alpha glue kind m) 0 a.
Proof. intros GG L. exists (galpha' (edgeData (kind m) (glue m)) 0). rewrite <- eff_alpha. now apply eff_da. Qed.
Lemma rderiv_edge_beta glue kind m : good_glue glue kind -> (m < 2)%nat -> exists a, rderiv (edge_beta glue kind m) 0 a.
Proof. intros GG L. exists (gbeta' (edgeData (kind m) (glue m)) 0). rewrite <- eff_beta. now apply eff_db. Qed.

(** ** The vertex *)
Theorem corner_pf : forall surface comp plus minus glue kind G sigma b, good_bases comp plus minus -> good_glue glue kind -> (b < 6)%nat ->
  let J := monomial sigma b in let Fu := tangent G 0 in let Fv := tangent G 1 in
  corner_jet (vertexEval surface comp plus minus glue kind G (if surface then PhiSurface sigma else PhiPlanar sigma) b)
    (jv J) (along1 J Fu) (along1 J Fv) (along2 J Fu Fu (tangent' G 0)) (along2 J Fu Fv (across' G)) (along2 J Fv Fv (tangent' G 1)).
Proof.
  intros surface comp plus minus glue kind G sigma b GB GG Lb J Fu Fv.
  destruct (transversal_exists_pf glue kind G 0 GG ltac:(lia)) as (d0 & d0' & T0). destruct (transversal_exists_pf glue kind G 1 GG ltac:(lia)) as (d1 & d1' & T1).
  destruct (edge_pf surface comp plus minus glue kind G sigma b 0 d0 d0' GB GG Lb ltac:(lia) T0) as (P & P' & Q & _ & _ & RP & P0 & P1 & P2 & Q0 & Q1 & EJ).
  destruct (edge_pf surface comp plus minus glue kind G sigma b 1 d1 d1' GB GG Lb ltac:(lia) T1) as (S & S' & U & _ & _ & RS & S0 & S1 & S2 & U0 & U1 & EK).
  destruct (rderiv_edge_alpha glue kind 0 GG ltac:(lia)) as (a0 & RA0). destruct (rderiv_edge_alpha glue kind 1 GG ltac:(lia)) as (a1 & RA1). destruct (rderiv_edge_beta glue kind 0 GG ltac:(lia)) as (b0 & RB0). destruct (rderiv_edge_beta glue kind 1 GG ltac:(lia)) as (b1 & RB1).
  pose proof (T0 _ _ RA0 RB0) as X. pose proof (T1 _ _ RA1 RB1) as Y. destruct (X 0%nat ltac:(lia)) as (X1 & X2). destruct (X 1%nat ltac:(lia)) as (X3 & X4). destruct (Y 0%nat ltac:(lia)) as (Y1 & Y2). destruct (Y 1%nat ltac:(lia)) as (Y3 & Y4).
  cbn [sign] in *. fold J in P0, P1, P2, Q0, Q1, S0, S1, S2, U0, U1.
  exists P, P', (fun s => - edge_beta glue kind 0 s * P' s + - (1) * edge_alpha glue kind 0 s * Q s), S, S', (fun s => - edge_beta glue kind 1 s * S' s + 1 * edge_alpha glue kind 1 s * U s).
  split; [exact EJ|]. split; [exact EK|]. split; [exact P0|]. split; [exact P1|].
  split. { rewrite P1, Q0. unfold along1, Fv. change (tangent G 1 0) with (across G 0 0). change (tangent G 1 1) with (across G 0 1). rewrite X1, X3. ring. }
  split; [exact P2|].
  split. { eapply rderiv_eq; [eapply rderiv_ext; [|apply (rderiv_comb2 _ _ _ _ _ (- (1)) (- (1)) (rderiv_mult _ _ _ _ _ RB0 P2) (rderiv_mult _ _ _ _ _ RA0 Q1))]|]; [intros y; cbv beta; ring|].
    rewrite P1, Q0. unfold along2, along1, Fv, Fu. change (tangent G 1 0) with (across G 0 0). change (tangent G 1 1) with (across G 0 1). rewrite X1, X2, X3, X4. ring. }
  split; [exact S0|]. split; [exact S1|].
  split. { rewrite S1, U0. unfold along1, Fu. change (tangent G 0 0) with (across G 1 0). change (tangent G 0 1) with (across G 1 1). rewrite Y1, Y3. ring. }
  split; [exact S2|].
  eapply rderiv_eq; [eapply rderiv_ext; [|apply (rderiv_comb2 _ _ _ _ _ (- (1)) 1 (rderiv_mult _ _ _ _ _ RB1 S2) (rderiv_mult _ _ _ _ _ RA1 U1))]|]; [intros y; cbv beta; ring|].
  rewrite S1, U0. unfold along2, along1, Fv, Fu. change (tangent G 0 0) with (across G 1 0). change (tangent G 0 1) with (across G 1 1). rewrite Y1, Y2, Y3, Y4. ring.
Qed.

(** ** Combinations of the first functions are determined at the vertex *)
Theorem plus_unique_pf : forall bp P P' R R', open_basis bp 3 -> (2 <= sdeg bp)%nat -> first_functions bp 2 P -> first_functions bp 2 R ->
  (forall s, rderiv P s (P' s)) -> (forall s, rderiv R s (R' s)) -> P 0 = R 0 -> P' 0 = R' 0 -> (exists d, rderiv P' 0 d /\ rderiv R' 0 d) -> forall s, P s = R s.
Proof.
  intros bp P P' Q Q' Ob D (l & N & EN & EP) (k & M & EM & EQ) RP RQ V0 V1 (d & W1 & W2).
  destruct (first_three bp Ob D) as (n & n' & n'' & tau & tau2 & E & RR & PT & PT2 & A0 & A1 & A2 & B0 & B1 & B2 & C0 & C1 & C2).
  set (dd := INR (sdeg bp)) in *. assert (Pd : 0 < dd) by (apply lt_0_INR; lia). set (e := INR (sdeg bp - 1)) in *. assert (Pe : 0 < e) by (apply lt_0_INR; lia). clearbody dd e.
  assert (HN : forall j s, (j < 3)%nat -> N j s = n j s) by (intros j s L; pose proof (EN j s ltac:(lia)); destruct (E j s L); congruence). assert (HM : forall j s, (j < 3)%nat -> M j s = n j s) by (intros j s L; pose proof (EM j s ltac:(lia)); destruct (E j s L); congruence).
  assert (GP : forall s, P s = l 0%nat * n 0%nat s + l 1%nat * n 1%nat s + l 2%nat * n 2%nat s) by (intros s; rewrite EP; cbn [sum_f_R0]; now rewrite !HN by lia).
  assert (GQ : forall s, Q s = k 0%nat * n 0%nat s + k 1%nat * n 1%nat s + k 2%nat * n 2%nat s) by (intros s; rewrite EQ; cbn [sum_f_R0]; now rewrite !HM by lia).
  assert (GP' : forall s, P' s = l 0%nat * n' 0%nat s + l 1%nat * n' 1%nat s + l 2%nat * n' 2%nat s) by (intros s; apply (rderiv_unique P s); [apply RP|]; eapply rderiv_ext; [intros y; symmetry; apply GP|]; apply rderiv_comb3; apply RR; lia).
  assert (GQ' : forall s, Q' s = k 0%nat * n' 0%nat s + k 1%nat * n' 1%nat s + k 2%nat * n' 2%nat s) by (intros s; apply (rderiv_unique Q s); [apply RQ|]; eapply rderiv_ext; [intros y; symmetry; apply GQ|]; apply rderiv_comb3; apply RR; lia).
  assert (GP2 : d = l 0%nat * n'' 0%nat 0 + l 1%nat * n'' 1%nat 0 + l 2%nat * n'' 2%nat 0) by (apply (rderiv_unique P' 0); [exact W1|]; eapply rderiv_ext; [intros y; symmetry; apply GP'|]; apply rderiv_comb3; apply RR; lia).
  assert (GQ2 : d = k 0%nat * n'' 0%nat 0 + k 1%nat * n'' 1%nat 0 + k 2%nat * n'' 2%nat 0) by (apply (rderiv_unique Q' 0); [exact W2|]; eapply rderiv_ext; [intros y; symmetry; apply GQ'|]; apply rderiv_comb3; apply RR; lia).
  assert (N1 : dd / tau <> 0) by (apply Rgt_not_eq; apply Rdiv_lt_0_compat; lra). assert (N2 : dd * e * / (tau * tau2) <> 0) by (apply Rgt_not_eq; apply Rmult_lt_0_compat; [apply Rmult_lt_0_compat; lra|apply Rinv_0_lt_compat; apply Rmult_lt_0_compat; lra]).
  rewrite GP, GQ, A0, A1, A2 in V0. assert (L0 : l 0%nat = k 0%nat) by lra. rewrite GP', GQ', B1, B2, L0 in V1. assert (L1 : l 1%nat = k 1%nat) by (apply (Rmult_eq_reg_r (dd / tau)); [lra|exact N1]).
  rewrite GP2, C2, L0, L1 in GQ2. assert (L2 : l 2%nat = k 2%nat) by (apply (Rmult_eq_reg_r (dd * e * / (tau * tau2))); [lra|exact N2]). intros s. now rewrite GP, GQ, L0, L1, L2.
Qed.

Theorem minus_unique_pf : forall bm P Q, open_basis bm 2 -> (1 <= sdeg bm)%nat -> first_functions bm 1 P -> first_functions bm 1 Q ->
  P 0 = Q 0 -> (exists d, rderiv P 0 d /\ rderiv Q 0 d) -> forall s, P s = Q s.
Proof.
  intros bm P Q Ob D (l & N & EN & EP) (k & M & EM & EQ) V0 (d & W1 & W2). destruct (first_two bm Ob D) as (tau & n0 & n1 & _ & PT & PD & E0 & E1 & A0 & A1 & R0 & R1).
  assert (GP : forall s, P s = l 0%nat * n0 s + l 1%nat * n1 s) by (intros s; rewrite EP; cbn [sum_f_R0]; pose proof (EN 0%nat s ltac:(lia)); pose proof (EN 1%nat s ltac:(lia)); pose proof (E0 s); pose proof (E1 s); replace (N 0%nat s) with (n0 s) by congruence; replace (N 1%nat s) with (n1 s) by congruence; reflexivity).
  assert (GQ : forall s, Q s = k 0%nat * n0 s + k 1%nat * n1 s) by (intros s; rewrite EQ; cbn [sum_f_R0]; pose proof (EM 0%nat s ltac:(lia)); pose proof (EM 1%nat s ltac:(lia)); pose proof (E0 s); pose proof (E1 s); replace (M 0%nat s) with (n0 s) by congruence; replace (M 1%nat s) with (n1 s) by congruence; reflexivity).
  assert (GP2 : d = l 0%nat * - (INR (sdeg bm) / tau) + l 1%nat * (INR (sdeg bm) / tau)) by (apply (rderiv_unique P 0); [exact W1|]; eapply rderiv_ext; [intros y; symmetry; apply GP|]; apply rderiv_comb2; assumption).
  assert (GQ2 : d = k 0%nat * - (INR (sdeg bm) / tau) + k 1%nat * (INR (sdeg bm) / tau)) by (apply (rderiv_unique Q 0); [exact W2|]; eapply rderiv_ext; [intros y; symmetry; apply GQ|]; apply rderiv_comb2; assumption).
  assert (N1 : INR (sdeg bm) / tau <> 0) by (apply Rgt_not_eq; apply Rdiv_lt_0_compat; lra).
  rewrite GP, GQ, A0, A1 in V0. assert (L0 : l 0%nat = k 0%nat) by lra. rewrite GP2, L0 in GQ2. assert (L1 : l 1%nat = k 1%nat) by (apply (Rmult_eq_reg_r (INR (sdeg bm) / tau)); [lra|exact N1]). intros s. now rewrite GP, GQ, L0, L1.
Qed.

(** ** Two patches *)
Theorem glued_vertex_pf : forall surface compA plusA minusA glueA kindA GA mA compB plusB minusB glueB kindB GB mB sigma b dd dd',
  good_bases compA plusA minusA -> good_bases compB plusB minusB -> good_glue glueA kindA -> good_glue glueB kindB -> (b < 6)%nat -> (mA < 2)%nat -> (mB < 2)%nat ->
  plusA mA = plusB mB -> minusA mA = minusB mB ->
  (forall r, (r < 2)%nat -> tangent GA mA r = tangent GB mB r /\ tangent' GA mA r = tangent' GB mB r) ->
  transversal glueA kindA GA mA dd dd' -> transversal glueB kindB GB mB dd dd' ->
  forall s, exists v a q,
    edge_jet (vertexEval surface compA plusA minusA glueA kindA GA (if surface then PhiSurface sigma else PhiPlanar sigma) b) mA s v a (- edge_beta glueA kindA mA s * a + sign mA * edge_alpha glueA kindA mA s * q) /\
    edge_jet (vertexEval surface compB plusB minusB glueB kindB GB (if surface then PhiSurface sigma else PhiPlanar sigma) b) mB s v a (- edge_beta glueB kindB mB s * a + sign mB * edge_alpha glueB kindB mB s * q).
Proof.
  intros surface cA pA nA gA kA GA mA cB pB nB gB kB GB mB sigma b dd dd' GBA GBB GGA GGB Lb LA LB EP EM ET TA TB s.
  destruct (edge_pf surface cA pA nA gA kA GA sigma b mA dd dd' GBA GGA Lb LA TA) as (P & P' & Q & FP & FQ & RP & P0 & P1 & P2 & Q0 & Q1 & EJ).
  destruct (edge_pf surface cB pB nB gB kB GB sigma b mB dd dd' GBB GGB Lb LB TB) as (S & S' & U & FS & FU & RS & S0 & S1 & S2 & U0 & U1 & EK).
  destruct (GBA mA LA) as (_ & _ & Op & Dp & Om & Dm). rewrite <- EP in FS. rewrite <- EM in FU.
  assert (E1 : forall x, P x = S x).
  { apply (plus_unique_pf (pA mA) P P' S S' Op Dp FP FS RP RS); [congruence| |].
    - rewrite P1, S1. apply along1_ext. intros r Lr. now apply ET.
    - eexists. split; [exact P2|]. eapply rderiv_eq; [exact S2|]. apply along2_ext; intros r Lr; symmetry; now apply ET. }
  assert (E2 : forall x, Q x = U x).
  { apply (minus_unique_pf (nA mA) Q U Om Dm FQ FU); [congruence|]. eexists. split; [exact Q1|]. eapply rderiv_eq; [exact U1|]. apply along2_ext; [|reflexivity..]. intros r Lr; symmetry; now apply ET. }
  assert (E3 : P' s = S' s) by (apply (rderiv_unique P s); [apply RP|apply (rderiv_ext S); [intros y; symmetry; apply E1|apply RS]]).
  exists (P s), (P' s), (Q s). split; [apply EJ|]. rewrite E1, E2, E3. apply EK.
Qed.

(** ** Exact gluing data *)
Definition nsq (t : R * R) : R := fst t * fst t + snd t * snd t.
Lemma nsq_pos t : t <> (0, 0) -> 0 < nsq t.
Proof.
  intros N. destruct t as (x, y). unfold nsq. cbn [fst snd]. destruct (Req_dec x 0) as [E|E].
  - destruct (Req_dec y 0) as [E2|E2]; [subst; now contradiction N|]. pose proof (Rsqr_pos_lt y E2). unfold Rsqr in *. nra.
  - pose proof (Rsqr_pos_lt x E). unfold Rsqr in *. nra.
Qed.
Definition cr (m : nat) (t F : R * R) : R := sign m * (snd t * fst F - fst t * snd F).
Definition dt (t F : R * R) : R := fst t * fst F + snd t * snd F.

Lemma alpha_cr jac m s : (m < 2)%nat -> alphaPlanar jac m s = cr m (tangent2 (jac (near_edge m s 0)) m) (tangent2 (jac (near_edge m s 0)) (1 - m)).
Proof. intros L. unfold alphaPlanar, cr. rewrite near_edge0. destruct m as [|[|m]]; [| |lia]; cbn [tangent2 Nat.sub sign fst snd]; ring. Qed.
Lemma beta_dt jac m s : (m < 2)%nat -> tangent2 (jac (near_edge m s 0)) m <> (0, 0) ->
  betaPlanar jac m s = - dt (tangent2 (jac (near_edge m s 0)) m) (tangent2 (jac (near_edge m s 0)) (1 - m)) / nsq (tangent2 (jac (near_edge m s 0)) m).
Proof.
  intros L N. apply nsq_pos in N. unfold betaPlanar, dt, nsq in *. rewrite near_edge0 in *. set (E := jac (edgePoint m s)) in *. clearbody E.
  destruct m as [|[|m]]; [| |lia]; cbn [tangent2 Nat.sub fst snd] in *; pose proof (sqrt_inv _ N) as Q.
  - transitivity (- (1 / sqrt (xu E * xu E + yu E * yu E) * (1 / sqrt (xu E * xu E + yu E * yu E))) * (xv E * xu E + yv E * yu E)); [ring|]. rewrite Q. unfold Rdiv. ring.
  - transitivity (- (1 / sqrt (xv E * xv E + yv E * yv E) * (1 / sqrt (xv E * xv E + yv E * yv E))) * (xv E * xu E + yv E * yu E)); [ring|]. rewrite Q. unfold Rdiv. ring.
Qed.

Section ExactPlanar.
Context (jac : R * R -> J2) (glue : nat -> gdata) (kind : nat -> bool) (G : vgeo) (m : nat).
Context (L : (m < 2)%nat) (D : derivatives_at jac G m) (X : exact_glue jac glue kind m) (N : forall s, tangent2 (jac (near_edge m s 0)) m <> (0, 0)).
Let t (s : R) := tangent2 (jac (near_edge m s 0)) m.
Let F (s : R) := tangent2 (jac (near_edge m s 0)) (1 - m).

Lemma ex_alpha s : edge_alpha glue kind m s = cr m (t s) (F s).
Proof. destruct X as (K & A & B). unfold edge_alpha. rewrite K, A. now apply alpha_cr. Qed.
Lemma ex_beta s : edge_beta glue kind m s = - dt (t s) (F s) / nsq (t s).
Proof. destruct X as (K & A & B). unfold edge_beta. rewrite K, B. apply beta_dt; [exact L|apply N]. Qed.

Definition exDD (r : nat) : R := match r with O => snd (t 0) / nsq (t 0) | _ => - fst (t 0) / nsq (t 0) end.
Definition exDD' (r : nat) : R :=
  let tt' := fst (t 0) * tangent' G m 0 + snd (t 0) * tangent' G m 1 in
  match r with
  | O => tangent' G m 1 / nsq (t 0) - 2 * tt' * snd (t 0) / (nsq (t 0) * nsq (t 0))
  | _ => - (tangent' G m 0 / nsq (t 0)) + 2 * tt' * fst (t 0) / (nsq (t 0) * nsq (t 0))
  end.

Lemma exact_transversal : transversal glue kind G m exDD exDD'.
Proof.
  intros a b RA RB. destruct D as ((J1 & J2' & J3' & J4) & T1 & T2 & A1 & A2). change (fun s => fst (tangent2 (jac (near_edge m s 0)) m)) with (fun s => fst (t s)) in T1. change (fun s => snd (tangent2 (jac (near_edge m s 0)) m)) with (fun s => snd (t s)) in T2. change (fun s => fst (tangent2 (jac (near_edge m s 0)) (1 - m))) with (fun s => fst (F s)) in A1. change (fun s => snd (tangent2 (jac (near_edge m s 0)) (1 - m))) with (fun s => snd (F s)) in A2.
  assert (ET : tangent G m 0 = fst (t 0) /\ tangent G m 1 = snd (t 0) /\ across G m 0 = fst (F 0) /\ across G m 1 = snd (F 0)).
  { unfold tangent, across, t, F. destruct m as [|[|m']]; [| |lia]; cbn [tangent2 near_edge Nat.sub fst snd]; auto. }
  destruct ET as (ET1 & ET2 & ET3 & ET4). pose proof (nsq_pos _ (N 0)) as PN. fold (t 0) in PN.
  assert (EA : a = sign m * ((tangent' G m 1 * fst (F 0) + snd (t 0) * across' G 0) - (tangent' G m 0 * snd (F 0) + fst (t 0) * across' G 1))).
  { apply (rderiv_unique _ _ _ _ RA). eapply rderiv_eq; [eapply rderiv_ext; [|exact (rderiv_comb2 _ _ 0 _ _ (sign m) (- sign m) (rderiv_mult _ _ _ _ _ T2 A1) (rderiv_mult _ _ _ _ _ T1 A2))]|]; [|cbv beta; ring].
    intros y. rewrite ex_alpha. unfold cr. cbv beta. fold (t y). ring. }
  assert (EB : b * nsq (t 0) + edge_beta glue kind m 0 * (2 * (tangent' G m 0 * fst (t 0) + tangent' G m 1 * snd (t 0))) = - ((tangent' G m 0 * fst (F 0) + fst (t 0) * across' G 0) + (tangent' G m 1 * snd (F 0) + snd (t 0) * across' G 1))).
  { assert (RL : rderiv (fun s => edge_beta glue kind m s * nsq (t s)) 0 (b * nsq (t 0) + edge_beta glue kind m 0 * (2 * (tangent' G m 0 * fst (t 0) + tangent' G m 1 * snd (t 0))))).
    { apply (rderiv_mult _ (fun s => nsq (t s))); [exact RB|]. eapply rderiv_eq; [exact (rderiv_add _ _ _ _ _ (rderiv_mult _ _ _ _ _ T1 T1) (rderiv_mult _ _ _ _ _ T2 T2))|]. cbv beta. fold (t 0). ring. }
    apply (rderiv_unique _ _ _ _ RL). eapply rderiv_eq; [eapply rderiv_ext; [|exact (rderiv_comb2 _ _ 0 _ _ (- (1)) (- (1)) (rderiv_mult _ _ _ _ _ T1 A1) (rderiv_mult _ _ _ _ _ T2 A2))]|]; [|cbv beta; fold (t 0); ring].
    intros y. rewrite ex_beta. pose proof (nsq_pos _ (N y)) as PY. fold (t y) in PY. unfold dt. cbv beta. fold (t y). field. lra. }
  rewrite ex_beta in EB |- *. rewrite ex_alpha. set (n := nsq (t 0)) in *. assert (ENN : n = fst (t 0) * fst (t 0) + snd (t 0) * snd (t 0)) by reflexivity. unfold dt, cr in *.
  assert (EB' : b = (- ((tangent' G m 0 * fst (F 0) + fst (t 0) * across' G 0) + (tangent' G m 1 * snd (F 0) + snd (t 0) * across' G 1)) - - (fst (t 0) * fst (F 0) + snd (t 0) * snd (F 0)) / n * (2 * (tangent' G m 0 * fst (t 0) + tangent' G m 1 * snd (t 0)))) / n) by (rewrite <- EB; field; lra).
  rewrite EA, EB'. clear EA EB EB' RA RB. unfold exDD, exDD'. fold n. assert (SS : sign m * sign m = 1) by (unfold sign; destruct m; ring).
  intros r Lr. clearbody t F. rewrite ENN in *. assert (S2 : sign m = 1 \/ sign m = - (1)) by (unfold sign; destruct m; auto). clear T1 T2 A1 A2.
  destruct r as [|[|r]]; [| |lia]; [rewrite ET1, ET3|rewrite ET2, ET4]; destruct S2 as [S2|S2]; rewrite S2; split; field; lra.
Qed.

Lemma exact_gradient s a q : gradient2 (jac (near_edge m s 0)) m a (- edge_beta glue kind m s * a + sign m * edge_alpha glue kind m s * q)
  (a * fst (t s) / nsq (t s) + q * snd (t s), a * snd (t s) / nsq (t s) - q * fst (t s)).
Proof.
  rewrite ex_alpha, ex_beta. pose proof (nsq_pos _ (N s)) as PN. unfold cr, dt, nsq, t, F in *. clear D X N. set (E := jac (near_edge m s 0)) in *. clearbody E. unfold gradient2.
  destruct m as [|[|m']]; [| |lia]; cbn [tangent2 Nat.sub sign fst snd] in *; split; field; lra.
Qed.
End ExactPlanar.

Theorem planar_vertex_pf : forall jacA compA plusA minusA glueA kindA GA mA jacB compB plusB minusB glueB kindB GB mB sigma b,
  good_bases compA plusA minusA -> good_bases compB plusB minusB -> good_glue glueA kindA -> good_glue glueB kindB -> (b < 6)%nat -> (mA < 2)%nat -> (mB < 2)%nat ->
  plusA mA = plusB mB -> minusA mA = minusB mB ->
  derivatives_at jacA GA mA -> derivatives_at jacB GB mB -> exact_glue jacA glueA kindA mA -> exact_glue jacB glueB kindB mB ->
  (forall s, tangent2 (jacA (near_edge mA s 0)) mA = tangent2 (jacB (near_edge mB s 0)) mB) -> (forall s, tangent2 (jacA (near_edge mA s 0)) mA <> (0, 0)) ->
  forall s, exists v g, smooth2 jacA mA (vertexEval false compA plusA minusA glueA kindA GA (PhiPlanar sigma) b) s v g /\
                        smooth2 jacB mB (vertexEval false compB plusB minusB glueB kindB GB (PhiPlanar sigma) b) s v g.
Proof.
  intros jA cA pA nA gA kA GA mA jB cB pB nB gB kB GB mB sigma b GBA GBB GGA GGB Lb LA LB EP EM DA DB XA XB ET NA s.
  assert (NB : forall s, tangent2 (jB (near_edge mB s 0)) mB <> (0, 0)) by (intros s'; rewrite <- ET; apply NA).
  pose proof (exact_transversal jA gA kA GA mA LA DA XA NA) as TA. pose proof (exact_transversal jB gB kB GB mB LB DB XB NB) as TB.
  assert (E1 : forall r, (r < 2)%nat -> tangent GA mA r = tangent GB mB r /\ tangent' GA mA r = tangent' GB mB r).
  { destruct DA as ((J1 & J2' & J3' & J4) & T1 & T2 & _). destruct DB as ((K1 & K2 & K3 & K4) & U1 & U2 & _). intros r Lr. split.
    - specialize (ET 0). unfold tangent. destruct mA as [|[|mA]]; [| |lia]; (destruct mB as [|[|mB]]; [| |lia]); cbn [tangent2 near_edge] in ET; injection ET as ET1 ET2; (destruct r as [|[|r]]; [| |lia]); congruence.
    - destruct r as [|[|r]]; [| |lia].
      + apply (rderiv_unique _ _ _ _ T1). eapply rderiv_ext; [|exact U1]. intros y. cbv beta. now rewrite ET.
      + apply (rderiv_unique _ _ _ _ T2). eapply rderiv_ext; [|exact U2]. intros y. cbv beta. now rewrite ET. }
  assert (TB' : transversal gB kB GB mB (exDD jA mA) (exDD' jA GA mA)).
  { intros a0 b0 RA RB r Lr. destruct (TB a0 b0 RA RB r Lr) as (H1 & H2). assert (EQ : exDD jA mA r = exDD jB mB r /\ exDD' jA GA mA r = exDD' jB GB mB r).
    { unfold exDD, exDD'. rewrite (ET 0). rewrite (proj2 (E1 0%nat ltac:(lia))), (proj2 (E1 1%nat ltac:(lia))). split; reflexivity. } destruct EQ as (-> & ->). now split. }
  destruct (glued_vertex_pf false cA pA nA gA kA GA mA cB pB nB gB kB GB mB sigma b _ _ GBA GBB GGA GGB Lb LA LB EP EM E1 TA TB' s) as (v & a & q & HA & HB).
  set (tt := tangent2 (jA (near_edge mA s 0)) mA). exists v, (a * fst tt / nsq tt + q * snd tt, a * snd tt / nsq tt - q * fst tt). split.
  - exists a, (- edge_beta gA kA mA s * a + sign mA * edge_alpha gA kA mA s * q). split; [exact HA|]. now apply exact_gradient.
  - exists a, (- edge_beta gB kB mB s * a + sign mB * edge_alpha gB kB mB s * q). split; [exact HB|]. unfold tt. rewrite ET. now apply exact_gradient.
Qed.
