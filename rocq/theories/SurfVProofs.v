(** Proofs for C59. *)
From Coq Require Import Lra.
From Verif Require Import Common SplineModel SplineSpec SplineProofs GluingModel GluingSpec GluingProofs VfunModel VfunSpec VfunProofs SurfGDModel SurfGDSpec SurfGDProofs SurfGDProofs2 SurfVModel SurfVSpec.
Open Scope R_scope.

Definition gdGlue (gd : nat -> nat -> R) (i : nat) : gdata :=
  mkGD (vAlpha gd i) (vBeta gd i) (fun _ => vAlphaD gd i) (fun _ => vBetaD gd i).
Definition ON (_ : nat) : bool := true.

Lemma evals_data gd i x : vAlpha gd i x = dataAlpha gd i x /\ vBeta gd i x = dataBeta gd i x.
Proof. unfold vAlpha, vBeta, dataAlpha, dataBeta, lin. split; ring. Qed.

Lemma gdGlue_good gd : (forall i, (i < 2)%nat -> gd 0%nat i <> 0) -> good_glue (gdGlue gd) ON.
Proof.
  intros N i L _. cbn [gdGlue galpha gbeta galpha' gbeta']. split; [|split].
  - unfold vAlpha. specialize (N i L). intros E. apply N. lra.
  - unfold vAlphaD, vAlpha. eapply rderiv_eq; [eapply rderiv_ext; [|exact (rderiv_add _ _ 0 _ _ (rderiv_const (gd 0%nat i) 0) (rderiv_scal (gd 1%nat i - gd 0%nat i) _ 0 _ (rderiv_id 0)))]|]; [intros y; cbv beta; ring|ring].
  - unfold vBetaD, vBeta. eapply rderiv_eq; [eapply rderiv_ext; [|exact (rderiv_add _ _ 0 _ _ (rderiv_const (gd 2%nat i) 0) (rderiv_scal (gd 3%nat i - gd 2%nat i) _ 0 _ (rderiv_id 0)))]|]; [intros y; cbv beta; ring|ring].
Qed.

Lemma phi_same surface sigma i j : (j < 6)%nat -> surfPhi surface sigma i j = (if surface then PhiSurface sigma else PhiPlanar sigma) i j.
Proof.
  intros L. destruct surface; [reflexivity|]. unfold surfPhi, PhiPlanar. destruct (Nat.eqb_spec i j) as [->|]; [|ring]. destruct j as [|[|[|j]]]; ring.
Qed.
Lemma first_same surface sigma b w : (b < 6)%nat -> firstPhi surface (surfPhi surface sigma) b w = firstPhi surface (Phi surface sigma) b w.
Proof. intros L. unfold firstPhi. rewrite !phi_same by exact L. reflexivity. Qed.
Lemma second_same surface sigma b p w e : (b < 6)%nat -> secondPhi surface (surfPhi surface sigma) b p w e = secondPhi surface (Phi surface sigma) b p w e.
Proof. intros L. unfold secondPhi. destruct surface; rewrite !phi_same by (first [exact L|lia]); reflexivity. Qed.
Lemma value_same surface sigma b : (b < 6)%nat -> surfPhi surface sigma 0%nat b = Phi surface sigma b 0%nat.
Proof. intros L. rewrite Phi_value by exact L. do 6 (destruct b as [|b]; [destruct surface; cbn; ring|]). lia. Qed.

Lemma vertex_same surface comp plus minus gd G sigma b x : (b < 6)%nat ->
  surfVertex surface comp plus minus gd G (surfPhi surface sigma) b x = vertexEval surface comp plus minus (gdGlue gd) ON G (Phi surface sigma) b x.
Proof.
  intros L. unfold surfVertex, vertexEval. rewrite !first_same, !second_same, !value_same by exact L. reflexivity.
Qed.
Lemma edge_jet_same f g m s v a d : (forall x, f x = g x) -> edge_jet g m s v a d -> edge_jet f m s v a d.
Proof. intros E (h & k & H & K & R). exists h, k. split; [intros t; rewrite E; apply H|]. split; [intros t; rewrite E; apply K|exact R]. Qed.

Lemma gd_transversal gd G m dd dd' : (forall i, (i < 2)%nat -> gd 0%nat i <> 0) -> (m < 2)%nat -> data_transversal gd G m dd dd' <-> transversal (gdGlue gd) ON G m dd dd'.
Proof.
  intros N L. destruct (gdGlue_good gd N m L eq_refl) as (_ & RA & RB). unfold transversal, data_transversal, edge_alpha, edge_beta. cbn [ON gdGlue galpha gbeta galpha' gbeta'] in *.
  destruct (evals_data gd m 0) as (-> & ->). split.
  - intros T a b A B r Lr. rewrite (rderiv_unique _ _ _ _ A RA), (rderiv_unique _ _ _ _ B RB). destruct (T r Lr) as (T1 & T2). unfold vAlphaD, vBetaD. rewrite !Rmult_1_r. split; assumption.
  - intros T r Lr. destruct (T _ _ RA RB r Lr) as (T1 & T2). unfold vAlphaD, vBetaD in T2. rewrite !Rmult_1_r in T2. split; assumption.
Qed.

Theorem surf_transversal_pf : forall gd G m, (forall i, (i < 2)%nat -> gd 0%nat i <> 0) -> (m < 2)%nat -> exists dd dd', data_transversal gd G m dd dd'.
Proof.
  intros gd G m N L. destruct (transversal_exists_pf (gdGlue gd) ON G m (gdGlue_good gd N) L) as (dd & dd' & T). exists dd, dd'. apply gd_transversal; assumption.
Qed.

Theorem surf_edge_pf : forall surface comp plus minus gd G sigma b m dd dd', good_bases comp plus minus -> (forall i, (i < 2)%nat -> gd 0%nat i <> 0) -> (b < 6)%nat -> (m < 2)%nat ->
  data_transversal gd G m dd dd' ->
  exists P P' Q, first_functions (plus m) 2 P /\ first_functions (minus m) 1 Q /\ (forall s, rderiv P s (P' s)) /\
    P 0 = jv (monomial sigma b) /\ P' 0 = along1 (monomial sigma b) (tangent G m) /\ rderiv P' 0 (along2 (monomial sigma b) (tangent G m) (tangent G m) (tangent' G m)) /\
    Q 0 = along1 (monomial sigma b) dd /\ rderiv Q 0 (along2 (monomial sigma b) (tangent G m) dd dd') /\
    forall s, edge_jet (surfVertex surface comp plus minus gd G (surfPhi surface sigma) b) m s (P s) (P' s)
      (- dataBeta gd m s * P' s + sign m * dataAlpha gd m s * Q s).
Proof.
  intros surface comp plus minus gd G sigma b m dd dd' GB N Lb Lm T. apply (gd_transversal gd G m dd dd' N Lm) in T.
  destruct (edge_pf surface comp plus minus (gdGlue gd) ON G sigma b m dd dd' GB (gdGlue_good gd N) Lb Lm T) as (P & P' & Q & H1 & H2 & H3 & H4 & H5 & H6 & H7 & H8 & E).
  exists P, P', Q. do 8 (split; [assumption|]). intros s. apply (edge_jet_same _ _ m s _ _ _ (fun x => vertex_same surface comp plus minus gd G sigma b x Lb)).
  specialize (E s). unfold edge_alpha, edge_beta in E. cbn [ON gdGlue galpha gbeta] in E. destruct (evals_data gd m s) as (EA & EB). rewrite EA, EB in E. exact E.
Qed.

Theorem surf_corner_pf : forall surface comp plus minus gd G sigma b, good_bases comp plus minus -> (forall i, (i < 2)%nat -> gd 0%nat i <> 0) -> (b < 6)%nat ->
  let J := monomial sigma b in let Fu := tangent G 0 in let Fv := tangent G 1 in
  corner_jet (surfVertex surface comp plus minus gd G (surfPhi surface sigma) b)
    (jv J) (along1 J Fu) (along1 J Fv) (along2 J Fu Fu (tangent' G 0)) (along2 J Fu Fv (across' G)) (along2 J Fv Fv (tangent' G 1)).
Proof.
  intros surface comp plus minus gd G sigma b GB N Lb J FU FV. destruct (corner_pf surface comp plus minus (gdGlue gd) ON G sigma b GB (gdGlue_good gd N) Lb) as (v0 & a0 & d0 & v1 & a1 & d1 & E0 & E1 & H).
  exists v0, a0, d0, v1, a1, d1. split; [|split; [|exact H]]; intros s; apply (edge_jet_same _ _ _ s _ _ _ (fun x => vertex_same surface comp plus minus gd G sigma b x Lb)); [apply E0|apply E1].
Qed.

Section Smooth.
Context (M : nat -> R * R * R) (jacR jacL : R * R -> J3) (sol solB : nat -> R) (gdR gdL : nat -> nat -> R) (GR GL : vgeo).
Context (ID : interface_data sol solB gdR gdL) (DR : mapped_derivatives M jacR GR 1) (DL : mapped_derivatives M jacL GL 0).
Context (T : forall s, Fu (jacL (s, 0)) = Fv (jacR (0, s))) (Z : forall s, defect jacR jacL sol s = (0, 0, 0)) (SD : forall s, split_defect sol solB s = 0).
Context (NR : forall i, (i < 2)%nat -> gdR 0%nat i <> 0) (NL : forall i, (i < 2)%nat -> gdL 0%nat i <> 0).

Lemma same_edge r : (r < 2)%nat -> tangent GR 1 r = tangent GL 0 r /\ tangent' GR 1 r = tangent' GL 0 r.
Proof.
  intros L. destruct (DR r L) as (_ & R1 & R2 & _). destruct (DL r L) as (L1 & _ & L2 & _). cbn [near_edge tangent3] in *. split.
  - unfold tangent. rewrite R1, L1, T. reflexivity.
  - apply (rderiv_unique _ _ _ _ R2). eapply rderiv_ext; [|exact L2]. intros y. cbv beta. now rewrite T.
Qed.

Lemma other_side r dd dd' : (r < 2)%nat -> data_transversal gdR GR 1 dd dd' ->
  across GL 0 r = - dataBeta gdL 0 0 * tangent GL 0 r + sign 0 * dataAlpha gdL 0 0 * dd r /\
  across' GL r = - ((gdL 3%nat 0%nat - gdL 2%nat 0%nat) * tangent GL 0 r + dataBeta gdL 0 0 * tangent' GL 0 r)
                 + sign 0 * ((gdL 1%nat 0%nat - gdL 0%nat 0%nat) * dd r + dataAlpha gdL 0 0 * dd' r).
Proof.
  intros Lr TR. destruct (TR r Lr) as (A & A'). destruct (same_edge r Lr) as (S1 & S2). rewrite S1, S2 in *.
  destruct (DR r Lr) as (R0 & R1 & R2 & R3). destruct (DL r Lr) as (L0 & L1 & L2 & L3). cbn [near_edge tangent3 Nat.sub] in *.
  destruct ID as ((r1 & r2 & r3 & r4) & (l1 & l2 & l3 & l4)).
  set (u := fun s => dot3 (M r) (Fv (jacL (s, 0)))) in *. set (w := fun s => dot3 (M r) (Fu (jacR (0, s)))) in *. set (t := fun s => dot3 (M r) (Fu (jacL (s, 0)))) in *.
  assert (EQ : forall s, aR sol s * (u s + bL solB s * t s) + aL sol s * (w s + bR solB s * t s) = 0).
  { intros s. pose proof (Z s) as E. unfold defect in E. pose proof (dot3_comb (M r) (aR sol s) (Fv (jacL (s, 0))) (aL sol s) (Fu (jacR (0, s))) (bt sol s) (Fv (jacR (0, s)))) as D. rewrite E in D.
    replace (dot3 (M r) (0, 0, 0)) with 0 in D by (unfold dot3; destruct (M r) as [[? ?] ?]; ring). rewrite <- T in D. fold (u s) (w s) (t s) in D. pose proof (SD s) as S. unfold split_defect in S. replace (bt sol s) with (aL sol s * bR solB s + aR sol s * bL solB s) in D by lra. lra. }
  assert (NZ : gdR 0%nat 1%nat <> 0) by (apply NR; lia).
  unfold across, tangent in *. cbn [Nat.sub] in *. unfold dataBeta, dataAlpha, lin, sign in *.
  assert (U0 : gjac GL r 1 = u 0) by exact L1. assert (T0 : gjac GL r 0 = t 0) by exact L0. assert (W0 : gjac GR r 0 = w 0) by exact R0.
  assert (E0 := EQ 0). unfold aR, aL, bL, bR, lin in E0. rewrite U0, T0, W0 in *. rewrite r1, r2, r3, r4 in *. rewrite l1, l2, l3, l4.
  assert (LR : forall a b, rderiv (fun s => (1 - s) * a + s * b) 0 (b - a)).
  { intros a b. eapply rderiv_eq; [eapply rderiv_ext; [|exact (rderiv_add _ _ 0 _ _ (rderiv_const a 0) (rderiv_scal (b - a) _ 0 _ (rderiv_id 0)))]|]; [intros y; cbv beta; ring|ring]. }
  assert (DE := rderiv_add _ _ 0 _ _ (rderiv_mult _ _ 0 _ _ (LR (sol 0%nat) (sol 1%nat)) (rderiv_add _ _ 0 _ _ L3 (rderiv_mult _ _ 0 _ _ (LR (solB 2%nat) (solB 3%nat)) L2)))
                  (rderiv_mult _ _ 0 _ _ (LR (sol 2%nat) (sol 3%nat)) (rderiv_add _ _ 0 _ _ R3 (rderiv_mult _ _ 0 _ _ (LR (solB 0%nat) (solB 1%nat)) L2)))).
  assert (D0 : rderiv (fun y => ((1 - y) * sol 0%nat + y * sol 1%nat) * (u y + ((1 - y) * solB 2%nat + y * solB 3%nat) * t y) + ((1 - y) * sol 2%nat + y * sol 3%nat) * (w y + ((1 - y) * solB 0%nat + y * solB 1%nat) * t y)) 0 0).
  { eapply rderiv_ext; [|exact (rderiv_const 0 0)]. intros y. symmetry. exact (EQ y). }
  pose proof (rderiv_unique _ _ _ _ DE D0) as E1. cbv beta in E1. clear DE D0 EQ.
  assert (H0 : u 0 = - ((1 - 0) * solB 2%nat + 0 * solB 3%nat) * t 0 + - (1) * ((1 - 0) * sol 2%nat + 0 * sol 3%nat) * dd r).
  { apply (Rmult_eq_reg_l (sol 0%nat)); [|exact NZ]. apply Rminus_diag_uniq. rewrite A in E0. etransitivity; [|exact E0]. ring. }
  split; [exact H0|]. apply (Rmult_eq_reg_l (sol 0%nat)); [|exact NZ]. apply Rminus_diag_uniq. rewrite A, A', H0 in E1. etransitivity; [|exact E1]. ring.
Qed.

Lemma left_transversal dd dd' : data_transversal gdR GR 1 dd dd' -> data_transversal gdL GL 0 dd dd'.
Proof. intros TR r Lr. apply other_side; assumption. Qed.
End Smooth.

Theorem surf_smooth_pf : forall surface M jacR jacL sol solB gdR gdL GR GL compR plusR minusR compL plusL minusL sigma b,
  good_bases compR plusR minusR -> good_bases compL plusL minusL -> (b < 6)%nat -> plusR 1%nat = plusL 0%nat -> minusR 1%nat = minusL 0%nat ->
  interface_data sol solB gdR gdL -> (forall i, (i < 2)%nat -> gdR 0%nat i <> 0) -> (forall i, (i < 2)%nat -> gdL 0%nat i <> 0) ->
  mapped_derivatives M jacR GR 1 -> mapped_derivatives M jacL GL 0 ->
  (forall s, Fu (jacL (s, 0)) = Fv (jacR (0, s))) -> (forall s, defect jacR jacL sol s = (0, 0, 0)) -> (forall s, split_defect sol solB s = 0) ->
  forall s, independent (Fu (jacR (0, s))) (Fv (jacR (0, s))) -> aR sol s <> 0 -> aL sol s <> 0 ->
  exists v g, smooth3 jacR 1 (surfVertex surface compR plusR minusR gdR GR (surfPhi surface sigma) b) s v g /\
              smooth3 jacL 0 (surfVertex surface compL plusL minusL gdL GL (surfPhi surface sigma) b) s v g.
Proof.
  intros surface M jacR jacL sol solB gdR gdL GR GL compR plusR minusR compL plusL minusL sigma b GBR GBL Lb EP EM ID NR NL DR DL T Z SD s IN AR AL.
  destruct (surf_transversal_pf gdR GR 1 NR ltac:(lia)) as (dd & dd' & TR).
  pose proof (left_transversal M jacR jacL sol solB gdR gdL GR GL ID DR DL T Z SD NR dd dd' TR) as TL.
  apply (gd_transversal gdR GR 1 dd dd' NR ltac:(lia)) in TR. apply (gd_transversal gdL GL 0 dd dd' NL ltac:(lia)) in TL.
  destruct (glued_vertex_pf surface compR plusR minusR (gdGlue gdR) ON GR 1 compL plusL minusL (gdGlue gdL) ON GL 0 sigma b dd dd' GBR GBL (gdGlue_good gdR NR) (gdGlue_good gdL NL) Lb ltac:(lia) ltac:(lia) EP EM
    (same_edge M jacR jacL GR GL DR DL T) TR TL s) as (v & a & q & JR & JL).
  unfold edge_alpha, edge_beta in JR, JL. cbn [ON gdGlue galpha gbeta] in JR, JL. destruct (evals_data gdR 1 s) as (E1 & E2). destruct (evals_data gdL 0 s) as (E3 & E4). rewrite E1, E2 in JR. rewrite E3, E4 in JL.
  destruct (common_gradient jacR jacL sol s (surfVertex surface compR plusR minusR gdR GR (surfPhi surface sigma) b) (surfVertex surface compL plusL minusL gdL GL (surfPhi surface sigma) b) v a _ _ IN (T s) AR AL (Z s)
    (edge_jet_same _ _ 1 s _ _ _ (fun x => vertex_same surface compR plusR minusR gdR GR sigma b x Lb) JR) (edge_jet_same _ _ 0 s _ _ _ (fun x => vertex_same surface compL plusL minusL gdL GL sigma b x Lb) JL)) as (g & A & B).
  - destruct ID as ((r1 & r2 & r3 & r4) & (l1 & l2 & l3 & l4)). specialize (SD s). unfold split_defect in SD. unfold dataAlpha, dataBeta. rewrite r1, r2, r3, r4, l1, l2, l3, l4. fold (aR sol s) (aL sol s) (bR solB s) (bL solB s). unfold sign.
    replace (bt sol s) with (aL sol s * bR solB s + aR sol s * bL solB s) by lra. ring.
  - exists v, g. split; assumption.
Qed.
