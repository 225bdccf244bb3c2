(** Examples for C59. *)
From Coq Require Import Lra.
From Verif Require Import Common SplineModel SplineSpec SplineProofs GluingModel GluingSpec GluingProofs GluingExamples VfunModel VfunSpec VfunProofs VfunExamples SurfGDModel SurfGDSpec SurfGDProofs SurfGDProofs2 SurfGDExamples SurfVModel SurfVSpec SurfVProofs.
Open Scope R_scope.

(** a trapezium beside a square, placed in space by the geometry and mapped back to the plane *)
Definition rowsM (r : nat) : R * R * R := match r with 0%nat => (1, 0, 0) | 1%nat => (0, 1, 0) | _ => (0, 0, 1) end.
Definition widerG : vgeo := mkVG (fun r c => match r, c with 0%nat, 0%nat => 1 | 1%nat, 1%nat => 1 | _, _ => 0 end) (fun k => match k with 2%nat => 1 | _ => 0 end).
Definition flatG : vgeo := mkVG (fun r c => match r, c with 0%nat, 1%nat => -1 | 1%nat, 0%nat => 1 | _, _ => 0 end) (fun _ => 0).
Definition zero4 (_ : nat) : R := 0.
Definition widerGD (i j : nat) : R := match i, j with 1%nat, 1%nat => 2 | 0%nat, _ | 1%nat, _ => 1 | _, _ => 0 end.
Definition flatGD (i j : nat) : R := match i with 0%nat | 1%nat => 1 | _ => 0 end.

Lemma widerGD_nz i : (i < 2)%nat -> widerGD 0 i <> 0. Proof. intros _. cbn. lra. Qed.
Lemma flatGD_nz i : (i < 2)%nat -> flatGD 0 i <> 0. Proof. intros _. cbn. lra. Qed.
Lemma wider_mapped : mapped_derivatives rowsM widerR widerG 1.
Proof.
  intros r L. unfold tangent', across'. destruct r as [|[|r]]; [| |lia]; cbn [near_edge tangent3 Nat.sub widerG gjac gder2 Nat.mul Nat.add rowsM]; unfold dot3, widerR, Fu, Fv; cbn [Xu Xv Yu Yv Zu Zv fst snd].
  - split; [ring|]. split; [ring|]. split.
    + eapply rderiv_ext; [|exact (rderiv_const 0 0)]. intros y. cbv beta. ring.
    + eapply rderiv_eq; [eapply rderiv_ext; [|exact (rderiv_add _ _ 0 _ _ (rderiv_const 1 0) (rderiv_id 0))]|]; [intros y; cbv beta; ring|ring].
  - split; [ring|]. split; [ring|]. split.
    + eapply rderiv_ext; [|exact (rderiv_const 1 0)]. intros y. cbv beta. ring.
    + eapply rderiv_ext; [|exact (rderiv_const 0 0)]. intros y. cbv beta. ring.
Qed.
Lemma flat_mapped : mapped_derivatives rowsM flatL flatG 0.
Proof.
  intros r L. unfold tangent', across'. destruct r as [|[|r]]; [| |lia]; cbn [near_edge tangent3 Nat.sub flatG gjac gder2 Nat.mul Nat.add rowsM]; unfold dot3, flatL, Fu, Fv; cbn [Xu Xv Yu Yv Zu Zv fst snd].
  - split; [ring|]. split; [ring|]. split; [eapply rderiv_ext; [|exact (rderiv_const 0 0)]|eapply rderiv_ext; [|exact (rderiv_const (-1) 0)]]; intros y; cbv beta; ring.
  - split; [ring|]. split; [ring|]. split; [eapply rderiv_ext; [|exact (rderiv_const 1 0)]|eapply rderiv_ext; [|exact (rderiv_const 0 0)]]; intros y; cbv beta; ring.
Qed.

Theorem surf_example_pf : interface_data wider7 zero4 widerGD flatGD /\ mapped_derivatives rowsM widerR widerG 1 /\ mapped_derivatives rowsM flatL flatG 0 /\
  (forall s, defect widerR flatL wider7 s = (0, 0, 0)) /\
  (forall s, 0 <= s -> exists v g, smooth3 widerR 1 (surfVertex true quads quads quads widerGD widerG (surfPhi true 3) 4) s v g /\ smooth3 flatL 0 (surfVertex true quads quads quads flatGD flatG (surfPhi true 3) 4) s v g) /\
  corner_jet (surfVertex true quads quads quads widerGD widerG (surfPhi true 3) 4) 0 0 0 0 9 0 /\
  corner_jet (surfVertex true quads quads quads flatGD flatG (surfPhi true 3) 4) 0 0 0 0 (- (9)) 0.
Proof.
  assert (ID : interface_data wider7 zero4 widerGD flatGD) by (cbn; repeat split; reflexivity).
  assert (Z : forall s, defect widerR flatL wider7 s = (0, 0, 0)) by (intros t; unfold defect, comb3, widerR, flatL, Fu, Fv, aR, aL, bt, lin, quadr, wider7; cbn [Xu Xv Yu Yv Zu Zv fst snd]; repeat (apply pair_equal_spec; split); ring).
  split; [exact ID|]. split; [exact wider_mapped|]. split; [exact flat_mapped|]. split; [exact Z|]. split; [|split].
  - intros s P. apply (surf_smooth_pf true rowsM widerR flatL wider7 zero4 widerGD flatGD widerG flatG quads quads quads quads quads quads 3 4 quads_good quads_good ltac:(lia) eq_refl eq_refl ID widerGD_nz flatGD_nz wider_mapped flat_mapped).
    + intros t. reflexivity.
    + exact Z.
    + intros t. unfold split_defect, aL, aR, bR, bL, bt, lin, quadr, wider7, zero4. ring.
    + unfold independent, dot3, widerR, Fu, Fv. cbn [Xu Xv Yu Yv Zu Zv fst snd]. replace (_ - _) with ((1 + s) * (1 + s)) by ring. assert (0 < 1 + s) by lra. pose proof (Rmult_lt_0_compat _ _ H H). lra.
    + unfold aR, lin, wider7. lra.
    + unfold aL, lin, wider7. lra.
  - pose proof (surf_corner_pf true quads quads quads widerGD widerG 3 4 quads_good widerGD_nz ltac:(lia)) as C. cbn [monomial jv] in C.
    unfold along2, along1, tangent, tangent', across' in C. cbn [jx jy jxx jxy jyy widerG gjac gder2 Nat.mul Nat.add Nat.sub] in C. cbv zeta in C.
    match type of C with corner_jet _ _ ?a ?b ?c ?d ?e => replace c with 0 in C by ring; replace d with 9 in C by ring; replace e with 0 in C by ring; replace b with 0 in C by ring; replace a with 0 in C by ring end. exact C.
  - pose proof (surf_corner_pf true quads quads quads flatGD flatG 3 4 quads_good flatGD_nz ltac:(lia)) as C. cbn [monomial jv] in C.
    unfold along2, along1, tangent, tangent', across' in C. cbn [jx jy jxx jxy jyy flatG gjac gder2 Nat.mul Nat.add Nat.sub] in C. cbv zeta in C.
    match type of C with corner_jet _ _ ?a ?b ?c ?d ?e => replace c with 0 in C by ring; replace d with (- (9)) in C by ring; replace e with 0 in C by ring; replace b with 0 in C by ring; replace a with 0 in C by ring end. exact C.
Qed.
