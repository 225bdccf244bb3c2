(** Examples for C54. *)
From Coq Require Import Lra.
From Verif Require Import Common SplineModel SplineSpec SplineProofs GluingModel GluingSpec GluingProofs GluingExamples VfunModel VfunSpec VfunProofs.
Open Scope R_scope.

(** the two patches of C40 with an edge between them: along v on the left, along u on the right *)
Definition leftG : vgeo := mkVG (fun r c => match r, c with O, O => -1 | O, _ => 0 | _, O => 1 / 2 | _, _ => 1 end) (fun _ => 0).
Definition rightG : vgeo := mkVG (fun r c => match r, c with O, O => 0 | O, _ => 1 | _, O => 1 | _, _ => 0 end) (fun k => if (k =? 5)%nat then 1 else 0).
Definition leftGlue (_ : nat) : gdata := mkGD (fun _ => -1) (fun _ => - (1 / 2)) (fun _ => 0) (fun _ => 0).
Definition rightGlue (_ : nat) : gdata := mkGD (fun _ => -1) (fun s => - s) (fun _ => 0) (fun _ => - (1)).
Definition quads (_ : nat) : sbasis := quad.

Lemma quads_good : good_bases quads quads quads.
Proof.
  intros i _. unfold quads. assert (O2 : open_basis quad 2) by (apply (open_less quad 4); [lia|exact quad_open]). assert (O3 : open_basis quad 3) by (apply (open_less quad 4); [lia|exact quad_open]).
  split; [exact O2|]. split; [cbn; lia|]. split; [exact O3|]. split; [cbn; lia|]. split; [exact O2|cbn; lia].
Qed.
Lemma left_good : good_glue leftGlue (fun i => i =? 1)%nat.
Proof. intros i _ _. cbn. split; [lra|]. split; [exact (rderiv_const (-1) 0)|exact (rderiv_const (- (1 / 2)) 0)]. Qed.
Lemma right_good : good_glue rightGlue (fun i => i =? 0)%nat.
Proof.
  intros i _ _. cbn. split; [lra|]. split; [exact (rderiv_const (-1) 0)|]. eapply rderiv_eq; [eapply rderiv_ext; [|exact (rderiv_scal (- (1)) _ 0 _ (rderiv_id 0))]|]; [intros y; cbv beta; ring|ring].
Qed.
Lemma left_at : derivatives_at leftJ leftG 1.
Proof. split; [cbn; auto|]. split; [|split; [|split]]; [exact (rderiv_const 0 0)|exact (rderiv_const 1 0)|exact (rderiv_const (-1) 0)|exact (rderiv_const (1 / 2) 0)]. Qed.
Lemma right_at : derivatives_at rightJ rightG 0.
Proof. split; [cbn; auto|]. split; [|split; [|split]]; [exact (rderiv_const 0 0)|exact (rderiv_const 1 0)|exact (rderiv_const 1 0)|exact (rderiv_id 0)]. Qed.
Lemma left_exact : exact_glue leftJ leftGlue (fun i => i =? 1)%nat 1.
Proof.
  split; [reflexivity|]. split; intros s; [unfold alphaPlanar; cbn; ring|]. rewrite beta_dt; [|lia|cbn; intros E; injection E as E; lra]. unfold dt, nsq. cbn. field.
Qed.
Lemma right_exact : exact_glue rightJ rightGlue (fun i => i =? 0)%nat 0.
Proof.
  split; [reflexivity|]. split; intros s; [unfold alphaPlanar; cbn; ring|]. rewrite beta_dt; [|lia|cbn; intros E; injection E as E; lra]. unfold dt, nsq. cbn. field.
Qed.
Lemma same_tangent s : tangent2 (leftJ (near_edge 1 s 0)) 1 = tangent2 (rightJ (near_edge 0 s 0)) 0 /\ tangent2 (leftJ (near_edge 1 s 0)) 1 <> (0, 0).
Proof. cbn. split; [reflexivity|]. intros E. injection E as E. lra. Qed.

Theorem nonvacuous_pf : exists jacA glueA kindA GA jacB glueB kindB GB comp,
  good_bases comp comp comp /\ good_glue glueA kindA /\ good_glue glueB kindB /\ derivatives_at jacA GA 1 /\ derivatives_at jacB GB 0 /\
  exact_glue jacA glueA kindA 1 /\ exact_glue jacB glueB kindB 0 /\
  (forall s, tangent2 (jacA (near_edge 1 s 0)) 1 = tangent2 (jacB (near_edge 0 s 0)) 0) /\ (forall s, tangent2 (jacA (near_edge 1 s 0)) 1 <> (0, 0)) /\
  gbeta (glueA 1%nat) 1 <> gbeta (glueB 0%nat) 1 /\
  corner_jet (vertexEval false comp comp comp glueA kindA GA (PhiPlanar 3) 4) 0 0 0 (- (9)) (- (9)) 0 /\
  corner_jet (vertexEval false comp comp comp glueB kindB GB (PhiPlanar 3) 1) 0 0 3 0 0 0.
Proof.
  exists leftJ, leftGlue, (fun i => i =? 1)%nat, leftG, rightJ, rightGlue, (fun i => i =? 0)%nat, rightG, quads.
  split; [exact quads_good|]. split; [exact left_good|]. split; [exact right_good|]. split; [exact left_at|]. split; [exact right_at|]. split; [exact left_exact|]. split; [exact right_exact|].
  split; [intros s; apply same_tangent|]. split; [intros s; apply same_tangent|]. split; [cbn; lra|].
  split.
  - pose proof (corner_pf false quads quads quads leftGlue (fun i => i =? 1)%nat leftG 3 4 quads_good left_good ltac:(lia)) as C. cbn [monomial jv] in C.
    unfold along2, along1, tangent, tangent', across' in C. cbn [jx jy jxx jxy jyy leftG gjac gder2 Nat.mul Nat.add Nat.sub] in C. cbv zeta in C.
    match type of C with corner_jet _ _ ?a ?b ?c ?d ?e => replace a with 0 in C by ring; replace b with 0 in C by ring; replace c with (- (9)) in C by field; replace d with (- (9)) in C by field; replace e with 0 in C by ring end. exact C.
  - pose proof (corner_pf false quads quads quads rightGlue (fun i => i =? 0)%nat rightG 3 1 quads_good right_good ltac:(lia)) as C. cbn [monomial jv] in C.
    unfold along2, along1, tangent, tangent', across' in C. cbn [jx jy jxx jxy jyy rightG gjac gder2 Nat.mul Nat.add Nat.sub Nat.eqb] in C. cbv zeta in C.
    match type of C with corner_jet _ _ ?a ?b ?c ?d ?e => replace d with 0 in C by field; replace c with 0 in C by field; replace e with 0 in C by ring; replace b with 3 in C by ring; replace a with 0 in C by ring end. exact C.
Qed.
