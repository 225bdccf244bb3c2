(** Examples for C57 and C58. *)
From Coq Require Import Lra.
From Verif Require Import Common SplineModel SplineSpec SplineProofs GluingModel GluingSpec GluingProofs GluingExamples SurfGDModel SurfGDSpec SurfGDProofs SurfGDProofs2.
Open Scope R_scope.

(** two squares beside each other: F_R(u,v) = (u,v), F_L(u,v) = (-v,u) *)
Definition flatR (_ : R * R) : J3 := mkJ3 1 0 0 1 0 0.
Definition flatL (_ : R * R) : J3 := mkJ3 0 (-1) 1 0 0 0.
(** the right patch is a parallelogram: F_R(u,v) = (u,u+v) *)
Definition skewR (_ : R * R) : J3 := mkJ3 1 0 1 1 0 0.
(** the right patch is a trapezium: F_R(u,v) = (u(1+v),v) *)
Definition widerR (x : R * R) : J3 := mkJ3 (1 + snd x) (fst x) 0 1 0 0.
(** constant data *)
Definition ones7 (i : nat) : R := match i with 0%nat | 1%nat | 2%nat | 3%nat => 1 | _ => 0 end.
Definition skew7 (i : nat) : R := match i with 0%nat | 1%nat | 2%nat | 3%nat => 1 | _ => -1 end.
Definition skew4 (i : nat) : R := match i with 0%nat | 1%nat => -1 | _ => 0 end.
Definition wider7 (i : nat) : R := match i with 0%nat => 1 | 1%nat => 2 | 2%nat | 3%nat => 1 | _ => 0 end.
Definition all7 (i : nat) : R := 1.
Definition half4 (i : nat) : R := match i with 0%nat | 1%nat => 1 | _ => 0 end.

Lemma all_or {A} (P : A -> Prop) (l : list A) : (forall x, {P x} + {~ P x}) -> (forall x, In x l -> P x) \/ exists x, In x l /\ ~ P x.
Proof.
  intros D. induction l as [|y l [IH|(x & X & N)]]; [left; intros x []| |right; exists x; split; [right; exact X|exact N]].
  destruct (D y) as [Y|N]; [left; intros x [<-|X]; [exact Y|apply IH, X]|right; exists y; split; [left; reflexivity|exact N]].
Qed.
Lemma vec_dec (a b : R * R * R) : {a = b} + {a <> b}.
Proof. destruct a as [[a1 a2] a3], b as [[b1 b2] b3]. destruct (Req_EM_T a1 b1) as [->|N]; [|right; congruence]. destruct (Req_EM_T a2 b2) as [->|N]; [|right; congruence]. destruct (Req_EM_T a3 b3) as [->|N]; [left; reflexivity|right; congruence]. Qed.

Theorem exact_refuted_pf : exists jacR jacL g, (forall t, defect jacR jacL g t = (0, 0, 0)) /\ (forall t, 0 <= t -> 0 < aR g t /\ 0 < aL g t) /\
  forall lam els c, lam <> 0 -> good_rule (concat els) -> solves 7 (sysMat jacR jacL lam els) (sysRhs lam els) c -> exists k, In k (concat els) /\ defect jacR jacL c (qt k) <> (0, 0, 0).
Proof.
  exists widerR, flatL, wider7. split; [|split].
  - intros t. unfold defect, comb3, widerR, flatL, Fu, Fv, aR, aL, bt, lin, quadr, wider7. cbn [Xu Xv Yu Yv Zu Zv fst snd]. repeat (apply pair_equal_spec; split); ring.
  - intros t T. unfold aR, aL, lin, wider7. split; lra.
  - intros lam els c NL GR S. destruct (all_or (fun k => defect widerR flatL c (qt k) = (0, 0, 0)) (concat els)) as [Z|H]; [intros k; apply vec_dec| |exact H]. exfalso.
    pose proof (proj1 (exact_pf widerR flatL lam els c NL GR Z) S) as O. destruct GR as (_ & k & l & K & L & NE).
    assert (N0 : forall q, In q (concat els) -> qt q = 0).
    { intros q Q. pose proof (Z q Q) as E. destruct (O (qt q)) as (A & B). unfold defect in E. rewrite A, B in E. unfold comb3, widerR, flatL, Fu, Fv in E. cbn [Xu Xv Yu Yv Zu Zv fst snd] in E. injection E as E _ _. lra. }
    apply NE. rewrite (N0 k K), (N0 l L). reflexivity.
Qed.

Theorem minimum_refuted_pf : exists jacR jacL c, forall lam els, 0 < lam -> (forall k, In k (concat els) -> 0 < qw k) -> concat els <> [] ->
  solves 7 (sysMat jacR jacL lam els) (sysRhs lam els) c /\ exists d, cost jacR jacL lam (concat els) (plus_vec c d) < cost jacR jacL lam (concat els) c.
Proof.
  exists flatR, flatL, ones7. intros lam els PL PW NE.
  assert (Z : forall t, defect flatR flatL ones7 t = (0, 0, 0)) by (intros t; unfold defect, comb3, flatR, flatL, Fu, Fv, aR, aL, bt, lin, quadr, ones7; cbn [Xu Xv Yu Yv Zu Zv]; repeat (apply pair_equal_spec; split); ring).
  assert (A : forall t, aR ones7 t = 1 /\ aL ones7 t = 1) by (intros t; unfold aR, aL, lin, ones7; split; ring).
  assert (S : solves 7 (sysMat flatR flatL lam els) (sysRhs lam els) ones7).
  { apply solves_residual. intros d. rewrite sys_residual. rewrite <- (total_zero (concat els)). apply total_ext. intros k _. unfold variation. rewrite Z. destruct (A (qt k)) as (-> & ->). destruct (defect _ _ d _) as [[x y] z]. cbn. ring. }
  split; [exact S|]. exists ones7. rewrite (proj1 (stationary_pf flatR flatL lam els ones7) S). assert (C : curvature flatR flatL lam (concat els) ones7 = -2 * lam * total qw (concat els)).
  { unfold curvature. rewrite <- total_scal. apply total_ext. intros k _. rewrite Z. destruct (A (qt k)) as (-> & ->). cbn. ring. }
  assert (P : 0 < total qw (concat els)). { destruct (concat els) as [|q l]; [contradiction|]. cbn [total]. assert (0 <= total qw l). { assert (H : forall k, In k l -> 0 < qw k) by (intros k K; apply PW; right; exact K). clear -H. induction l as [|y l IH]; cbn [total]; [lra|]. pose proof (H y (or_introl eq_refl)). specialize (IH ltac:(intros k K; apply H; right; exact K)). lra. } specialize (PW q (or_introl eq_refl)). lra. }
  rewrite C. pose proof (Rmult_lt_0_compat _ _ PL P). lra.
Qed.

Theorem split_refuted_pf : exists g e, (forall t, split_defect g e t = 0) /\ (forall t, 0 < aR g t /\ 0 < aL g t) /\
  forall lam els c, lam <> 0 -> good_rule (concat els) -> solves 4 (sysMatBeta g lam els) (sysRhsBeta g els) c -> exists k, In k (concat els) /\ split_defect g c (qt k) <> 0.
Proof.
  exists all7, half4. split; [|split].
  - intros t. unfold split_defect, aL, aR, bR, bL, bt, lin, quadr, all7, half4. ring.
  - intros t. unfold aR, aL, lin, all7. lra.
  - intros lam els c NL GR S. destruct (all_or (fun k => split_defect all7 c (qt k) = 0) (concat els)) as [Z|H]; [intros k; apply Req_EM_T| |exact H]. exfalso.
    pose proof (proj1 (split_exact_pf all7 lam els c NL GR Z) S) as O. destruct GR as (_ & k & l & K & L & NE). pose proof (Z k K) as E. unfold split_defect in E. destruct (O (qt k)) as (A & B). rewrite A, B in E. unfold bt, quadr, all7 in E. lra.
Qed.

(** one element with three nodes (Simpson), and a solution of the system with beta different from 0 *)
Definition simpson : list (list qnode) := [[mkNode 0 (1 / 6); mkNode (1 / 2) (4 / 6); mkNode 1 (1 / 6)]].
Theorem solution_example_pf : good_rule (concat simpson) /\ (forall t, defect skewR flatL skew7 t = (0, 0, 0)) /\ (forall lam, solves 7 (sysMat skewR flatL lam simpson) (sysRhs lam simpson) skew7) /\ bt skew7 0 = -1 /\
  split_defect skew7 skew4 0 = 0 /\ solves 4 (sysMatBeta skew7 0 simpson) (sysRhsBeta skew7 simpson) skew4.
Proof.
  assert (Z : forall t, defect skewR flatL skew7 t = (0, 0, 0)) by (intros t; unfold defect, comb3, skewR, flatL, Fu, Fv, aR, aL, bt, lin, quadr, skew7; cbn [Xu Xv Yu Yv Zu Zv]; repeat (apply pair_equal_spec; split); ring).
  split; [|split; [exact Z|split; [|split; [|split]]]].
  - split; [intros k [<-|[<-|[<-|[]]]]; cbn; lra|]. exists (mkNode 0 (1 / 6)), (mkNode 1 (1 / 6)). split; [left; reflexivity|]. split; [right; right; left; reflexivity|]. cbn. lra.
  - intros lam. apply solves_residual. intros d. rewrite sys_residual. rewrite <- (total_zero (concat simpson)). apply total_ext. intros k _. unfold variation. rewrite Z. destruct (defect _ _ d _) as [[x y] z]. cbn -[aR aL]. unfold aR, aL, lin, skew7. ring.
  - unfold bt, quadr, skew7. ring.
  - unfold split_defect, aL, aR, bR, bL, bt, lin, quadr, skew7, skew4. ring.
  - apply solves_residual. intros d. rewrite sys_residualB. etransitivity; [|exact (total_zero (concat simpson))]. apply total_ext. intros k _. unfold variationB, split_defect, aL, aR, bR, bL, bt, lin, quadr, skew7, skew4. ring.
Qed.

(** degree 2 with one double inner knot, and without inner knots *)
Definition two : sbasis := mkSB [0; 0; 0; 1; 1; 2; 2; 2] 2.
Definition one : sbasis := mkSB [0; 0; 0; 2; 2; 2] 2.
Lemma two_open : open_basis two 5.
Proof.
  split; [cbn; lia|]. split; [|split].
  - intros i j x y L X Y. cbn [sknots two] in *.
    do 8 (destruct i as [|i]; [do 8 (destruct j as [|j]; [try lia; cbn in X, Y; injection X as <-; injection Y as <-; lra|]); destruct j; discriminate|]); destruct i; discriminate.
  - intros i L. cbn in L. destruct i as [|[|[|i]]]; [reflexivity..|lia].
  - exists 1. split; [reflexivity|lra].
Qed.
Lemma one_open : open_basis one 3.
Proof.
  split; [cbn; lia|]. split; [|split].
  - intros i j x y L X Y. cbn [sknots one] in *.
    do 6 (destruct i as [|i]; [do 6 (destruct j as [|j]; [try lia; cbn in X, Y; injection X as <-; injection Y as <-; lra|]); destruct j; discriminate|]); destruct i; discriminate.
  - intros i L. cbn in L. destruct i as [|[|[|i]]]; [reflexivity..|lia].
  - exists 2. split; [reflexivity|lra].
Qed.
Lemma two_double : double_start two. Proof. exists 1. split; reflexivity. Qed.
Lemma one_double : double_start one. Proof. exists 2. split; reflexivity. Qed.

Theorem meshes_refuted_pf : exists jacR jacL compR compL bs n sol solB bfID,
  open_basis (compR 0%nat) 2 /\ (1 <= sdeg (compR 0%nat))%nat /\ double_start (compR 0%nat) /\ open_basis (compL 1%nat) 2 /\ (1 <= sdeg (compL 1%nat))%nat /\ double_start (compL 1%nat) /\ open_basis bs n /\ (bfID < n)%nat /\
  (forall s, independent (Fu (jacR (0, s))) (Fv (jacR (0, s))) /\ Fu (jacL (s, 0)) = Fv (jacR (0, s)) /\ aR sol s = 1 /\ aL sol s = 1 /\ defect jacR jacL sol s = (0, 0, 0) /\ split_defect sol solB s = 0) /\
  ~ exists v g, smooth3 jacR 1 (surfEdge compR bs sol solB false false bfID 1) 0 v g /\ smooth3 jacL 0 (surfEdge compL bs sol solB false false bfID 0) 0 v g.
Proof.
  assert (Z : forall t, defect flatR flatL ones7 t = (0, 0, 0)) by (intros t; unfold defect, comb3, flatR, flatL, Fu, Fv, aR, aL, bt, lin, quadr, ones7; cbn [Xu Xv Yu Yv Zu Zv]; repeat (apply pair_equal_spec; split); ring).
  exists flatR, flatL, (fun _ => two), (fun _ => one), two, 5%nat, ones7, (fun _ => 0), 0%nat. assert (O2 : open_basis two 2) by (apply (open_less _ 5); [lia|exact two_open]). assert (O1 : open_basis one 2) by (apply (open_less _ 3); [lia|exact one_open]).
  split; [exact O2|]. split; [cbn; lia|]. split; [exact two_double|]. split; [exact O1|]. split; [cbn; lia|]. split; [exact one_double|]. split; [exact two_open|]. split; [lia|]. split.
  - intros s. split; [unfold independent; cbn; lra|]. split; [reflexivity|]. split; [unfold aR, lin, ones7; ring|]. split; [unfold aL, lin, ones7; ring|]. split; [apply Z|]. unfold split_defect, aR, aL, bR, bL, bt, lin, quadr, ones7. ring.
  - intros (v & g & SR & SL). destruct (minus_defect_pf (fun _ => two) (fun _ => one) two 5 ones7 (fun _ => 0) 0 0 O2 ltac:(cbn; lia) two_double O1 ltac:(cbn; lia) one_double two_open ltac:(lia)) as (m & dR & dL & JR & JL & E & G).
    pose proof (smooth_glues flatR flatL ones7 0 _ _ 0 0 dR dL v v g (Z 0) JR JL SR SL) as H. pose proof (first_value two 5 two_open 0 ltac:(lia)) as V. cbn [Nat.eqb] in V. rewrite V in E. injection E as <-.
    unfold slope, tknot in G. cbn [sdeg sknots two one Nat.add nth] in G. assert (A : aR ones7 0 = 1 /\ aL ones7 0 = 1) by (unfold aR, aL, lin, ones7; split; ring). destruct A as (A & B). rewrite A, B in *. replace (INR 2) with 2 in G by (cbn; lra). lra.
Qed.

Theorem simple_knots_refuted_pf : exists jacR jacL compR compL bs n sol solB bfID,
  open_basis (compR 0%nat) 2 /\ (1 <= sdeg (compR 0%nat))%nat /\ open_basis (compL 1%nat) 2 /\ (1 <= sdeg (compL 1%nat))%nat /\ open_basis bs n /\ (bfID < n)%nat /\
  (forall s, independent (Fu (jacR (0, s))) (Fv (jacR (0, s))) /\ Fu (jacL (s, 0)) = Fv (jacR (0, s)) /\ aR sol s = 1 /\ aL sol s = 1 /\ defect jacR jacL sol s = (0, 0, 0) /\ split_defect sol solB s = 0) /\
  ~ exists v g, smooth3 jacR 1 (surfEdge compR bs sol solB false true bfID 1) 0 v g /\ smooth3 jacL 0 (surfEdge compL bs sol solB false true bfID 0) 0 v g.
Proof.
  assert (Z : forall t, defect skewR flatL skew7 t = (0, 0, 0)) by (intros t; unfold defect, comb3, skewR, flatL, Fu, Fv, aR, aL, bt, lin, quadr, skew7; cbn [Xu Xv Yu Yv Zu Zv]; repeat (apply pair_equal_spec; split); ring).
  exists skewR, flatL, (fun _ => quad), (fun _ => quad), quad, 4%nat, skew7, skew4, 0%nat. assert (O : open_basis quad 2) by (apply (open_less _ 4); [lia|exact quad_open]).
  split; [exact O|]. split; [cbn; lia|]. split; [exact O|]. split; [cbn; lia|]. split; [exact quad_open|]. split; [lia|]. split.
  - intros s. split; [unfold independent; cbn; lra|]. split; [reflexivity|]. split; [unfold aR, lin, skew7; ring|]. split; [unfold aL, lin, skew7; ring|]. split; [apply Z|]. unfold split_defect, aR, aL, bR, bL, bt, lin, quadr, skew7, skew4. ring.
  - intros (v & g & SR & SL).
    destruct (plus_jet_gen (fun _ => quad) quad 4 skew7 skew4 false 0 1 0 2 O ltac:(cbn; lia) eq_refl quad_open ltac:(lia)) as (N & N' & E & E' & _ & JR).
    destruct (plus_jet_gen (fun _ => quad) quad 4 skew7 skew4 false 0 0 0 2 O ltac:(cbn; lia) eq_refl quad_open ltac:(lia)) as (M & M' & F & F' & _ & JL).
    assert (EQ : N 0 = M 0) by (specialize (E 0); specialize (F 0); congruence). assert (EQ' : N' 0 = M' 0) by (specialize (E' 0); specialize (F' 0); congruence). rewrite <- EQ, <- EQ' in JL.
    pose proof (smooth_glues skewR flatL skew7 0 _ _ _ _ _ _ v v g (Z 0) JR JL SR SL) as H. pose proof (first_deriv quad 4 quad_open 0 ltac:(cbn; lia) ltac:(lia)) as V. rewrite E' in V. injection V as V. cbv iota in V. rewrite V in H.
    unfold bSide, aR, aL, bR, bL, bt, lin, quadr, skew7, skew4, tknot in H. cbn [sdeg sknots quad Nat.add nth Nat.sub] in H. replace (INR 2) with 2 in H by (cbn; lra). lra.
Qed.

(** parallelograms: the two parts of beta are -1 and 0 *)
Theorem smooth_example_pf : exists v g, evalSingle two 1 1 = Ok v /\
  smooth3 skewR 1 (surfEdge (fun _ => two) two skew7 skew4 false true 1 1) 1 v g /\ smooth3 flatL 0 (surfEdge (fun _ => two) two skew7 skew4 false true 1 0) 1 v g.
Proof.
  assert (O2 : open_basis two 2) by (apply (open_less _ 5); [lia|exact two_open]).
  apply (plus_smooth_pf skewR flatL (fun _ => two) (fun _ => two) two 5 skew7 skew4 1 1); try exact O2; try exact two_open; try exact two_double; try (cbn; lia); try reflexivity.
  - unfold independent; cbn; lra.
  - unfold aR, lin, skew7. lra.
  - unfold aL, lin, skew7. lra.
  - unfold defect, comb3, skewR, flatL, Fu, Fv, aR, aL, bt, lin, quadr, skew7; cbn [Xu Xv Yu Yv Zu Zv]; repeat (apply pair_equal_spec; split); ring.
  - unfold split_defect, aR, aL, bR, bL, bt, lin, quadr, skew7, skew4. ring.
Qed.
(** two nodes and two functions *)
Theorem projection_example_pf : let els := [[mkPNode 1 2 (fun i => match i with 0%nat => 1 | _ => 0 end) 3; mkPNode 2 1 (fun _ => 1 / 2) 4]] in
  solves 2 (projMat els) (projRhs els) (fun i => match i with 0%nat => 3 | _ => 5 end).
Proof. intros els i L. destruct i as [|[|i]]; [| |lia]; unfold projMat, projRhs, els; cbn [sumTo fold_left pw pmeas pval prhs]; field. Qed.
Theorem evalBeta_refuted_pf : exists c t, 0 < t < 1 /\ evalBeta c t <> bt c t.
Proof. exists (unit_at 5), (1 / 2). split; [lra|]. unfold evalBeta, bt, quadr, unit_at. cbn [Nat.eqb]. lra. Qed.
