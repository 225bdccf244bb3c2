(** Examples for C71 and C72 and proofs of the refutations. *)
From Coq Require Import Sorted.
From Verif Require Import Common TopoModel TopoSpec VertexModel VertexSpec RepairModel RepairSpec ListLemmas SplineModel BoehmModel BoehmSpec SmoothExamples VertexExamples RepairProofs RepairProofs3 MrefModel MrefSpec MrefProofs MrefProofs2 MrefProofs3 MrefProofs4 MrefProofs5.
Open Scope nat_scope.

(** degree 2, two spans of length 4; without the knot in the middle *)
Definition eight : list Z := [0; 0; 0; 4; 8; 8; 8]%Z.
Definition eight_base : vbase := mkVB eight eight 2 2.
Definition coarse : list Z := [0; 0; 0; 8; 8; 8]%Z.
Definition coarse_base : vbase := mkVB coarse coarse 2 2.
Definition fan8 : list vbase := [eight_base; eight_base; eight_base].
Definition len8 (_ _ : nat) : Z := 8%Z.
Definition two (_ _ : nat) : nat := 2.

Lemma eight_simple : simple_open 2 8 [4]%Z eight.
Proof. apply simple_inside. split; [reflexivity|]. split; [lia|]. split; [repeat constructor|]. intros x [<-|[]]. lia. Qed.
Lemma coarse_simple : simple_open 2 8 [] coarse.
Proof. apply simple_inside. split; [reflexivity|]. split; [lia|]. split; [constructor|]. intros x []. Qed.
Lemma bases_shaped t B : length B = tnp t -> (forall b, In b B -> b = eight_base \/ b = coarse_base) -> shaped t len8 two B.
Proof.
  intros LB H. split; [exact LB|]. split; [|split; reflexivity]. intros p b E dir _. apply nth_error_In in E. destruct (H b E) as [->| ->].
  - split; [destruct dir; reflexivity|]. exists [4%Z]. destruct dir; exact eight_simple.
  - split; [destruct dir; reflexivity|]. exists []. destruct dir; exact coarse_simple.
Qed.
Lemma fan8_shaped : shaped fan_topo len8 two fan8.
Proof. apply bases_shaped; [reflexivity|]. intros b [<-|[<-|[<-|[]]]]; now left. Qed.
Lemma span_list k a b : span_of k a b -> In (a, b) (spans k). Proof. apply spans_in. Qed.
Lemma eight_even : divisible 2 eight.
Proof. intros a b H. apply span_list in H. cbn in H. destruct H as [H|[H|[]]]; injection H as <- <-; now exists 2%Z. Qed.
Lemma eight_even_base dir : dir < 2 -> divisible 2 (knots eight_base dir).
Proof. intros _. destruct dir; exact eight_even. Qed.
Lemma eight_mid x : midpoint eight x -> x = 2%Z \/ x = 6%Z.
Proof. intros (a & b & H & E). apply span_list in H. cbn in H. destruct H as [H|[H|[]]]; injection H as <- <-; lia. Qed.
Lemma fan8_match f : In f (tif fan_topo) -> knots_match fan8 f.
Proof. intros [<-|[<-|[]]]; exists eight_base, eight_base; repeat split; intros i x H; exact H. Qed.
Lemma single_apart X : apart eight_base [X].
Proof. intros dir x [|i] [|j] Y Z _ _ E1 E2 _ _; try reflexivity; try (destruct j; discriminate); destruct i; discriminate. Qed.

(** one box *)
Definition leftBox : box := mkBox 0 0 4 8.
Definition fan8_refined : list vbase :=
  [mkVB [0; 0; 0; 2; 4; 8; 8; 8] [0; 0; 0; 2; 4; 6; 8; 8; 8] 2 2; mkVB [0; 0; 0; 2; 4; 6; 8; 8; 8] eight 2 2; eight_base]%Z.
Lemma refine_example : consistent fan_topo /\ shaped fan_topo len8 two fan8 /\ nth_error fan8 0 = Some eight_base /\ (forall dir, dir < 2 -> divisible 2 (knots eight_base dir)) /\ apart eight_base [leftBox] /\
  (forall f, In f (tif fan_topo) -> knots_match fan8 f) /\ total fan8 = length (repeat 1%R 48) /\ refineBoxes 20 fan_topo fan8 0 [leftBox] true = Ok fan8_refined.
Proof.
  split; [exact fan_consistent|]. split; [exact fan8_shaped|]. split; [reflexivity|]. split; [exact eight_even_base|]. split; [apply single_apart|]. split; [exact fan8_match|]. split; [rewrite repeat_length; reflexivity|vm_compute; reflexivity].
Qed.

(** two boxes side by side *)
Definition boxA : box := mkBox 0 0 4 4.
Definition boxB : box := mkBox 4 0 8 4.
Definition twice_result : list vbase :=
  [mkVB [0; 0; 0; 2; 4; 6; 8; 8; 8] [0; 0; 0; 2; 2; 4; 8; 8; 8] 2 2; mkVB [0; 0; 0; 2; 4; 8; 8; 8] eight 2 2; eight_base]%Z.
Theorem twice_refuted_pf : exists t L D B P boxes N B', consistent t /\ shaped t L D B /\ (forall f, In f (tif t) -> knots_match B f) /\ (forall b dir, In b B -> dir < 2 -> divisible 2 (knots b dir)) /\ P < tnp t /\
  (forall i j X Y, i < j -> nth_error boxes i = Some X -> nth_error boxes j = Some Y -> disjoint X Y) /\
  (forall fuel, N < fuel -> refineBoxes fuel t B P boxes true = Ok B') /\ exists f, In f (tif t) /\ ~ knots_match B' f.
Proof.
  exists fan_topo, len8, two, fan8, 0, [boxA; boxB], 19, twice_result. split; [exact fan_consistent|]. split; [exact fan8_shaped|]. split; [exact fan8_match|]. split; [intros b dir [<-|[<-|[<-|[]]]]; apply eight_even_base|]. split; [cbn; lia|]. split.
  - intros [|[|i]] [|[|j]] X Y LT E1 E2; cbn in E1, E2; try lia; try discriminate; try (destruct j; discriminate); injection E1 as <-; injection E2 as <-; left; cbn; lia.
  - split.
    + intros fuel FU. do 20 (destruct fuel as [|fuel]; [lia|]). vm_compute. reflexivity.
    + exists (mkI (0, West) (1, South) false). split; [now left|]. intros (b & b' & Eb & Eb' & _ & LE & _). cbn in Eb, Eb'. injection Eb as <-. injection Eb' as <-. cbn in LE. lia.
Qed.

(** the first element, given by indices *)
Theorem elements_refuted_pf : exists t L D B P v X, consistent t /\ shaped t L D B /\ P < tnp t /\ boxesVectorToMatrix v = Ok [X] /\ (bLo0 X < bHi0 X)%Z /\ (bLo1 X < bHi1 X)%Z /\
  forall fuel, 3 < fuel -> refineElements fuel t B P v true = Ok B.
Proof.
  exists fan_topo, len8, two, fan8, 0, [1; 0; 0; 1; 1]%Z, (mkBox 0 0 1 1). split; [exact fan_consistent|]. split; [exact fan8_shaped|]. split; [cbn; lia|]. split; [reflexivity|]. cbn. split; [lia|]. split; [lia|]. intros fuel FU. do 4 (destruct fuel as [|fuel]; [lia|]). vm_compute. reflexivity.
Qed.

(** refining without the repair *)
Definition upBox : box := mkBox 0 0 1 4.
Lemma fan8_up : upd fan8 0 (insertKnots eight_base (midKnots (map (rangeOf 0) [upBox]) (knots eight_base 0)) (midKnots (map (rangeOf 1) [upBox]) (knots eight_base 1))) = [mkVB eight [0; 0; 0; 2; 4; 8; 8; 8] 2 2; eight_base; eight_base]%Z.
Proof. vm_compute. reflexivity. Qed.
Lemma up_mismatch q B : B = [mkVB eight [0; 0; 0; 2; 4; 8; 8; 8] 2 2; eight_base; q]%Z -> ~ knots_match B (mkI (0, West) (1, South) false).
Proof. intros -> (b & b' & Eb & Eb' & _ & LE & _). cbn in Eb, Eb'. injection Eb as <-. injection Eb' as <-. cbn in LE. lia. Qed.
Theorem idle_refuted_pf : exists t L D B P boxes, consistent t /\ shaped t L D B /\ (forall f, In f (tif t) -> knots_match B f) /\ (forall b dir, In b B -> dir < 2 -> divisible 2 (knots b dir)) /\
  forall fuel c, length c = total B -> exists B' c', refineAndSmooth boehm2 fuel t B c P boxes = Ok (B', c') /\ exists f, In f (tif t) /\ ~ knots_match B' f.
Proof.
  exists fan_topo, len8, two, fan8, 0, [upBox]. split; [exact fan_consistent|]. split; [exact fan8_shaped|]. split; [exact fan8_match|]. split; [intros b dir [<-|[<-|[<-|[]]]]; apply eight_even_base|].
  intros fuel c LC. destruct (refineC_idle_pf fan_topo len8 two fan8 0 eight_base [upBox] fan8_shaped eq_refl eight_even_base (single_apart _) fuel c LC) as (c' & E & _).
  eexists _, c'. split; [exact E|]. exists (mkI (0, West) (1, South) false). split; [now left|]. rewrite fan8_up. eapply up_mismatch. reflexivity.
Qed.
(** a second refinement repairs from its own patch only *)
Definition fan8_first : list vbase := [mkVB eight [0; 0; 0; 2; 4; 8; 8; 8] 2 2; eight_base; eight_base]%Z.
Lemma first_shaped : shaped fan_topo len8 two fan8_first.
Proof. rewrite <- (fan8_up : _ = fan8_first). exact (B1_shaped fan_topo len8 two fan8 0 eight_base [upBox] fan8_shaped eq_refl eight_even_base (single_apart _)). Qed.
Definition fan8_second : list vbase := [mkVB eight [0; 0; 0; 2; 4; 8; 8; 8] 2 2; eight_base; mkVB eight [0; 0; 0; 2; 4; 8; 8; 8] 2 2]%Z.
Lemma second_up : upd fan8_first 2 (insertKnots eight_base (midKnots (map (rangeOf 0) [upBox]) (knots eight_base 0)) (midKnots (map (rangeOf 1) [upBox]) (knots eight_base 1))) = fan8_second.
Proof. vm_compute. reflexivity. Qed.
Theorem pending_refuted_pf : exists t L D B P Q boxes, consistent t /\ shaped t L D B /\ (forall f, In f (tif t) -> knots_match B f) /\ (forall b dir, In b B -> dir < 2 -> divisible 2 (knots b dir)) /\
  forall fuel c, 2 < fuel -> length c = total B -> exists B1 c1 B' c', refineBoxesC boehm2 fuel t B c P boxes false = Ok (B1, c1) /\ refineBoxesC boehm2 fuel t B1 c1 Q boxes true = Ok (B', c') /\
    exists f, In f (tif t) /\ ~ knots_match B' f.
Proof.
  exists fan_topo, len8, two, fan8, 0, 2, [upBox]. split; [exact fan_consistent|]. split; [exact fan8_shaped|]. split; [exact fan8_match|]. split; [intros b dir [<-|[<-|[<-|[]]]]; apply eight_even_base|].
  intros fuel c FU LC. destruct (refineC_idle_pf fan_topo len8 two fan8 0 eight_base [upBox] fan8_shaped eq_refl eight_even_base (single_apart _) fuel c LC) as (c1 & E & _ & LC1 & _). rewrite fan8_up in E, LC1.
  destruct (refineC_any_pf fan_topo fan_consistent len8 two fan8_first 2 eight_base [upBox] first_shaped eq_refl eight_even_base (single_apart _) fuel c1 fan8_second LC1) as (c2 & E2 & _).
  { rewrite second_up. do 3 (destruct fuel as [|fuel]; [lia|]). vm_compute. reflexivity. }
  eexists _, c1, _, c2. split; [exact E|]. split; [exact E2|]. exists (mkI (0, West) (1, South) false). split; [now left|]. eapply up_mismatch. reflexivity.
Qed.

(** ** C72 *)
Definition pair8 : list vbase := [eight_base; coarse_base].
Lemma pair8_shaped : shaped two_patches_topo len8 two pair8.
Proof. apply bases_shaped; [reflexivity|]. intros b [<-|[<-|[]]]; [now left|now right]. Qed.
Definition pair8_coefs : list (list R) := [repeat 1%R 16; repeat 1%R 9].
Lemma pair8_fits : blocks_fit pair8 pair8_coefs.
Proof. repeat constructor. Qed.
Theorem c0_refuted_pf : exists t L D B (cs : list (list R)), consistent t /\ shaped t L D B /\ 0 < tnp t /\ blocks_fit B cs /\
  (exists N, forall fuel, N < fuel -> exists r, splineOf boehm2 fuel t B cs = Ok r) /\ forall fuel, splineWithC0 fuel t B cs = Err.
Proof.
  exists two_patches_topo, len8, two, pair8, pair8_coefs. split; [exact two_consistent|]. split; [exact pair8_shaped|]. split; [cbn; lia|]. split; [exact pair8_fits|]. split.
  - destruct (spline_pf two_patches_topo two_consistent len8 two pair8 pair8_shaped pair8_coefs pair8_fits ltac:(cbn; lia)) as (N & B' & c' & H & _). exists N. intros fuel FU. exists (B', c'). now apply H.
  - intros fuel. unfold splineWithC0. destruct fuel as [|[|[|fuel]]]; reflexivity.
Qed.
Theorem smooth_refuted_pf : exists t L D B, consistent t /\ shaped t L D B /\ (forall b dir, In b B -> dir < 2 -> divisible 2 (knots b dir)) /\ uniformRefine B 1 1 <> B /\
  forall c, length c = total B -> exists c', uniformRefineAndSmooth boehm2 B c 1 = Ok (B, c').
Proof.
  exists fan_topo, len8, two, fan8. split; [exact fan_consistent|]. split; [exact fan8_shaped|]. split; [intros b dir [<-|[<-|[<-|[]]]]; apply eight_even_base|]. split; [intros C; vm_compute in C; discriminate|].
  intros c LC. assert (DV : forall p b dir, nth_error fan8 p = Some b -> dir < 2 -> divisible (1 + 1) (knots b dir)).
  { intros p b dir E DL. apply nth_error_In in E. destruct E as [<-|[<-|[<-|[]]]]; now apply eight_even_base. }
  destruct (uniformC_pf fan_topo len8 two fan8 fan8_shaped 1 DV 0 c LC) as (c' & E & _). exists c'. unfold uniformRefineAndSmooth. rewrite E. f_equal.
Qed.
Definition fine : list Z := [0; 0; 0; 2; 4; 6; 8; 8; 8]%Z.
Lemma uniform_example : consistent fan_topo /\ shaped fan_topo len8 two fan8 /\ (forall p b dir, nth_error fan8 p = Some b -> dir < 2 -> divisible (1 + 1) (knots b dir)) /\ (forall f, In f (tif fan_topo) -> knots_match fan8 f) /\
  uniformRefine fan8 1 1 = [mkVB fine fine 2 2; mkVB fine fine 2 2; mkVB fine fine 2 2].
Proof.
  split; [exact fan_consistent|]. split; [exact fan8_shaped|]. split; [|split; [exact fan8_match|vm_compute; reflexivity]]. intros p b dir E DL. apply nth_error_In in E. destruct E as [<-|[<-|[<-|[]]]]; now apply eight_even_base.
Qed.
Lemma spline_example : consistent two_patches_topo /\ shaped two_patches_topo len8 two pair8 /\ 0 < tnp two_patches_topo /\ blocks_fit pair8 pair8_coefs /\
  repairPatches 20 two_patches_topo pair8 None = Ok [eight_base; mkVB coarse eight 2 2].
Proof. split; [exact two_consistent|]. split; [exact pair8_shaped|]. split; [cbn; lia|]. split; [exact pair8_fits|vm_compute; reflexivity]. Qed.

(** all patches at once *)
Definition all_boxes : list (list Z) := [[1; 0; 0; 4; 8]; [1; 4; 4; 8; 8; 1; 0; 0; 4; 4]; []]%Z.
Definition all_box (p : nat) : list box := nth p [[leftBox]; [mkBox 4 4 8 8; mkBox 0 0 4 4]; []]%Z [].
Lemma all_example : consistent fan_topo /\ shaped fan_topo len8 two fan8 /\ 0 < tnp fan_topo /\ length all_boxes = length fan8 /\
  (forall p v, nth_error all_boxes p = Some v -> boxesVectorToMatrix v = Ok (all_box p)) /\ (forall p b dir, nth_error fan8 p = Some b -> dir < 2 -> divisible 2 (knots b dir)) /\
  (forall p b, nth_error fan8 p = Some b -> apart b (all_box p)) /\ total fan8 = length (repeat 1%R 48).
Proof.
  split; [exact fan_consistent|]. split; [exact fan8_shaped|]. split; [cbn; lia|]. split; [reflexivity|]. split.
  { intros [|[|[|[|p]]]] v E; try discriminate; injection E as <-; reflexivity. }
  split. { intros p b dir E DL. apply nth_error_In in E. destruct E as [<-|[<-|[<-|[]]]]; now apply eight_even_base. }
  split; [|rewrite repeat_length; reflexivity]. intros p b E. assert (b = eight_base) as -> by (apply nth_error_In in E; destruct E as [<-|[<-|[<-|[]]]]; reflexivity). destruct p as [|[|p]].
  - apply single_apart.
  - intros dir x [|[|i]] [|[|j]] X Y _ _ E1 E2; cbn in E1, E2; try reflexivity; try (destruct i; discriminate); try (destruct j; discriminate); injection E1 as <-; injection E2 as <-; destruct dir; cbn; lia.
  - unfold all_box. intros dir x i j X Y _ _ E1. exfalso. destruct p as [|[|p]]; cbn in E1; destruct i; discriminate.
Qed.
