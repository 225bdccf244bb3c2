(** Properties C71 and C72: refining a gsMPBESBSplineBasis. *)
From Verif Require Import Common TopoModel TopoSpec VertexModel VertexSpec RepairModel RepairSpec SplineModel BoehmModel BoehmSpec SmoothExamples VertexExamples MrefModel MrefSpec MrefProofs MrefProofs2 MrefProofs3 MrefProofs4 MrefProofs5 MrefExamples.
Open Scope nat_scope.

(** ** C71: refining one patch by boxes *)
(** A midpoint is inserted as many times as there are boxes whose range in that direction contains it; nothing else is inserted. *)
Theorem C71_inserted : forall b boxes dir, dir < 2 -> VertexSpec.ascending (knots b dir) -> divisible 2 (knots b dir) ->
  forall x, (midpoint (knots b dir) x -> count_occ Z.eq_dec (pick dir (boxToRefineKnots b boxes)) x = length (filter (in_rangeb dir x) boxes)) /\
    (~ midpoint (knots b dir) x -> count_occ Z.eq_dec (pick dir (boxToRefineKnots b boxes)) x = 0).
Proof. exact inserted_pf. Qed.
Print Assumptions C71_inserted.

(** The refinement succeeds; then all interfaces match, and the knots are those given, the midpoints in the boxes and what
    is carried over interfaces. *)
Theorem C71_refine : forall t, consistent t -> forall L D B P b boxes, shaped t L D B -> nth_error B P = Some b ->
  (forall dir, dir < 2 -> divisible 2 (knots b dir)) -> apart b boxes ->
  exists N B', (forall fuel, N < fuel -> refineBoxes fuel t B P boxes true = Ok B') /\ shaped t L D B' /\
    (forall f, In f (tif t) -> knots_match B' f) /\
    (forall p dir x, dir < 2 -> has_knot B' p dir x <-> refined t L B P boxes p dir x).
Proof. exact refine_pf. Qed.
Print Assumptions C71_refine.

(** With coefficients: the same, and the surface of every patch is unchanged. *)
Theorem C71_geometry : forall t, consistent t -> forall L D B P b boxes, shaped t L D B -> nth_error B P = Some b ->
  (forall dir, dir < 2 -> divisible 2 (knots b dir)) -> apart b boxes ->
  forall c, (forall f, In f (tif t) -> away_from P f -> knots_match B f) -> length c = total B ->
  exists N B' c', (forall fuel, N < fuel -> refineBoxesC boehm2 fuel t B c P boxes true = Ok (B', c')) /\ shaped t L D B' /\
    (forall f, In f (tif t) -> knots_match B' f) /\
    (forall p dir x, dir < 2 -> has_knot B' p dir x <-> refined t L B P boxes p dir x) /\
    same_surfaces B c B' c'.
Proof. exact refineC_pf. Qed.
Print Assumptions C71_geometry.

(** Two disjoint boxes side by side give double knots, and an interface that does not match. *)
Theorem C71_twice_refuted : exists t L D B P boxes N B', consistent t /\ shaped t L D B /\ (forall f, In f (tif t) -> knots_match B f) /\
  (forall b dir, In b B -> dir < 2 -> divisible 2 (knots b dir)) /\ P < tnp t /\
  (forall i j X Y, i < j -> nth_error boxes i = Some X -> nth_error boxes j = Some Y -> disjoint X Y) /\
  (forall fuel, N < fuel -> refineBoxes fuel t B P boxes true = Ok B') /\ exists f, In f (tif t) /\ ~ knots_match B' f.
Proof. exact twice_refuted_pf. Qed.
Print Assumptions C71_twice_refuted.

(** refineElements is the refinement by the boxes without their levels, with and without repair, with and without coefficients. *)
Theorem C71_elements : forall fuel t B P bs upd, refineElements fuel t B P (encode bs) upd = refineBoxes fuel t B P (map snd bs) upd /\
  forall c, refineElementsC boehm2 fuel t B c P (encode bs) upd = refineBoxesC boehm2 fuel t B c P (map snd bs) upd.
Proof. exact elements_boxes. Qed.
Print Assumptions C71_elements.

(** Without repair, the knots are inserted into the one patch and nothing else happens. *)
Theorem C71_quiet : forall fuel t B P b boxes, nth_error B P = Some b ->
  refineBoxes fuel t B P boxes false = Ok (upd B P (insertKnots b (fst (boxToRefineKnots b boxes)) (snd (boxToRefineKnots b boxes)))).
Proof. exact quiet_boxes. Qed.
Print Assumptions C71_quiet.

(** Element indices are taken for parameter values: asking for an element may refine nothing. *)
Theorem C71_elements_refuted : exists t L D B P v X, consistent t /\ shaped t L D B /\ P < tnp t /\ boxesVectorToMatrix v = Ok [X] /\ (bLo0 X < bHi0 X)%Z /\ (bLo1 X < bHi1 X)%Z /\
  forall fuel, 3 < fuel -> refineElements fuel t B P v true = Ok B.
Proof. exact elements_refuted_pf. Qed.
Print Assumptions C71_elements_refuted.

(** refineAndSmooth leaves the interfaces unmatched. *)
Theorem C71_unrepaired_refuted : exists t L D B P boxes, consistent t /\ shaped t L D B /\ (forall f, In f (tif t) -> knots_match B f) /\
  (forall b dir, In b B -> dir < 2 -> divisible 2 (knots b dir)) /\
  forall fuel c, length c = total B -> exists B' c', refineAndSmooth boehm2 fuel t B c P boxes = Ok (B', c') /\ exists f, In f (tif t) /\ ~ knots_match B' f.
Proof. exact idle_refuted_pf. Qed.
Print Assumptions C71_unrepaired_refuted.

(** A refinement with update does not repair what an earlier one without update left. *)
Theorem C71_pending_refuted : exists t L D B P Q boxes, consistent t /\ shaped t L D B /\ (forall f, In f (tif t) -> knots_match B f) /\
  (forall b dir, In b B -> dir < 2 -> divisible 2 (knots b dir)) /\
  forall fuel c, 2 < fuel -> length c = total B -> exists B1 c1 B' c', refineBoxesC boehm2 fuel t B c P boxes false = Ok (B1, c1) /\
    refineBoxesC boehm2 fuel t B1 c1 Q boxes true = Ok (B', c') /\ exists f, In f (tif t) /\ ~ knots_match B' f.
Proof. exact pending_refuted_pf. Qed.
Print Assumptions C71_pending_refuted.

(** A fan of three patches; one box on the first. *)
Theorem C71_nonvacuous : consistent fan_topo /\ shaped fan_topo len8 two fan8 /\ nth_error fan8 0 = Some eight_base /\ (forall dir, dir < 2 -> divisible 2 (knots eight_base dir)) /\ apart eight_base [leftBox] /\
  (forall f, In f (tif fan_topo) -> knots_match fan8 f) /\ total fan8 = length (repeat 1%R 48) /\ refineBoxes 20 fan_topo fan8 0 [leftBox] true = Ok fan8_refined.
Proof. exact refine_example. Qed.
Print Assumptions C71_nonvacuous.

(** ** C72: refining all patches, and the constructors of gsMPBESSpline *)
(** Uniform refinement keeps matched interfaces matched and divides every span. *)
Theorem C72_uniform : forall t, consistent t -> forall L D B, shaped t L D B ->
  forall num, (forall p b dir, nth_error B p = Some b -> dir < 2 -> divisible (num + 1) (knots b dir)) ->
  (forall f, In f (tif t) -> knots_match B f) ->
  shaped t L D (uniformRefine B num 1) /\ (forall f, In f (tif t) -> knots_match (uniformRefine B num 1) f) /\
  (forall p dir x, dir < 2 -> has_knot (uniformRefine B num 1) p dir x <->
    has_knot B p dir x \/ exists b, nth_error B p = Some b /\ division num (knots b dir) x).
Proof. exact uniform_pf. Qed.
Print Assumptions C72_uniform.

(** The surfaces do not change, for every multiplicity. *)
Theorem C72_uniform_geometry : forall t L D B, shaped t L D B ->
  forall num, (forall p b dir, nth_error B p = Some b -> dir < 2 -> divisible (num + 1) (knots b dir)) ->
  forall mul c, length c = total B ->
  exists c', uniformRefineC boehm2 B c num mul = Ok (uniformRefine B num mul, c') /\ same_surfaces B c (uniformRefine B num mul) c'.
Proof. exact uniformC_pf. Qed.
Print Assumptions C72_uniform_geometry.

(** Refining all patches by their own boxes. *)
Theorem C72_elements : forall t, consistent t -> forall L D B, shaped t L D B -> 0 < tnp t ->
  forall vs bx, length vs = length B -> (forall p v, nth_error vs p = Some v -> boxesVectorToMatrix v = Ok (bx p)) ->
  (forall p b dir, nth_error B p = Some b -> dir < 2 -> divisible 2 (knots b dir)) -> (forall p b, nth_error B p = Some b -> apart b (bx p)) ->
  forall c, length c = total B ->
  exists N B' c', (forall fuel, N < fuel -> refineAllElements boehm2 fuel t B c vs = Ok (B', c')) /\ shaped t L D B' /\
    (forall f, In f (tif t) -> knots_match B' f) /\
    (forall p dir x, dir < 2 -> has_knot B' p dir x <-> refined_all t L B bx p dir x) /\ same_surfaces B c B' c'.
Proof. exact refineAll_pf. Qed.
Print Assumptions C72_elements.

(** The constructor from a multi-patch makes the interfaces match and keeps the surfaces. *)
Theorem C72_construct : forall t, consistent t -> forall L D B, shaped t L D B -> forall cs, blocks_fit B cs -> 0 < tnp t ->
  exists N B' c', (forall fuel, N < fuel -> splineOf boehm2 fuel t B cs = Ok (B', c')) /\ shaped t L D B' /\
    (forall f, In f (tif t) -> knots_match B' f) /\
    (forall p dir x, dir < 2 -> has_knot B' p dir x <-> carried t L B p dir x) /\ same_surfaces B (concat cs) B' c'.
Proof. exact spline_pf. Qed.
Print Assumptions C72_construct.

(** The constructor with sharp corners succeeds exactly if the repair changes no size. *)
Theorem C72_c0 : forall t, consistent t -> forall L D B, shaped t L D B -> forall cs : list (list R), blocks_fit B cs -> 0 < tnp t ->
  exists N B', (forall fuel, N < fuel -> repairPatches fuel t B None = Ok B') /\
    (forall fuel, N < fuel -> match splineWithC0 fuel t B cs with
      | Ok _ => map (fun b => count0 b * count1 b) B' = map (fun b => count0 b * count1 b) B
      | Err => map (fun b => count0 b * count1 b) B' <> map (fun b => count0 b * count1 b) B
      end).
Proof. exact splineC0_pf. Qed.
Print Assumptions C72_c0.

(** There are multi-patches that the one constructor accepts and the other does not. *)
Theorem C72_c0_refuted : exists t L D B (cs : list (list R)), consistent t /\ shaped t L D B /\ 0 < tnp t /\ blocks_fit B cs /\
  (exists N, forall fuel, N < fuel -> exists r, splineOf boehm2 fuel t B cs = Ok r) /\ forall fuel, splineWithC0 fuel t B cs = Err.
Proof. exact c0_refuted_pf. Qed.
Print Assumptions C72_c0_refuted.

(** uniformRefineAndSmooth never refines. *)
Theorem C72_smooth_idle : forall {C} (refC : vbase -> list Z -> list Z -> list C -> res (list C)) B c num r,
  uniformRefineAndSmooth refC B c num = Ok r -> fst r = B.
Proof. exact @smooth_idle_pf. Qed.
Print Assumptions C72_smooth_idle.
Theorem C72_smooth_refuted : exists t L D B, consistent t /\ shaped t L D B /\ (forall b dir, In b B -> dir < 2 -> divisible 2 (knots b dir)) /\ uniformRefine B 1 1 <> B /\
  forall c, length c = total B -> exists c', uniformRefineAndSmooth boehm2 B c 1 = Ok (B, c').
Proof. exact smooth_refuted_pf. Qed.
Print Assumptions C72_smooth_refuted.

Theorem C72_uniform_nonvacuous : consistent fan_topo /\ shaped fan_topo len8 two fan8 /\ (forall p b dir, nth_error fan8 p = Some b -> dir < 2 -> divisible (1 + 1) (knots b dir)) /\ (forall f, In f (tif fan_topo) -> knots_match fan8 f) /\
  uniformRefine fan8 1 1 = [mkVB fine fine 2 2; mkVB fine fine 2 2; mkVB fine fine 2 2].
Proof. exact uniform_example. Qed.
Print Assumptions C72_uniform_nonvacuous.
Theorem C72_elements_nonvacuous : consistent fan_topo /\ shaped fan_topo len8 two fan8 /\ 0 < tnp fan_topo /\ length all_boxes = length fan8 /\
  (forall p v, nth_error all_boxes p = Some v -> boxesVectorToMatrix v = Ok (all_box p)) /\ (forall p b dir, nth_error fan8 p = Some b -> dir < 2 -> divisible 2 (knots b dir)) /\
  (forall p b, nth_error fan8 p = Some b -> apart b (all_box p)) /\ total fan8 = length (repeat 1%R 48).
Proof. exact all_example. Qed.
Print Assumptions C72_elements_nonvacuous.
Theorem C72_construct_nonvacuous : consistent two_patches_topo /\ shaped two_patches_topo len8 two pair8 /\ 0 < tnp two_patches_topo /\ blocks_fit pair8 pair8_coefs /\
  repairPatches 20 two_patches_topo pair8 None = Ok [eight_base; mkVB coarse eight 2 2].
Proof. exact spline_example. Qed.
Print Assumptions C72_construct_nonvacuous.
