(** Property C38: making the knots along the interfaces agree. *)
From Verif Require Import Common TopoModel TopoSpec VertexModel VertexSpec RepairModel RepairSpec SmoothExamples VertexExamples RepairProofs3 RepairExamples.
Open Scope nat_scope.

(** The loop ends. Then the knots along all interfaces agree, and every patch has exactly the knots it had and those
    carried to it over interfaces. Interior knots are simple. *)
Theorem C38_all : forall t L D B, consistent t -> shaped t L D B -> 0 < tnp t ->
  exists N B', (forall fuel, N < fuel -> repairPatches fuel t B None = Ok B') /\ shaped t L D B' /\
    (forall f, In f (tif t) -> knots_match B' f) /\
    (forall p dir x, dir < 2 -> has_knot B' p dir x <-> carried t L B p dir x).
Proof. exact repair_all_pf. Qed.
Print Assumptions C38_all.

(** The same after refining one patch, when all other interfaces matched. *)
Theorem C38_from_patch : forall t L D B p, consistent t -> shaped t L D B -> p < tnp t -> (forall f, In f (tif t) -> away_from p f -> knots_match B f) ->
  exists N B', (forall fuel, N < fuel -> repairPatches fuel t B (Some p) = Ok B') /\ shaped t L D B' /\
    (forall f, In f (tif t) -> knots_match B' f) /\
    (forall p dir x, dir < 2 -> has_knot B' p dir x <-> carried t L B p dir x).
Proof. exact repair_from_pf. Qed.
Print Assumptions C38_from_patch.

(** With a double knot the loop ends too early. *)
Theorem C38_multiplicity_refuted : exists t B B', consistent t /\ length B = tnp t /\ (forall b dir, In b B -> (ascending (knots b dir) /\ degree b dir = 2 /\ hd 0%Z (knots b dir) = 0%Z /\ last (knots b dir) 0%Z = 15%Z)) /\
  (forall fuel, 2 < fuel -> repairPatches fuel t B None = Ok B') /\ exists f, In f (tif t) /\ ~ knots_match B' f.
Proof. exact multiplicity_refuted_pf. Qed.
Print Assumptions C38_multiplicity_refuted.

(** With different degrees along an interface the comparison reads beyond the end of a knot vector. *)
Theorem C38_degree_refuted : exists t B, consistent t /\ length B = tnp t /\ (forall b, In b B -> exists q, forall dir, degree b dir = q /\ simple_open q 15 [] (knots b dir)) /\
  forall fuel, repairPatches fuel t B None = Err.
Proof. exact degree_refuted_pf. Qed.
Print Assumptions C38_degree_refuted.

(** Three patches in a fan with different knots; those of the middle patch go to both sides and the others to it. *)
Example C38_nonvacuous : consistent fan_topo /\ shaped fan_topo len15 deg2 mixed /\ 0 < tnp fan_topo /\
  exists k, k = [0; 0; 0; 1; 3; 6; 9; 10; 12; 15; 15; 15]%Z /\
  match repairPatches 20 fan_topo mixed None with Ok B => map vk0 B = [uneven; k; k] /\ map vk1 B = [k; k; uneven] | Err => False end.
Proof. split; [exact fan_consistent|]. split; [exact mixed_shaped|]. split; [cbn; lia|]. eexists. split; [reflexivity|]. vm_compute. split; reflexivity. Qed.
