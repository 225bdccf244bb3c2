(** C83: the projection of the functions at an edge (approximate C1). *)
From Coq Require Import Reals.
From Verif Require Import Common SplineModel GluingModel SurfGDSpec AsmModel BihModel BihSpec EdgeModel EdgeSpec EdgeProofs EdgeProofs2 EdgeExamples.
Open Scope R_scope.

(** Exactly the functions of the two layers at the edge are free. *)
Theorem C83_free : forall nu nv dir, exists m, edgeMapper nu nv dir = Ok m /\ msize m = (nu * nv)%nat /\ forall i, (i < nu * nv)%nat -> (mfixed m i = false <-> (layer nu dir i < 2)%nat).
Proof. exact free_pf. Qed.
Print Assumptions C83_free.

(** There is one result for every function kept, each vanishes outside the two layers and is a best approximation of the function at its place in the list. *)
Theorem C83_projection : forall solver nu nv dir els comp bp bm alpha beta bdy, acts_ok (nu * nv) els -> edge_solver solver nu nv dir els ->
  (forall k n, (k < how_many bp bm)%nat -> In n (nodes els) -> exists y, target comp bp bm alpha beta bdy dir k (qx (snd n)) = Ok y) ->
  exists cs, edgeFunctionsOf solver nu nv dir els comp bp bm alpha beta bdy = Ok cs /\ length cs = how_many bp bm /\
    forall k, (k < how_many bp bm)%nat -> exists c, nth_error cs k = Some c /\ length c = (nu * nv)%nat /\ (forall i, (i < nu * nv)%nat -> (2 <= layer nu dir i)%nat -> nth i c 0 = 0) /\
      forall g, weights_pos els -> (forall n, In n (nodes els) -> target comp bp bm alpha beta bdy dir k (qx (snd n)) = Ok (g (qx (snd n)))) ->
      forall d, two_layers nu dir d -> distance2 els g (fun i => nth i c 0) <= distance2 els g d.
Proof. exact projection_pf. Qed.
Print Assumptions C83_projection.

(** Functions that the edge piece contains are found exactly, with the coefficients in the two layers; normal functions vanish at the edge. *)
Theorem C83_exact : forall solver nu nv dir els comp bp bm alpha beta bdy e, let b := comp (1 - dir)%nat in edge_setting solver nu nv dir els b e ->
  exists cs, edgeFunctionsOf solver nu nv dir els comp bp bm alpha beta bdy = Ok cs /\ length cs = how_many bp bm /\
    (forall i a c, (3 <= i < bsize bp - 3)%nat -> spline_along e dir els (bspl (tknot bp) (sdeg bp) i) a -> spline_along e dir els (trace_slope b bp beta bdy i) c ->
       exists r, nth_error cs (i - 3) = Some r /\ layers_are nu nv dir r a c) /\
    (forall i c, (2 <= i < bsize bm - 2)%nat -> spline_along e dir els (normal_slope b bm alpha bdy dir i) c ->
       exists r, nth_error cs (bsize bp - 6 + (i - 2)) = Some r /\ layers_are nu nv dir r (fun _ => 0) c).
Proof. exact exact_setting_pf. Qed.
Print Assumptions C83_exact.

(** Across an interface the two patches then have the same coefficients at the edge. *)
Theorem C83_interface : forall solver nu nv els nu' nv' els' comp comp' bp bm alpha beta alpha' beta' e, edge_setting solver nu nv 1 els (comp 0%nat) e -> edge_setting solver nu' nv' 0 els' (comp' 1%nat) e ->
  exists cs cs', edgeFunctionsOf solver nu nv 1 els comp bp bm alpha beta false = Ok cs /\ edgeFunctionsOf solver nu' nv' 0 els' comp' bp bm alpha' beta' false = Ok cs' /\ length cs = length cs' /\
    (forall i a c c', (3 <= i < bsize bp - 3)%nat -> spline_along e 1 els (bspl (tknot bp) (sdeg bp) i) a -> spline_along e 0 els' (bspl (tknot bp) (sdeg bp) i) a ->
       spline_along e 1 els (trace_slope (comp 0%nat) bp beta false i) c -> spline_along e 0 els' (trace_slope (comp' 1%nat) bp beta' false i) c' ->
       exists r r', nth_error cs (i - 3) = Some r /\ nth_error cs' (i - 3) = Some r' /\ forall j, (j < bsize e)%nat -> nth (nu * j) r 0 = a j /\ nth j r' 0 = a j) /\
    (forall i c c', (2 <= i < bsize bm - 2)%nat -> spline_along e 1 els (normal_slope (comp 0%nat) bm alpha false 1 i) c -> spline_along e 0 els' (normal_slope (comp' 1%nat) bm alpha' false 0 i) c' ->
       exists r r', nth_error cs (bsize bp - 6 + (i - 2)) = Some r /\ nth_error cs' (bsize bp - 6 + (i - 2)) = Some r' /\ forall j, (j < bsize e)%nat -> nth (nu * j) r 0 = 0 /\ nth j r' 0 = 0).
Proof. exact interface_edge_pf. Qed.
Print Assumptions C83_interface.

(** The hypotheses hold in an example: one trace with the coefficients 1/2 and -1/2, one normal function with 0 and 3. *)
Theorem C83_nonvacuous : edge_setting cramer 2 1 1 edEls edB edE /\ how_many edPlus edMinus = 2%nat /\
  edgeFunctionsOf cramer 2 1 1 edEls (fun _ => edB) edPlus edMinus (fun _ => 3) (fun y => 2 * y) false = Ok [[/2; - /2]; [0; 3]].
Proof. exact ed_ok. Qed.
Print Assumptions C83_nonvacuous.
