(** Property C51: functions on the interfaces at a given distance from a vertex. *)
From Verif Require Import Common TopoModel BaseModel BaseModel2 IndexSpec TopoSpec SmoothSpec SmoothSpec2
  IfaceIndexSpec SmoothExamples IfaceIndexProofs.

Theorem C51_interface_indices : forall I, consistent (itopo I) -> length (ibases I) = tnp (itopo I) ->
  forall pc depth, fst pc < tnp (itopo I) -> 0 < depth ->
  (forall b, In b (ibases I) -> depth < fst b /\ depth < snd b) ->
  exists l, getAllInterfaceIndices I pc depth = Ok l /\
    (forall x, In x l <-> exists c, same_vertex (itopo I) pc c /\ at_depth I depth c x) /\
    ((forall b, In b (ibases I) -> 2 * depth + 1 < fst b /\ 2 * depth + 1 < snd b) -> NoDup l).
Proof. exact interface_indices_pf. Qed.
Print Assumptions C51_interface_indices.

(** At distance 0: the corner functions of all corners at the vertex. *)
Theorem C51_corner_functions : forall I, consistent (itopo I) -> length (ibases I) = tnp (itopo I) ->
  forall pc, fst pc < tnp (itopo I) -> (forall b, In b (ibases I) -> 0 < fst b /\ 0 < snd b) ->
  exists l, getAllInterfaceIndices I pc 0 = Ok l /\
    (forall x, In x l <-> exists c n0 n1 i j, same_vertex (itopo I) pc (fst x, c) /\ nth_error (ibases I) (fst x) = Some (n0, n1) /\
       snd x = i + n0 * j /\ i < n0 /\ j < n1 /\ forall s, touches c s -> rows_inward s n0 n1 i j = 0).
Proof. exact corner_functions_pf. Qed.
Print Assumptions C51_corner_functions.

(** Two patches: one function on each side of the only interface at the vertex. *)
Example C51_nonvacuous : getAllInterfaceIndices two_patches (0, SE) 1 = Ok [(0, 9); (1, 4)] /\
  getAllInterfaceIndices two_patches (0, SE) 0 = Ok [(0, 4); (1, 0)].
Proof. split; vm_compute; reflexivity. Qed.
