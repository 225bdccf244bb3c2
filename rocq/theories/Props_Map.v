(** Property theorems about the map of the basis with enhanced smoothness (gsMPBESMapTensor): C31, C32, C33. *)
From Verif Require Import Common TopoModel MapModel MapSpec MapProofs MapRegions MapExamples.
Open Scope Z_scope.

(** C31: local number <-> (patch, number in the patch) is a bijection; patches own consecutive ranges; numbers that are too
    large give the patch number nPatches, patches that do not exist are errors. *)
Theorem C31_numbering : forall bs, (forall b, In b bs -> 0 <= mb_size b) ->
  (forall p b k, nth_error bs p = Some b -> 0 <= k < mb_size b ->
     exists l f, firstLocalIndex bs p = Ok f /\ l = f + k /\ 0 <= l < nrOfLocals bs /\
       getPatch bs l = p /\ getPatchIndex bs l = Ok k) /\
  (forall l, 0 <= l < nrOfLocals bs ->
     exists b k f, nth_error bs (getPatch bs l) = Some b /\ getPatchIndex bs l = Ok k /\ 0 <= k < mb_size b /\
       firstLocalIndex bs (getPatch bs l) = Ok f /\ f + k = l) /\
  (forall p b, nth_error bs p = Some b ->
     exists f g, firstLocalIndex bs p = Ok f /\ lastLocalIndex bs p = Ok g /\ firstLocalIndex bs (S p) = Ok (g + 1) /\ g + 1 = f + mb_size b) /\
  firstLocalIndex bs 0 = Ok 0 /\ firstLocalIndex bs (length bs) = Ok (nrOfLocals bs) /\
  (forall p, (length bs < p)%nat -> firstLocalIndex bs p = Err) /\
  (forall l, nrOfLocals bs <= l -> getPatch bs l = length bs).
Proof. exact numbering_pf. Qed.
Print Assumptions C31_numbering.

Example C31_example : firstLocalIndex ex_bases 2 = Ok 22 /\ lastLocalIndex ex_bases 1 = Ok 21 /\ getPatch ex_bases 21 = 1%nat /\
  getPatchIndex ex_bases 21 = Ok 9 /\ nrOfLocals ex_bases = 38 /\ getPatch ex_bases 38 = 3%nat /\ firstLocalIndex ex_bases 4 = Err.
Proof. exact numbering_ex. Qed.

(** C32: the odometer starts at zero, visits every point of the box once and stops. *)
Theorem C32_block_points : forall lengths, (forall l, In l lengths -> 0 <= l) ->
  exists pts, blockPoints (box_size lengths) lengths (map (fun _ => 0) lengths) = Ok pts /\
    NoDup pts /\ length pts = box_size lengths /\ (forall p, In p pts <-> in_box lengths p) /\
    nth_error pts 0 = Some (map (fun _ => 0) lengths).
Proof. exact block_points_pf. Qed.
Print Assumptions C32_block_points.

Example C32_example : blockPoints 6 [1; 2] [0; 0] = Ok [[0; 0]; [1; 0]; [0; 1]; [1; 1]; [0; 2]; [1; 2]].
Proof. exact block_points_ex. Qed.

(** C33: when the corner distances fit (conf_ok), no function of a patch is treated twice and none outside the patch; all
    functions are treated (in a basis of one single patch some are left to the partner side). *)
Theorem C33_regions : forall c, conf_ok c ->
  NoDup (map fst (patchActions c)) /\ (forall x, In x (map fst (patchActions c)) -> in_patch c x) /\
  (pOne c = false -> forall x, in_patch c x -> In x (map fst (patchActions c))).
Proof. exact regions_pf. Qed.
Print Assumptions C33_regions.

Example C33_example : conf_ok ex_conf /\ length (patchActions ex_conf) = 56%nat /\ action_at ex_conf (0, 1) = [Block South West 2 2 1 0] /\
  action_at ex_conf (7, 0) = [Singular] /\ action_at ex_conf (4, 1) = [Line South 2 1].
Proof. exact (conj ex_conf_ok (conj (proj1 regions_ex) (conj (proj1 (proj2 regions_ex)) (conj (proj1 (proj2 (proj2 regions_ex))) (proj1 (proj2 (proj2 (proj2 regions_ex)))))))). Qed.

(** C33 fails for arbitrary distances: a special vertex on the boundary with a distance larger than the degree has functions
    that are added twice. *)
Theorem C33_regions_refuted : exists c, 2 * pdu c <= pU c /\ 2 * pdv c <= pV c /\ 0 < pdu c /\ 0 < pdv c /\ pOne c = false /\
  (forall x, 0 <= pH c x <= 3 /\ 0 <= pW c x <= 3) /\ ~ NoDup (map fst (patchActions c)).
Proof. exact (ex_intro _ bad_conf bad_conf_refutes). Qed.
Print Assumptions C33_regions_refuted.

(** Distances of two special vertices that do not fit on a side are replaced by the two halves of the side. *)
Theorem C33_halves : forall c, 0 <= pU c -> 0 <= pV c -> (forall x, 0 <= pH c x /\ 0 <= pW c x) ->
  shared (pU c) (pH c NE) (pH c NW) (ne_u (clamped c)) (nw_u (clamped c)) /\ shared (pU c) (pH c SE) (pH c SW) (se_u (clamped c)) (sw_u (clamped c)) /\
  shared (pV c) (pW c SE) (pW c NE) (se_v (clamped c)) (ne_v (clamped c)) /\ shared (pV c) (pW c SW) (pW c NW) (sw_v (clamped c)) (nw_v (clamped c)).
Proof. exact halves_pf. Qed.
Print Assumptions C33_halves.
