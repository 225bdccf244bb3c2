(** Properties C22-C25 and C42: re-parameterisation of patches. *)
From Verif Require Import Common TopoModel ReparamModel ReparamSpec ReparamProofs2 ReparamProofs3.

(** C22: [fs] are functions given on the original patch; [gs] the same functions given
    on the re-parameterised patch.  Mapping [gs] back returns every row to its place. *)
Theorem C22_back_is_identity : forall {A} sw h (p : patch A) ng fs,
  at_most_one_rotation h -> full p -> Forall full fs ->
  exists a gs fs', run (history sw h) (newAux p ng) = Ok a /\
    mapM (fun f => do x <- run (history sw h) (newAux f ng); Ok (geo x)) fs = Ok gs /\
    parametrizeBasisBack a gs = Ok fs' /\ map pC fs' = map pC fs /\
    map (fun f => (csize (pU f), csize (pV f))) fs' = map (fun f => (csize (pU f), csize (pV f))) fs.
Proof. exact @back_identity. Qed.
Print Assumptions C22_back_is_identity.

(** C22, knots: a function on the re-parameterised basis comes back as a function on the
    bases of the original patch. *)
Theorem C22_back_restores_bases : forall {A} sw h (p : patch A) ng a (g : patch A),
  at_most_one_rotation h -> full p -> run (history sw h) (newAux p ng) = Ok a -> full g -> (pU g, pV g) = bas2 a ->
  exists f, parametrizeBasisBack a [g] = Ok [f] /\ full f /\ pU f = pU p /\ pV f = pV p.
Proof. exact @back_identity_basis. Qed.
Print Assumptions C22_back_restores_bases.

(** C22 for gsG1AuxiliaryPatch: the whole patch comes back, knots included. *)
Theorem C22_back_is_identity_G1 : forall {A} sw h (p : patch A) ng, at_most_one_rotation h -> full p ->
  exists a, run_1 (history sw h) (newAux1 p ng) = Ok a /\ parametrizeBasisBack_1 a [geo1 a] = Ok [p].
Proof. exact @back_identity1. Qed.
Print Assumptions C22_back_is_identity_G1.

Example C22_nonvacuous :
  exists a, run [OSwap; OClock] (newAux skewed true) = Ok a /\ pC (geo a) <> pC skewed /\ rotNum a = (-1)%Z /\
    (do b <- parametrizeBasisBack a [geo a]; Ok (map pC b)) = Ok [pC skewed].
Proof. eexists. split; [vm_compute; reflexivity|]. split; [vm_compute; discriminate|]. split; vm_compute; reflexivity. Qed.

(** C23 is false: for other histories the rows do not come back. *)
Theorem C23_any_history_refuted : exists (h : list op) (p : patch nat) a f,
  full p /\ run h (newAux p false) = Ok a /\ parametrizeBasisBack a [geo a] = Ok [f] /\ pC f <> pC p.
Proof. exact any_history_fails. Qed.
Print Assumptions C23_any_history_refuted.

Theorem C23_two_swaps_refuted : exists (p : patch nat) a f, full p /\ run [OSwap; OSwap] (newAux p false) = Ok a /\
  parametrizeBasisBack a [geo a] = Ok [f] /\ pC f <> pC p.
Proof. exact two_swaps_fail. Qed.
Print Assumptions C23_two_swaps_refuted.

(** C23, what does hold: any number of rotations after an optional swap, as long as the
    rotation counter ends between -1 and 2. *)
Theorem C23_rotations_in_range : forall {A} sw h (p : patch A) ng a fs gs, Forall is_rotation h ->
  run (history sw h) (newAux p ng) = Ok a -> (-1 <= rotNum a <= 2)%Z -> Forall full fs ->
  mapM (fun f => do x <- run (history sw h) (newAux f ng); Ok (geo x)) fs = Ok gs ->
  exists fs', parametrizeBasisBack a gs = Ok fs' /\ map pC fs' = map pC fs /\
    map (fun f => (csize (pU f), csize (pV f))) fs' = map (fun f => (csize (pU f), csize (pV f))) fs.
Proof. exact @back_list. Qed.
Print Assumptions C23_rotations_in_range.

Example C23_nonvacuous : exists a, run [OSwap; OAnti; OTwice; OClock] (newAux skewed true) = Ok a /\ rotNum a = 2%Z.
Proof. eexists. split; vm_compute; reflexivity. Qed.

(** C24 *)
Theorem C24_side_map_follows_geometry : forall {A} sw h (p : patch A) ng a s,
  at_most_one_rotation h -> full p -> nonempty p -> run (history sw h) (newAux p ng) = Ok a ->
  exists s' rv, getMapIndex a (side_ix s) = Ok (side_ix s') /\ carries (geo a) s' p s rv.
Proof. exact @carries_total. Qed.
Print Assumptions C24_side_map_follows_geometry.

Example C24_nonvacuous : exists a, run [OSwap; OAnti] (newAux skewed true) = Ok a /\
  getMapIndex a (side_ix South) = Ok (side_ix North) /\
  map (on_side_at (geo a) North) [0; 1; 2] = [Some 10; Some 11; Some 12].
Proof. eexists. repeat split; vm_compute; reflexivity. Qed.

(** Outside the admissible histories the map is wrong (it is overwritten, not composed). *)
Theorem C24_two_rotations_refuted : exists (p : patch nat) a s s', full p /\ nonempty p /\
  run [OAnti; OAnti] (newAux p false) = Ok a /\
  getMapIndex a (side_ix s) = Ok (side_ix s') /\ forall rv, ~ carries (geo a) s' p s rv.
Proof. exact map_after_two_rotations_wrong. Qed.
Print Assumptions C24_two_rotations_refuted.

(** C25: boundary sides, both orientations. *)
Theorem C25_boundary_side_goes_west : forall {A} (p : patch A) ng s, full p -> nonempty p ->
  exists a, reparametrizeSingle (side_ix s) (newAux p ng) = Ok a /\ neg a = false /\
    carries (geo a) West p s (xorb ng (ccw s)).
Proof. exact @single_west. Qed.
Print Assumptions C25_boundary_side_goes_west.

(** C25: interface patches (orientation already fixed). *)
Theorem C25_interface_sides : forall {A} (p : patch A) s first, full p -> nonempty p ->
  exists a, reparametrizeInterface first (side_ix s) (newAux p false) = Ok a /\
    carries (geo a) (if first then West else South) p s (xorb (negb first) (ccw s)).
Proof. exact @interface_sides. Qed.
Print Assumptions C25_interface_sides.

(** C25: position k of the west side and position k of the south side are the two copies
    of the same interface point, [flip] saying whether the sides run oppositely. *)
Theorem C25_interface_positions_match : forall {A} (p1 p2 : patch A) s1 s2 flip,
  full p1 -> full p2 -> nonempty p1 -> nonempty p2 ->
  side_count p1 s1 = side_count p2 s2 -> flip = Bool.eqb (ccw s1) (ccw s2) ->
  exists a1 a2, reparametrizeInterface true (side_ix s1) (newAux p1 false) = Ok a1 /\
    reparametrizeInterface false (side_ix s2) (newAux p2 false) = Ok a2 /\
    side_count (geo a1) West = side_count p1 s1 /\ side_count (geo a2) South = side_count p1 s1 /\
    exists pos, (forall k, k < side_count p1 s1 -> pos k < side_count p1 s1) /\
      (forall k, k < side_count p1 s1 -> on_side_at (geo a1) West k = on_side_at p1 s1 (pos k)) /\
      (forall k, k < side_count p1 s1 ->
        on_side_at (geo a2) South k = on_side_at p2 s2 (if flip then side_count p1 s1 - 1 - pos k else pos k)).
Proof. exact @interface_match. Qed.
Print Assumptions C25_interface_positions_match.

(** C25: vertices, both orientations, both implementations. *)
Theorem C25_vertex_goes_south_west : forall {A} (p : patch A) ng c, full p -> nonempty p ->
  exists a, reparametrizeVertex (corner_ix c) (newAux p ng) = Ok a /\ neg a = false /\
    corner_row (geo a) SW = corner_row p c.
Proof. exact @vertex_sw. Qed.
Print Assumptions C25_vertex_goes_south_west.

Theorem C25_vertex_goes_south_west_G1 : forall {A} (p : patch A) ng c, full p -> nonempty p ->
  exists a v, reparametrizeG1Vertex (corner_ix c) (newAux1 p ng) = Ok (a, v) /\ neg1 a = false /\
    corner_row (geo1 a) SW = corner_row p c.
Proof. exact @g1vertex_sw. Qed.
Print Assumptions C25_vertex_goes_south_west_G1.

(** C25 fails for interface patches of negative orientation (the table of
    reparametrizeInterfacePatches has no case for them; gsApproxC1Spline and
    gsC1SurfSpline fix the orientation of the input first). *)
Theorem C25_negative_interface_refuted : exists (p : patch nat) a s, full p /\ nonempty p /\
  reparametrizeInterface true (side_ix s) (newAux p true) = Ok a /\ forall rv, ~ carries (geo a) West p s rv.
Proof. exact swapped_interface_wrong. Qed.
Print Assumptions C25_negative_interface_refuted.

Example C25_nonvacuous :
  (do a <- reparametrizeSingle (side_ix East) (newAux skewed true); Ok (map (on_side_at (geo a) West) [0; 1])) = Ok [Some 12; Some 15] /\
  (do a <- reparametrizeInterface true (side_ix North) (newAux skewed false); Ok (map (on_side_at (geo a) West) [0; 1; 2])) = Ok [Some 13; Some 14; Some 15] /\
  (do a <- reparametrizeVertex (corner_ix NE) (newAux skewed true); Ok (corner_row (geo a) SW)) = Ok (Some 15).
Proof. repeat split; vm_compute; reflexivity. Qed.

(** C42: the re-parameterised geometry itself, mapped back, is the original geometry if
    the knot vectors are symmetric; otherwise its knots may differ. *)
Theorem C42_geometry_comes_back_symmetric : forall {A} sw h (p : patch A) ng a,
  Forall is_rotation h -> full p -> symmetric (pU p) -> symmetric (pV p) ->
  run (history sw h) (newAux p ng) = Ok a -> (-1 <= rotNum a <= 2)%Z ->
  exists f, parametrizeBasisBack a [geo a] = Ok [f] /\ pC f = pC p /\ same_comp (pU f) (pU p) /\ same_comp (pV f) (pV p).
Proof. exact @geo_back_symmetric. Qed.
Print Assumptions C42_geometry_comes_back_symmetric.

Example C42_nonvacuous : symmetric (mkComp [0; 0; 1 # 4; 3 # 4; 1; 1]%Q 4) /\ ~ symmetric (pU skewed).
Proof.
  split.
  - split; [reflexivity|]. repeat constructor.
  - intros [_ H]. vm_compute in H.
    repeat match goal with X : Forall2 _ (_ :: _) _ |- _ => inversion X; clear X; subst end. simpl in *. discriminate.
Qed.

Theorem C42_geometry_comes_back_refuted : exists (p : patch nat) a f, full p /\ run [OTwice] (newAux p false) = Ok a /\
  parametrizeBasisBack a [geo a] = Ok [f] /\ ~ same_comp (pU f) (pU p).
Proof. exact skewed_knots_fail. Qed.
Print Assumptions C42_geometry_comes_back_refuted.
