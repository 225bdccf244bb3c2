(** Properties C34, C35, C36, C39, C52, C53: weights, special vertices and distances of gsMPBESBasis. *)
From Verif Require Import Common TopoModel TopoSpec IndexSpec SmoothSpec SmoothSpec2 VertexModel VertexSpec SmoothExamples
  VertexProofs VertexProofs2 VertexProofs3 VertexExamples.

(** ** C34 *)

(** After any history of set operations, starting without weights: an interface side has the value set last, every other
    side and every side never set has weight 1, and setting succeeds exactly on interface sides. *)
Theorem C34_weights : forall t h ps, let w := fold_left (fun w e => fst (setWeight t w (fst e) (snd e))) h [] in
  (forall x, interface_side t ps -> latest h ps x -> getWeight w ps = x) /\
  (~ interface_side t ps \/ ~ In ps (map fst h) -> getWeight w ps = 1%Q) /\
  (forall x, snd (setWeight t w ps x) = true <-> interface_side t ps).
Proof. exact weights_pf. Qed.
Print Assumptions C34_weights.

(** The copy constructor does not keep the weights. *)
Theorem C34_copy_refuted : exists S ps, vWeights S = fst (setWeight (vT S) [] ps 2%Q) /\ getWeight (vWeights S) ps = 2%Q /\
  getWeight (vWeights (copyBasis S)) ps = 1%Q.
Proof. exact copy_refuted_pf. Qed.
Print Assumptions C34_copy_refuted.

Example C34_nonvacuous : interface_side two_patches_topo (0, East) /\ ~ interface_side two_patches_topo (0, West) /\
  latest [((0, East), 2%Q); ((0, West), 3%Q); ((0, East), 5%Q)] (0, East) 5%Q.
Proof.
  split; [exists (mkI (0, East) (1, West) false); cbn; auto|]. split.
  - intros (f & [<-|[]] & [H|H]); discriminate.
  - exists [((0, East), 2%Q); ((0, West), 3%Q)], []. cbn; auto.
Qed.

(** ** C35 *)

(** In the beginning exactly the corners at interior vertices of valence other than 4 are special; the list holds exactly
    the corners at interior vertices. *)
Theorem C35_initial : forall t, consistent t -> exists vs, initVertices t = Ok vs /\
  (forall c, isSpecialVertex vs c = true <-> fst c < tnp t /\ interior_vertex t c /\ exists v, has_valence t c v /\ v <> 4) /\
  (forall c, In c (map fst vs) <-> fst c < tnp t /\ interior_vertex t c).
Proof. exact initial_pf. Qed.
Print Assumptions C35_initial.

(** After any number of calls of setC0, the special corners are those special before and those at the given vertices. *)
Theorem C35_special : forall l S S', consistent (vT S) -> (forall pc, In pc l -> fst pc < tnp (vT S)) -> foldM setC0 l S = Ok S' ->
  vT S' = vT S /\
  forall c, isSpecialVertex (vVert S') c = true <-> (exists pc, In pc l /\ same_vertex (vT S) pc c) \/ isSpecialVertex (vVert S) c = true.
Proof. exact setC0s_pf. Qed.
Print Assumptions C35_special.

(** The call succeeds when there are enough different knots. *)
Theorem C35_succeeds : forall S pc, consistent (vT S) -> fst pc < tnp (vT S) -> records_of S ->
  enough_knots (vT S) (vB S) (vMin S) -> exists S', setC0 S pc = Ok S'.
Proof. exact setC0_ok_pf. Qed.
Print Assumptions C35_succeeds.

Example C35_nonvacuous : setC0 fan_start (0, SW) = Ok fan_C0 /\ vVert fan_start = [] /\
  vVert fan_C0 = [((0, SW), true); ((1, SW), true); ((2, SW), true)].
Proof. repeat split; vm_compute; reflexivity. Qed.

(** ** C36 *)

(** The two values add up to what is wanted, or to the number of functions on the side if that is less; a value is reduced
    only at a special vertex. Needs twice the degree to fit on the side. *)
Theorem C36_values : forall ls rs li ri dist degree max, degree <= dist -> 2 * degree <= max -> (Z.of_nat max < 2 ^ 32)%Z ->
  let wl := wanted ls li dist degree in let wr := wanted rs ri dist degree in
  exists l r, determineValues ls rs li ri dist degree max = (Z.of_nat l, Z.of_nat r) /\
    l <= wl /\ r <= wr /\ l + r = Nat.min (wl + wr) max /\ (ls = false -> l = wl) /\ (rs = false -> r = wr).
Proof. exact determine_pf. Qed.
Print Assumptions C36_values.

(** With fewer functions the values overlap. *)
Theorem C36_short_sides_refuted : exists ls rs li ri dist degree max l r, degree <= dist /\
  determineValues ls rs li ri dist degree max = (Z.of_nat l, Z.of_nat r) /\ max < l + r.
Proof. exact determine_refuted_pf. Qed.
Print Assumptions C36_short_sides_refuted.

Example C36_nonvacuous : determineValues true true true true 5 2 7 = (3%Z, 4%Z) /\ determineValues true false true true 5 2 6 = (4%Z, 2%Z).
Proof. split; vm_compute; reflexivity. Qed.

(** ** C39 *)

(** The parameter of the first corner is found from that corner; the parameter of the second corner would be the one found
    from it if the knots were symmetric. *)
Theorem C39_own_corners : forall t B vs incr n f d b v1 v2, newDistances t B vs incr n f = Ok d -> nth_error B (fst (if1 f)) = Some b ->
  let dir := 1 - side_dir (snd (if1 f)) in let deg := Nat.min (degree b dir) (incr + 1) in
  determineValues (isSpecialVertex vs (end1 f false)) (isSpecialVertex vs (end1 f true))
    (isInterface t (fst (if1 f), otherSide (snd (if1 f)) false)) (isInterface t (fst (if1 f), otherSide (snd (if1 f)) true))
    (Nat.max deg n) deg (length (knots b dir) - degree b dir - 1) = (Z.of_nat v1, Z.of_nat v2) ->
  dIf d = f /\ dC1 d = end1 f false /\ dC2 d = end1 f true /\ findParameter B (if1 f) (end1 f false) v1 = Ok (dP1 d) /\
  (symmetric (knots b dir) -> findParameter B (if1 f) (end1 f true) v2 = Ok (dP2 d)).
Proof. exact own_corners_pf. Qed.
Print Assumptions C39_own_corners.

(** Otherwise it is not: three patches around a vertex at their upper corners; distance 5 instead of 3. *)
Theorem C39_second_corner_refuted : exists S f d, consistent (vT S) /\ start (vT S) (vB S) (vIncr S) (vMin S) = Ok S /\
  (forall g, In g (tif (vT S)) -> exists b, nth_error (vB S) (fst (if1 g)) = Some b /\ ascending (knots b (1 - side_dir (snd (if1 g))))) /\
  In f (tif (vT S)) /\ In d (vDist S) /\ dIf d = f /\ isSpecialVertex (vVert S) (end1 f true) = true /\
  findParameter (vB S) (if1 f) (end1 f true) (vMin S) = Ok 6%Z /\ dP2 d = 12%Z /\ distanceOfVertex S (end1 f true) (if1 f) = Ok 5 /\ vMin S = 3.
Proof. exact second_corner_refuted_pf. Qed.
Print Assumptions C39_second_corner_refuted.

(** The n-th parameter of a corner: the n-th breakpoint counted from the opposite end of the side, as a distance from there. *)
Theorem C39_parameter : forall B ps pc b n u, nth_error B (fst ps) = Some b -> let k := knots b (1 - side_dir (snd ps)) in
  ascending k -> breakpoints k u -> 0 < n < length u ->
  if pos_on (snd ps) (snd pc)
  then exists x, nth_error u n = Some x /\ findParameter B ps pc n = Ok x
  else exists x, nth_error u (length u - 1 - n) = Some x /\ findParameter B ps pc n = Ok (hd 0%Z k + last k 0%Z - x)%Z.
Proof. exact parameter_pf. Qed.
Print Assumptions C39_parameter.

(** It is not the n-th breakpoint counted from the corner. *)
Theorem C39_from_corner_refuted : exists B ps pc b u, nth_error B (fst ps) = Some b /\ breakpoints (knots b (1 - side_dir (snd ps))) u /\
  touches (snd pc) (snd ps) /\ pos_on (snd ps) (snd pc) = false /\ nth_error u 1 = Some 1%Z /\ findParameter B ps pc 1 = Ok 5%Z.
Proof. exact from_corner_refuted_pf. Qed.
Print Assumptions C39_from_corner_refuted.

(** ** C52 *)

(** After setC0 on a corner, the distance is the minimal distance along the interfaces at that corner (seen from both sides)
    and along all boundary sides at the vertex. *)
Theorem C52_distances : forall S pc S', consistent (vT S) -> fst pc < tnp (vT S) -> records_of S -> 0 < vMin S ->
  simple_bases (vT S) (vB S) (vMin S) -> setC0 S pc = Ok S' ->
  (forall s f u, touches (snd pc) s -> In f (tif (vT S)) -> if1 f = (fst pc, s) \/ if2 f = (fst pc, s) -> same_vertex (vT S) pc (end1 f u) ->
     ~ same_vertex (vT S) (end1 f false) (end1 f true) -> knots_match (vB S) f ->
     distanceOfVertex S' (end1 f u) (if1 f) = Ok (vMin S) /\ distanceOfVertex S' (end2 f u) (if2 f) = Ok (vMin S)) /\
  (forall c s, same_vertex (vT S) pc c -> ~ interface_side (vT S) (fst c, s) -> distanceOfVertex S' c (fst c, s) = Ok (vMin S)).
Proof. exact c0_distance_pf. Qed.
Print Assumptions C52_distances.

(** Not along the other interfaces at the vertex. *)
Theorem C52_other_interfaces_refuted : exists S0 S pc f u, consistent (vT S0) /\ start (vT S0) (vB S0) (vIncr S0) (vMin S0) = Ok S0 /\
  simple_bases (vT S0) (vB S0) (vMin S0) /\ (forall f, In f (tif (vT S0)) -> knots_match (vB S0) f) /\ setC0 S0 pc = Ok S /\
  In f (tif (vT S)) /\ same_vertex (vT S) pc (end1 f u) /\ distanceOfVertex S (end1 f u) (if1 f) = Ok 2 /\ vMin S = 3.
Proof. exact other_interfaces_refuted_pf. Qed.
Print Assumptions C52_other_interfaces_refuted.

Example C52_nonvacuous : map (fun x => distanceOfVertex fan_C0 (fst x, SW) x) [(0, South); (0, West); (1, South); (1, West); (2, South); (2, West)]
  = [Ok 3; Ok 3; Ok 3; Ok 2; Ok 2; Ok 3].
Proof. vm_compute. reflexivity. Qed.

(** ** C53 *)

(** A parameter found for n functions stands for n functions. *)
Theorem C53_round_trip : forall S pc ps b L mid n p, nth_error (vB S) (fst ps) = Some b ->
  simple_open (degree b (1 - side_dir (snd ps))) L mid (knots b (1 - side_dir (snd ps))) -> 0 < n <= length mid + 1 ->
  findParameter (vB S) ps pc n = Ok p -> parametricDistance S pc ps = Ok p -> distanceOfVertex S pc ps = Ok n.
Proof. exact round_trip_pf. Qed.
Print Assumptions C53_round_trip.

(** The two sides of an interface agree on the distance. *)
Theorem C53_sides_agree : forall S f u, consistent (vT S) -> records_of S -> vertex_wise S -> In f (tif (vT S)) -> knots_match (vB S) f ->
  distanceOfVertex S (end1 f u) (if1 f) = distanceOfVertex S (end2 f u) (if2 f).
Proof. exact agree_pf. Qed.
Print Assumptions C53_sides_agree.

(** The assumptions on the records and vertices hold after construction and are kept by setC0. *)
Theorem C53_invariant : (forall t B incr m S, consistent t -> start t B incr m = Ok S -> records_of S /\ vertex_wise S) /\
  (forall S pc S', consistent (vT S) -> fst pc < tnp (vT S) -> records_of S -> vertex_wise S -> setC0 S pc = Ok S' -> records_of S' /\ vertex_wise S').
Proof. exact (conj init_records_pf c0_keeps_pf). Qed.
Print Assumptions C53_invariant.

(** Boundary sides of special vertices, sides at regular interior vertices, sides at other vertices. *)
Theorem C53_counts : forall S c s, consistent (vT S) -> fst c < tnp (vT S) ->
  (simple_bases (vT S) (vB S) (vMin S) -> 0 < vMin S -> isSpecialVertex (vVert S) c = true -> ~ interface_side (vT S) (fst c, s) ->
     distanceOfVertex S c (fst c, s) = Ok (vMin S)) /\
  (forall b, nth_error (vB S) (fst c) = Some b -> let n := Nat.min (degree b (1 - side_dir s)) (vIncr S + 1) in
     simple_bases (vT S) (vB S) n -> 0 < degree b (1 - side_dir s) -> isSpecialVertex (vVert S) c = false -> In c (map fst (vVert S)) ->
     distanceOfVertex S c (fst c, s) = Ok n) /\
  (~ In c (map fst (vVert S)) -> distanceOfVertex S c (fst c, s) = Ok 0).
Proof. exact counts_pf. Qed.
Print Assumptions C53_counts.

(** On an interval with a breakpoint 0 the distance can be lost. *)
Theorem C53_shifted_refuted : exists S c ps, isSpecialVertex (vVert S) c = true /\
  parametricDistance S c ps = findParameter (vB S) ps c (vMin S) /\ vMin S = 2 /\
  (exists b, nth_error (vB S) (fst ps) = Some b /\ breakpoints (knots b (1 - side_dir (snd ps))) [-5; -4; 0; 4; 10]%Z) /\ distanceOfVertex S c ps = Ok 0.
Proof. exact shifted_refuted_pf. Qed.
Print Assumptions C53_shifted_refuted.

(** With a double knot the distance is larger. *)
Theorem C53_multiple_refuted : exists S c ps, isSpecialVertex (vVert S) c = true /\
  parametricDistance S c ps = findParameter (vB S) ps c (vMin S) /\ vMin S = 2 /\
  (exists b, nth_error (vB S) (fst ps) = Some b /\ breakpoints (knots b (1 - side_dir (snd ps))) [0; 4; 8; 12]%Z) /\ distanceOfVertex S c ps = Ok 3.
Proof. exact multiple_refuted_pf. Qed.
Print Assumptions C53_multiple_refuted.

Example C53_nonvacuous : simple_bases fan_topo (vB fan_start) 3 /\ (forall f, In f (tif fan_topo) -> knots_match (vB fan_start) f) /\ consistent fan_topo /\
  start fan_topo (vB fan_start) 1 3 = Ok fan_start.
Proof. split; [exact fan_simple|]. split; [exact fan_match|]. split; [exact fan_consistent|vm_compute; reflexivity]. Qed.
