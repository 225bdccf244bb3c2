(** Property C79: the spaces of the two patches of an interface. *)
From Coq Require Import Reals.
From Verif Require Import Common TopoModel BaseModel ReparamModel ReparamSpec C1Model SpaceModel SpaceSpec SpaceProofs4 SurfaceSpec IfSpaceModel IfSpaceSpec IfSpaceProofs IfSpaceProofs2 IfSpaceProofs3.
Open Scope Z_scope.

(** Geometries without inner knots, positive orientation: both patches work with the spaces of the coarser side, those for which init() reserved
    the rows, and the piece of each patch contains the functions to be represented. *)
Theorem C79_interface : forall redn, reduces redn -> forall pt rt p1 p2, let k1 := side_comp (ipBas p1) (ipSide p1) in let k2 := side_comp (ipBas p2) (ipSide p2) in
  straight (ipGeo p1) -> straight (ipGeo p2) -> ipNeg p1 = false -> ipNeg p2 = false -> usable k1 -> usable k2 -> gd_valid pt rt k1 -> gd_valid pt rt k2 -> ranked k1 k2 ->
  exists k plus minus gd E1 E2, the_coarser k1 k2 k /\ spaces_on redn pt rt k plus minus gd /\
    ifInit redn pt rt p1 p2 = Ok (plus, minus, E1, E2) /\ ifSetup redn pt rt p1 p2 = Ok (mkIL plus minus gd gd) /\
    represents plus minus gd (component (runBas (ifOps true false (ipSide p1)) E1) 1) /\ represents plus minus gd (component (runBas (ifOps false false (ipSide p2)) E2) 0).
Proof. exact interface_pf. Qed.
Print Assumptions C79_interface.

(** Equally many elements with different knots: the gluing data of the second patch are not in the piece. *)
Theorem C79_tie_refuted : forall redn, reduces redn -> exists p1 p2 plus minus E1 E2 L,
  straight (ipGeo p1) /\ straight (ipGeo p2) /\ ipNeg p1 = false /\ ipNeg p2 = false /\ usable (side_comp (ipBas p1) (ipSide p1)) /\ usable (side_comp (ipBas p2) (ipSide p2)) /\
  ifInit redn (-1) (-1) p1 p2 = Ok (plus, minus, E1, E2) /\ ifSetup redn (-1) (-1) p1 p2 = Ok L /\
  ~ represents (ilPlus L) (ilMinus L) (ilGD2 L) (component (runBas (ifOps false false (ipSide p2)) E2) 0).
Proof. exact tie_refuted_pf. Qed.
Print Assumptions C79_tie_refuted.

(** Geometry with an inner knot: re-parameterisation reverses the geometry and not the basis, the functions are not those of init(). *)
Theorem C79_geometry_refuted : forall redn, exists p1 p2 plus minus E1 E2 L, ipNeg p1 = false /\ ipNeg p2 = false /\ usable (side_comp (ipBas p1) (ipSide p1)) /\ side_comp (ipBas p1) (ipSide p1) = side_comp (ipBas p2) (ipSide p2) /\ ipGeo p1 = ipGeo p2 /\
  ifInit redn (-1) (-1) p1 p2 = Ok (plus, minus, E1, E2) /\ ifSetup redn (-1) (-1) p1 p2 = Ok L /\ kvin plus = [(third, 2%nat)] /\ kvin (ilPlus L) = [(third, 1%nat); (twoThirds, 1%nat)].
Proof. exact geometry_if_refuted_pf. Qed.
Print Assumptions C79_geometry_refuted.

(** A patch at a vertex: each of its two edges gets the spaces of the coarser patch, and the piece of the corner contains the functions. *)
Theorem C79_vertex : forall redn pt rt P, reduces redn -> vp_ok pt rt P -> exists V l, vtInit redn pt rt P = Ok V /\ vtSetup redn pt rt P = Ok l /\
  forall s, on_side (vpCorner P) s = true -> exists k d e, edge_knots P s k /\ localDir (vtOps (vpNeg P) (vpCorner P)) s = Ok d /\ nth_error l d = Some (Some e) /\
    (veIf e = true <-> is_interface P s) /\ spaces_on redn pt rt k (vePlus e) (veMinus e) (veGD e) /\
    (is_interface P s -> represents (vePlus e) (veMinus e) (veGD e) (component (runBas (vtOps (vpNeg P) (vpCorner P)) V) d)) /\
    (~ is_interface P s -> represents_boundary (vePlus e) (veMinus e) (component (runBas (vtOps (vpNeg P) (vpCorner P)) V) d)).
Proof. exact vertex_if_pf. Qed.
Print Assumptions C79_vertex.

(** Two patches at a vertex use the same spaces on their interface ... *)
Theorem C79_vertex_agree : forall redn pt rt P s Q s' l l' d d' e e', reduces redn -> vp_ok pt rt P -> vp_ok pt rt Q -> neighbours P s Q s' -> on_side (vpCorner P) s = true -> on_side (vpCorner Q) s' = true ->
  ranked (side_comp (vpBas P) s) (side_comp (vpBas Q) s') -> vtSetup redn pt rt P = Ok l -> vtSetup redn pt rt Q = Ok l' ->
  localDir (vtOps (vpNeg P) (vpCorner P)) s = Ok d -> localDir (vtOps (vpNeg Q) (vpCorner Q)) s' = Ok d' -> nth_error l d = Some (Some e) -> nth_error l' d' = Some (Some e') -> e = e'.
Proof. exact vertex_agree_pf. Qed.
Print Assumptions C79_vertex_agree.

(** ... unless both have equally many elements and different knots. *)
Theorem C79_vertex_tie_refuted : forall redn, exists P s Q s' l l' d d' e e', vp_ok (-1) (-1) P /\ vp_ok (-1) (-1) Q /\ neighbours P s Q s' /\ on_side (vpCorner P) s = true /\ on_side (vpCorner Q) s' = true /\
  length (kvin (side_comp (vpBas P) s)) = length (kvin (side_comp (vpBas Q) s')) /\ vtSetup redn (-1) (-1) P = Ok l /\ vtSetup redn (-1) (-1) Q = Ok l' /\
  localDir (vtOps (vpNeg P) (vpCorner P)) s = Ok d /\ localDir (vtOps (vpNeg Q) (vpCorner Q)) s' = Ok d' /\ nth_error l d = Some (Some e) /\ nth_error l' d' = Some (Some e') /\
  kvin (vePlus e) = [(third, 1%nat)] /\ kvin (vePlus e') = [(half, 1%nat)].
Proof. exact vertex_tie_refuted_pf. Qed.
Print Assumptions C79_vertex_tie_refuted.

(** A function mapped back has at every parameter of the patch the value it had at the moved parameter, if the knots are symmetric ... *)
Theorem C79_back : forall {A} (coord : A -> Q) sw h (p : patch A) ng a (g f : patch A) xy, at_most_one_rotation h -> run (history sw h) (newAux p ng) = Ok a ->
  full g -> spline_comp (pU g) -> spline_comp (pV g) -> ReparamSpec.symmetric (pU g) -> ReparamSpec.symmetric (pV g) -> parametrizeBasisBack a [g] = Ok [f] ->
  let xy' := moves (history sw h) (span (pU f), span (pV f)) xy in off_knots (pU g) (fst xy') -> off_knots (pV g) (snd xy') ->
  (surface coord f xy == surface coord g xy')%Q.
Proof. exact @back_pf. Qed.
Print Assumptions C79_back.

(** ... and not in general. *)
Theorem C79_back_refuted : exists (p : patch Q) a (g f : patch Q) xy, full g /\ (pU g, pV g) = bas2 a /\ reparametrizeInterface true 2 (newAux p false) = Ok a /\ parametrizeBasisBack a [g] = Ok [f] /\
  let xy' := moves [OTwice] (span (pU f), span (pV f)) xy in off_knots (pU g) (fst xy') /\ off_knots (pV g) (snd xy') /\ ~ (surface (fun x => x) f xy == surface (fun x => x) g xy')%Q.
Proof. exact back_refuted_pf. Qed.
Print Assumptions C79_back_refuted.

(** The re-parameterised geometry has its inner knots where the moved points of the knot lines are. *)
Theorem C79_lines : forall h g xy m, on_line g xy m <-> on_line (runGeo h g) (moves h (ends (fst g), ends (snd g)) xy) m.
Proof. exact lines_pf. Qed.
Print Assumptions C79_lines.

(** The corner of the patch comes to the origin; the orientation changes exactly if it was negative. *)
Theorem C79_corner : forall ng c s, let q := moves (vtOps ng c) s (corner_point s c) in (fst q == 0)%Q /\ (snd q == 0)%Q.
Proof. exact corner_pf. Qed.
Print Assumptions C79_corner.
Theorem C79_corner_orientation : forall ng c s p q r, (area (moves (vtOps ng c) s p) (moves (vtOps ng c) s q) (moves (vtOps ng c) s r) == (if ng then - area p q r else area p q r))%Q.
Proof. exact corner_area_pf. Qed.
Print Assumptions C79_corner_orientation.

(** The interface comes to u = 0 in the first patch and to v = 0 in the second, with the same orientation. *)
Theorem C79_side : forall first d s xy, on_side_of s d xy -> let q := moves (ifOps first false d) s xy in if first then (fst q == 0)%Q else (snd q == 0)%Q.
Proof. exact side_pf. Qed.
Print Assumptions C79_side.
Theorem C79_side_orientation : forall first d s p q r, let h := ifOps first false d in (area (moves h s p) (moves h s q) (moves h s r) == area p q r)%Q.
Proof. exact side_area_pf. Qed.
Print Assumptions C79_side_orientation.

(** The pieces of the two patches follow their own geometry and may differ along the interface. *)
Theorem C79_pieces_refuted : exists p1 p2 plus minus E1 E2, ipNeg p1 = false /\ ipNeg p2 = false /\ usable (side_comp (ipBas p1) (ipSide p1)) /\ side_comp (ipBas p1) (ipSide p1) = side_comp (ipBas p2) (ipSide p2) /\ straight (ipGeo p1) /\
  kvin (side_comp (ipGeo p2) (ipSide p2)) = [(third, 2%nat)] /\ ifInit redMinus (-1) (-1) p1 p2 = Ok (plus, minus, E1, E2) /\
  kvin (side_comp E1 (ipSide p1)) = [(third, 3%nat)] /\ kvin (side_comp E2 (ipSide p2)) = [(third, 4%nat)].
Proof. exact pieces_refuted_pf. Qed.
Print Assumptions C79_pieces_refuted.

(** A fine patch with its east side at a coarse one with its south side; a patch at a vertex with one interface. *)
Theorem C79_nonvacuous : straight (ipGeo ipFine) /\ straight (ipGeo ipCoarse) /\ usable quarterKV /\ usable halfKV /\ gd_valid (-1) (-1) quarterKV /\ ranked quarterKV halfKV /\ the_coarser quarterKV halfKV halfKV /\
  side_comp (ipBas ipFine) (ipSide ipFine) = quarterKV /\ side_comp (ipBas ipCoarse) (ipSide ipCoarse) = halfKV /\
  (exists plus minus E1 E2 gd, ifInit redMinus (-1) (-1) ipFine ipCoarse = Ok (plus, minus, E1, E2) /\ ifSetup redMinus (-1) (-1) ipFine ipCoarse = Ok (mkIL plus minus gd gd) /\
    kvin plus = [(half, 1%nat)] /\ fst E1 = thirdKV /\ kvdeg (snd E1) = 4%nat /\ kvin (snd E1) = [(half, 3%nat)] /\ kvin (fst E2) = [(half, 3%nat)] /\ snd E2 = halfKV /\
    component (runBas (ifOps true false East) E1) 1 = snd E1 /\ space_of plus (trunc half 1 3) /\ ~ space_of plus (trunc half 1 2)) /\
  vp_ok (-1) (-1) vtA /\ is_interface vtA East /\ ~ is_interface vtA South /\ (exists V, vtInit redMinus (-1) (-1) vtA = Ok V /\ kvin (fst V) = [(third, 2%nat)] /\ kvin (snd V) = [(third, 3%nat)]).
Proof. exact if_example_pf. Qed.
Print Assumptions C79_nonvacuous.
