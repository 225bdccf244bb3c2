(** Properties C59 and C60: the functions at a vertex in the C1 construction on surfaces. *)
From Coq Require Import Reals.
From Verif Require Import Common SplineModel SplineSpec GluingModel GluingSpec VfunModel VfunSpec VfunExamples SurfGDModel SurfGDSpec SurfGDExamples SurfVModel SurfVSpec SurfVProofs SurfVExamples SelectModel SelectSpec SelectProofs.
Open Scope R_scope.

(** The data at an edge determine a transversal vector at the vertex. *)
Theorem C59_transversal : forall gd G m, (forall i, (i < 2)%nat -> gd 0%nat i <> 0) -> (m < 2)%nat -> exists dd dd', data_transversal gd G m dd dd'.
Proof. exact surf_transversal_pf. Qed.
Print Assumptions C59_transversal.

(** At each of the two edges the function [b] is a combination of the first three functions of the plus space with the derivatives
    of the monomial [b] along the edge; its cross derivative is [- beta] times the derivative along the edge and [+- alpha] times a
    combination of the first two functions of the minus space. *)
Theorem C59_edge : forall surface comp plus minus gd G sigma b m dd dd', good_bases comp plus minus -> (forall i, (i < 2)%nat -> gd 0%nat i <> 0) -> (b < 6)%nat -> (m < 2)%nat ->
  data_transversal gd G m dd dd' ->
  exists P P' Q, first_functions (plus m) 2 P /\ first_functions (minus m) 1 Q /\ (forall s, rderiv P s (P' s)) /\
    P 0 = jv (monomial sigma b) /\ P' 0 = along1 (monomial sigma b) (tangent G m) /\ rderiv P' 0 (along2 (monomial sigma b) (tangent G m) (tangent G m) (tangent' G m)) /\
    Q 0 = along1 (monomial sigma b) dd /\ rderiv Q 0 (along2 (monomial sigma b) (tangent G m) dd dd') /\
    forall s, edge_jet (surfVertex surface comp plus minus gd G (surfPhi surface sigma) b) m s (P s) (P' s)
      (- dataBeta gd m s * P' s + sign m * dataAlpha gd m s * Q s).
Proof. exact surf_edge_pf. Qed.
Print Assumptions C59_edge.

(** At the vertex all derivatives up to order two are those of the monomial composed with the geometry. *)
Theorem C59_corner : forall surface comp plus minus gd G sigma b, good_bases comp plus minus -> (forall i, (i < 2)%nat -> gd 0%nat i <> 0) -> (b < 6)%nat ->
  let J := monomial sigma b in let Fu := tangent G 0 in let Fv := tangent G 1 in
  corner_jet (surfVertex surface comp plus minus gd G (surfPhi surface sigma) b)
    (jv J) (along1 J Fu) (along1 J Fv) (along2 J Fu Fu (tangent' G 0)) (along2 J Fu Fv (across' G)) (along2 J Fv Fv (tangent' G 1)).
Proof. exact surf_corner_pf. Qed.
Print Assumptions C59_corner.

(** With exact gluing data and the same spaces on both sides, the functions of the right and the left patch have the same value
    and the same gradient on the surface along the whole interface. The derivatives at the vertex may be those of the surfaces after
    any linear map, as long as it is the same for both (the matrix applied by the code need not be a rotation, see C41). *)
Theorem C59_smooth : forall surface M jacR jacL sol solB gdR gdL GR GL compR plusR minusR compL plusL minusL sigma b,
  good_bases compR plusR minusR -> good_bases compL plusL minusL -> (b < 6)%nat -> plusR 1%nat = plusL 0%nat -> minusR 1%nat = minusL 0%nat ->
  interface_data sol solB gdR gdL -> (forall i, (i < 2)%nat -> gdR 0%nat i <> 0) -> (forall i, (i < 2)%nat -> gdL 0%nat i <> 0) ->
  mapped_derivatives M jacR GR 1 -> mapped_derivatives M jacL GL 0 ->
  (forall s, Fu (jacL (s, 0)) = Fv (jacR (0, s))) -> (forall s, defect jacR jacL sol s = (0, 0, 0)) -> (forall s, split_defect sol solB s = 0) ->
  forall s, independent (Fu (jacR (0, s))) (Fv (jacR (0, s))) -> aR sol s <> 0 -> aL sol s <> 0 ->
  exists v g, smooth3 jacR 1 (surfVertex surface compR plusR minusR gdR GR (surfPhi surface sigma) b) s v g /\
              smooth3 jacL 0 (surfVertex surface compL plusL minusL gdL GL (surfPhi surface sigma) b) s v g.
Proof. exact surf_smooth_pf. Qed.
Print Assumptions C59_smooth.

(** A trapezium beside a square, with the function x y. *)
Theorem C59_nonvacuous : interface_data wider7 zero4 widerGD flatGD /\ mapped_derivatives rowsM widerR widerG 1 /\ mapped_derivatives rowsM flatL flatG 0 /\
  (forall s, defect widerR flatL wider7 s = (0, 0, 0)) /\
  (forall s, 0 <= s -> exists v g, smooth3 widerR 1 (surfVertex true quads quads quads widerGD widerG (surfPhi true 3) 4) s v g /\ smooth3 flatL 0 (surfVertex true quads quads quads flatGD flatG (surfPhi true 3) 4) s v g) /\
  corner_jet (surfVertex true quads quads quads widerGD widerG (surfPhi true 3) 4) 0 0 0 0 9 0 /\
  corner_jet (surfVertex true quads quads quads flatGD flatG (surfPhi true 3) 4) 0 0 0 0 (- (9)) 0.
Proof. exact surf_example_pf. Qed.
Print Assumptions C59_nonvacuous.

(** Every patch gets the data of its own interfaces, as the left or the right patch, and 1 and 0 at the boundary; no entry is
    left uninitialised. The kind of the vertex has to be right. *)
Theorem C60_data : forall n ifs gds bdy0 bdy1 i, sides_once ifs -> oriented ifs -> two_patches ifs ->
  (bdy0 = true <-> ~ inner_side ifs i 3) -> (bdy1 = true <-> ~ inner_side ifs i 1) ->
  (n = 1%nat -> ~ inner_side ifs i 1 /\ ~ inner_side ifs i 3) -> (n <> 1%nat -> inner_side ifs i 1 \/ inner_side ifs i 3) ->
  (kindOfVertex n ifs = 0%Z -> inner_side ifs i 1 /\ inner_side ifs i 3) ->
  data_of ifs gds i (selectGD n ifs gds bdy0 bdy1 i).
Proof. exact select_pf. Qed.
Print Assumptions C60_data.

(** The kind of the vertex is right if all interfaces between the patches contain the vertex. *)
Theorem C60_kind : forall n ifs, n <> 1%nat -> sides_once ifs -> oriented ifs -> valid_patches n ifs -> all_at_vertex ifs ->
  (kindOfVertex n ifs = 0%Z <-> inner_vertex n ifs) /\ (kindOfVertex n ifs = 1%Z <-> ~ inner_vertex n ifs).
Proof. exact kind_pf. Qed.
Print Assumptions C60_kind.

(** Two half rings meet in two interfaces. A vertex on the boundary is taken for one inside, and entries stay uninitialised. *)
Theorem C60_kind_refuted : exists n ifs, sides_once ifs /\ oriented ifs /\ two_patches ifs /\ valid_patches n ifs /\ (forall i, (i < n)%nat -> inner_side ifs i 1 \/ inner_side ifs i 3) /\
  ~ inner_vertex n ifs /\ kindOfVertex n ifs = 0%Z /\
  exists i, (i < n)%nat /\ ~ inner_side ifs i 3 /\ forall gds, selectGD n ifs gds true false i 0%nat 0%nat = None.
Proof. exact kind_refuted_pf. Qed.
Print Assumptions C60_kind_refuted.

(** A patch that is joined with itself at the vertex is treated as if the vertex was on the boundary. *)
Theorem C60_cone_refuted : exists ifs, sides_once ifs /\ oriented ifs /\ valid_patches 1 ifs /\ all_at_vertex ifs /\ inner_vertex 1 ifs /\ kindOfVertex 1 ifs = (-1)%Z /\
  forall gds, column (selectGD 1 ifs gds false false 0) 0 1 1 0 0.
Proof. exact cone_refuted_pf. Qed.
Print Assumptions C60_cone_refuted.

(** Three patches around a vertex and two patches with a boundary. *)
Theorem C60_nonvacuous : sides_once three /\ oriented three /\ two_patches three /\ inner_vertex 3 three /\ kindOfVertex 3 three = 0%Z /\ data_of three someData 1 (selectGD 3 three someData false false 1) /\
  (exists x, selectGD 3 three someData false false 1 0%nat 1%nat = Some x /\ x = INR 21) /\
  kindOfVertex 2 pair2 = 1%Z /\ column (selectGD 2 pair2 someData true false 0) 0 1 1 0 0 /\ selectGD 2 pair2 someData true false 0 0%nat 1%nat = Some (INR 10).
Proof. exact select_example_pf. Qed.
Print Assumptions C60_nonvacuous.
