(** Property C54: the functions at a vertex of the approximate C1 construction. *)
From Coq Require Import Lra.
From Verif Require Import Common SplineModel SplineSpec GluingModel GluingSpec VfunModel VfunSpec VfunProofs VfunExamples.
Open Scope R_scope.

(** At each of the two edges the function [b] at a vertex is a combination of the first three functions of the plus space with
    the derivatives up to order two of the monomial [b] along the edge. Its cross derivative is [- beta] times the derivative
    along the edge and [+- alpha] times a combination of the first two functions of the minus space with the derivatives of
    the monomial in the transversal direction. *)
Theorem C54_edge : forall surface comp plus minus glue kind G sigma b m dd dd', good_bases comp plus minus -> good_glue glue kind -> (b < 6)%nat -> (m < 2)%nat ->
  transversal glue kind G m dd dd' ->
  exists P P' Q, first_functions (plus m) 2 P /\ first_functions (minus m) 1 Q /\ (forall s, rderiv P s (P' s)) /\
    P 0 = jv (monomial sigma b) /\ P' 0 = along1 (monomial sigma b) (tangent G m) /\ rderiv P' 0 (along2 (monomial sigma b) (tangent G m) (tangent G m) (tangent' G m)) /\
    Q 0 = along1 (monomial sigma b) dd /\ rderiv Q 0 (along2 (monomial sigma b) (tangent G m) dd dd') /\
    forall s, edge_jet (vertexEval surface comp plus minus glue kind G (if surface then PhiSurface sigma else PhiPlanar sigma) b) m s (P s) (P' s)
      (- edge_beta glue kind m s * P' s + sign m * edge_alpha glue kind m s * Q s).
Proof. exact edge_pf. Qed.
Print Assumptions C54_edge.

(** the transversal vector exists *)
Theorem C54_transversal_exists : forall glue kind G m, good_glue glue kind -> (m < 2)%nat -> exists dd dd', transversal glue kind G m dd dd'.
Proof. exact transversal_exists_pf. Qed.
Print Assumptions C54_transversal_exists.

(** At the vertex all derivatives up to order two are those of the monomial composed with the geometry. *)
Theorem C54_corner : forall surface comp plus minus glue kind G sigma b, good_bases comp plus minus -> good_glue glue kind -> (b < 6)%nat ->
  let J := monomial sigma b in let Fu := tangent G 0 in let Fv := tangent G 1 in
  corner_jet (vertexEval surface comp plus minus glue kind G (if surface then PhiSurface sigma else PhiPlanar sigma) b)
    (jv J) (along1 J Fu) (along1 J Fv) (along2 J Fu Fu (tangent' G 0)) (along2 J Fu Fv (across' G)) (along2 J Fv Fv (tangent' G 1)).
Proof. exact corner_pf. Qed.
Print Assumptions C54_corner.

(** The derivatives at the vertex determine the combinations. *)
Theorem C54_plus_unique : forall bp P P' R R', open_basis bp 3 -> (2 <= sdeg bp)%nat -> first_functions bp 2 P -> first_functions bp 2 R ->
  (forall s, rderiv P s (P' s)) -> (forall s, rderiv R s (R' s)) -> P 0 = R 0 -> P' 0 = R' 0 -> (exists d, rderiv P' 0 d /\ rderiv R' 0 d) -> forall s, P s = R s.
Proof. exact plus_unique_pf. Qed.
Print Assumptions C54_plus_unique.

Theorem C54_minus_unique : forall bm P Q, open_basis bm 2 -> (1 <= sdeg bm)%nat -> first_functions bm 1 P -> first_functions bm 1 Q ->
  P 0 = Q 0 -> (exists d, rderiv P 0 d /\ rderiv Q 0 d) -> forall s, P s = Q s.
Proof. exact minus_unique_pf. Qed.
Print Assumptions C54_minus_unique.

(** Two patches with a common edge, the same plus and minus space there, and the same transversal vector: the functions of the
    two patches have the same value and the same derivative along the edge, and cross derivatives built from the same data. *)
Theorem C54_glued : forall surface compA plusA minusA glueA kindA GA mA compB plusB minusB glueB kindB GB mB sigma b dd dd',
  good_bases compA plusA minusA -> good_bases compB plusB minusB -> good_glue glueA kindA -> good_glue glueB kindB -> (b < 6)%nat -> (mA < 2)%nat -> (mB < 2)%nat ->
  plusA mA = plusB mB -> minusA mA = minusB mB ->
  (forall r, (r < 2)%nat -> tangent GA mA r = tangent GB mB r /\ tangent' GA mA r = tangent' GB mB r) ->
  transversal glueA kindA GA mA dd dd' -> transversal glueB kindB GB mB dd dd' ->
  forall s, exists v a q,
    edge_jet (vertexEval surface compA plusA minusA glueA kindA GA (if surface then PhiSurface sigma else PhiPlanar sigma) b) mA s v a (- edge_beta glueA kindA mA s * a + sign mA * edge_alpha glueA kindA mA s * q) /\
    edge_jet (vertexEval surface compB plusB minusB glueB kindB GB (if surface then PhiSurface sigma else PhiPlanar sigma) b) mB s v a (- edge_beta glueB kindB mB s * a + sign mB * edge_alpha glueB kindB mB s * q).
Proof. exact glued_vertex_pf. Qed.
Print Assumptions C54_glued.

(** With the exact gluing data of two planar geometries the two functions have the same value and the same gradient along the
    whole edge. *)
Theorem C54_planar : forall jacA compA plusA minusA glueA kindA GA mA jacB compB plusB minusB glueB kindB GB mB sigma b,
  good_bases compA plusA minusA -> good_bases compB plusB minusB -> good_glue glueA kindA -> good_glue glueB kindB -> (b < 6)%nat -> (mA < 2)%nat -> (mB < 2)%nat ->
  plusA mA = plusB mB -> minusA mA = minusB mB ->
  derivatives_at jacA GA mA -> derivatives_at jacB GB mB -> exact_glue jacA glueA kindA mA -> exact_glue jacB glueB kindB mB ->
  (forall s, tangent2 (jacA (near_edge mA s 0)) mA = tangent2 (jacB (near_edge mB s 0)) mB) -> (forall s, tangent2 (jacA (near_edge mA s 0)) mA <> (0, 0)) ->
  forall s, exists v g, smooth2 jacA mA (vertexEval false compA plusA minusA glueA kindA GA (PhiPlanar sigma) b) s v g /\
                        smooth2 jacB mB (vertexEval false compB plusB minusB glueB kindB GB (PhiPlanar sigma) b) s v g.
Proof. exact planar_vertex_pf. Qed.
Print Assumptions C54_planar.

(** Two patches with different gluing data, and the derivatives of x y on the left and of x on the right. *)
Theorem C54_nonvacuous : exists jacA glueA kindA GA jacB glueB kindB GB comp,
  good_bases comp comp comp /\ good_glue glueA kindA /\ good_glue glueB kindB /\ derivatives_at jacA GA 1 /\ derivatives_at jacB GB 0 /\
  exact_glue jacA glueA kindA 1 /\ exact_glue jacB glueB kindB 0 /\
  (forall s, tangent2 (jacA (near_edge 1 s 0)) 1 = tangent2 (jacB (near_edge 0 s 0)) 0) /\ (forall s, tangent2 (jacA (near_edge 1 s 0)) 1 <> (0, 0)) /\
  gbeta (glueA 1%nat) 1 <> gbeta (glueB 0%nat) 1 /\
  corner_jet (vertexEval false comp comp comp glueA kindA GA (PhiPlanar 3) 4) 0 0 0 (- (9)) (- (9)) 0 /\
  corner_jet (vertexEval false comp comp comp glueB kindB GB (PhiPlanar 3) 1) 0 0 3 0 0 0.
Proof. exact nonvacuous_pf. Qed.
Print Assumptions C54_nonvacuous.
