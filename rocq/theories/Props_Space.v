(** Property C62: the spaces along edges and at vertices contain the basis functions. *)
From Coq Require Import Reals.
From Verif Require Import Common C1Model SpaceModel SpaceSpec SpaceProofs SpaceProofs2 SpaceProofs4.
Open Scope Z_scope.

(** At an interface: the space contains the products of the gluing data with the functions of the minus space and with the derivatives of
    those of the plus space; with gluing data of degree at least 1 also the plus space. Its degree and multiplicities are as computed. *)
Theorem C62_edge : forall redn geo b pt rt gd, reduces redn -> knots_ok (kvin b) -> first_least b -> kvin geo = [] -> (1 <= kvdeg b)%nat -> gluingSpace geo b pt rt = Ok gd ->
  exists plus minus E, createPlusSpace (redn 1%nat) geo b = Ok plus /\ createMinusSpace (redn 1%nat) geo b = Ok minus /\ edgeSpace redn geo b plus minus gd = Ok E /\
    kvdeg plus = kvdeg b /\ kvdeg minus = (kvdeg b - 1)%nat /\ kvdeg E = (kvdeg b + kvdeg gd - 1)%nat /\
    (forall x, (0 < mult (kvin b) x)%nat -> Z.of_nat (mult (kvin E) x) = Z.of_nat (kvdeg E) - Z.min (regularity gd) (Z.of_nat (kvdeg b) - Z.of_nat (multAfterEnd b) - (if (multAfterEnd b =? 1)%nat then 1 else 0)) + Z.of_nat (mult (kvin b) x) - Z.of_nat (multAfterEnd b)) /\
    (forall x, mult (kvin b) x = 0%nat -> mult (kvin E) x = 0%nat) /\
    forall P P' M al be s, space_of plus P -> space_of minus M -> space_of gd al -> space_of gd be -> derivative P P' ->
      (product be P' s -> space_of E s) /\ (product al M s -> space_of E s) /\ ((1 <= kvdeg gd)%nat -> space_of E P).
Proof. exact edge_space_pf. Qed.
Print Assumptions C62_edge.

(** At the boundary the space contains the plus and the minus space; a simple first knot becomes a double one, otherwise nothing changes. *)
Theorem C62_boundary : forall redn geo b, reduces redn -> knots_ok (kvin b) -> first_least b -> kvin geo = [] -> (1 <= kvdeg b)%nat ->
  exists plus minus E, createPlusSpace (redn 1%nat) geo b = Ok plus /\ createMinusSpace (redn 1%nat) geo b = Ok minus /\ edgeSpaceBoundary redn geo b plus minus = Ok E /\ kvdeg E = kvdeg b /\
    (forall x, mult (kvin E) x = if (multAfterEnd b =? 1)%nat && (0 <? mult (kvin b) x)%nat then (mult (kvin b) x + 1)%nat else mult (kvin b) x) /\
    forall P M, space_of plus P -> space_of minus M -> space_of E P /\ space_of E M.
Proof. exact boundary_space_pf. Qed.
Print Assumptions C62_boundary.

(** At a vertex on an interface the space is that of the edge, and contains the basis itself. *)
Theorem C62_vertex : forall redn geo b pt rt gd plus minus E, reduces redn -> knots_ok (kvin b) -> first_least b -> kvin geo = [] -> (1 <= kvdeg b)%nat -> gluingSpace geo b pt rt = Ok gd ->
  createPlusSpace (redn 1%nat) geo b = Ok plus -> createMinusSpace (redn 1%nat) geo b = Ok minus -> edgeSpace redn geo b plus minus gd = Ok E ->
  vertexSpace redn geo b true pt rt = Ok E /\ ((1 <= kvdeg gd)%nat -> forall s, space_of b s -> space_of E s).
Proof. exact vertex_space_pf. Qed.
Print Assumptions C62_vertex.

(** At a vertex on the boundary. *)
Theorem C62_vertex_boundary : forall redn geo b pt rt plus minus, reduces redn -> knots_ok (kvin b) -> first_least b -> kvin geo = [] -> (1 <= kvdeg b)%nat ->
  createPlusSpace (redn 1%nat) geo b = Ok plus -> createMinusSpace (redn 1%nat) geo b = Ok minus ->
  exists V, vertexSpace redn geo b false pt rt = Ok V /\ kvdeg V = kvdeg b /\
    (forall x, mult (kvin V) x = if (multAfterEnd b =? 1)%nat && (0 <? mult (kvin b) x)%nat then (mult (kvin b) x + 1)%nat else mult (kvin b) x) /\
    forall s, space_of plus s \/ space_of minus s \/ space_of b s -> space_of V s.
Proof. exact vertex_boundary_pf. Qed.
Print Assumptions C62_vertex_boundary.

(** At the inner knots of the geometry: the multiplicities are exactly those for the smoothness of the geometry, one less for the minus space
    and for the gluing data (with exceptions for continuous geometries); the other knots keep theirs. *)
Theorem C62_geometry : forall redn geo b, reduces redn -> knots_ok (kvin b) -> first_least b -> knots_ok (kvin geo) -> (1 <= kvdeg b)%nat -> (forall x, (0 < mult (kvin geo) x)%nat -> (0 < mult (kvin b) x)%nat) ->
  let lowered x := (mult (kvin b) x - (if (multAfterEnd b =? 1)%nat then 0 else 1))%nat in
  let rgeo x := Z.of_nat (kvdeg geo) - Z.of_nat (mult (kvin geo) x) in
  (exists plus, createPlusSpace (redn 1%nat) geo b = Ok plus /\ knots_ok (kvin plus) /\ kvdeg plus = kvdeg b /\
    forall x, mult (kvin plus) x = if (0 <? mult (kvin geo) x)%nat then Z.to_nat (Z.of_nat (kvdeg plus) - rgeo x) else lowered x) /\
  (exists minus, createMinusSpace (redn 1%nat) geo b = Ok minus /\ knots_ok (kvin minus) /\ kvdeg minus = (kvdeg b - 1)%nat /\
    forall x, mult (kvin minus) x = if (0 <? mult (kvin geo) x)%nat then (if (rgeo x =? 1) && (lowered x =? kvdeg minus)%nat then (kvdeg minus - 1)%nat else Z.to_nat (Z.of_nat (kvdeg minus) - (rgeo x - 1))) else lowered x) /\
  (forall pt rt gd, gluingSpace geo b pt rt = Ok gd -> knots_ok (kvin gd) /\
    forall x, mult (kvin gd) x = if (0 <? mult (kvin geo) x)%nat then Z.to_nat (Z.of_nat (kvdeg gd) - (if rgeo x =? 1 then 1 else rgeo x - 1))
      else if (0 <? mult (kvin b) x)%nat then Z.to_nat (Z.of_nat (kvdeg gd) - (if rt =? -1 then Z.of_nat (kvdeg gd) - 1 else rt)) else 0%nat) /\
  (forall k, knots_ok (kvin k) -> (forall x, (0 < mult (kvin geo) x)%nat -> (0 < mult (kvin k) x)%nat) -> exists k', geoCheck geo k = Ok k' /\ knots_ok (kvin k') /\ kvdeg k' = kvdeg k /\
    forall x, mult (kvin k') x = if (0 <? mult (kvin geo) x)%nat then Z.to_nat (Z.of_nat (kvdeg k) - rgeo x) else mult (kvin k) x).
Proof. exact geometry_pf. Qed.
Print Assumptions C62_geometry.

(** With inner knots of the geometry the edge space is too smooth: it does not contain the products with the derivatives. *)
Theorem C62_geometry_refuted : forall redn, reduces redn -> exists geo b gd plus minus E, knots_ok (kvin b) /\ first_least b /\ gluingSpace geo b (-1) (-1) = Ok gd /\ createPlusSpace (redn 1%nat) geo b = Ok plus /\ createMinusSpace (redn 1%nat) geo b = Ok minus /\ edgeSpace redn geo b plus minus gd = Ok E /\
  exists P P' be s, space_of plus P /\ derivative P P' /\ space_of gd be /\ product be P' s /\ ~ space_of E s.
Proof. exact geometry_refuted_pf. Qed.
Print Assumptions C62_geometry_refuted.

(** If a later knot has a smaller multiplicity than the first one, the edge space is too smooth there. *)
Theorem C62_uneven_refuted : forall redn, reduces redn -> exists geo b gd plus minus E, kvin geo = [] /\ knots_ok (kvin b) /\ gluingSpace geo b (-1) (-1) = Ok gd /\ createPlusSpace (redn 1%nat) geo b = Ok plus /\ createMinusSpace (redn 1%nat) geo b = Ok minus /\ edgeSpace redn geo b plus minus gd = Ok E /\
  exists M al s, space_of minus M /\ space_of gd al /\ product al M s /\ ~ space_of E s.
Proof. exact uneven_refuted_pf. Qed.
Print Assumptions C62_uneven_refuted.

(** A cubic basis with two simple inner knots on a geometry without. *)
Theorem C62_nonvacuous : reduces redMinus /\ knots_ok (kvin cubic2) /\ first_least cubic2 /\ kvin bezier = [] /\
  exists gd plus minus E, gluingSpace bezier cubic2 (-1) (-1) = Ok gd /\ createPlusSpace (redMinus 1) bezier cubic2 = Ok plus /\ createMinusSpace (redMinus 1) bezier cubic2 = Ok minus /\
    edgeSpace redMinus bezier cubic2 plus minus gd = Ok E /\ vertexSpace redMinus bezier cubic2 true (-1) (-1) = Ok E /\
    kvdeg E = 4%nat /\ kvin E = [(third, 3%nat); (twoThirds, 3%nat)] /\ (exists k, vertexSpace redMinus bezier cubic2 false (-1) (-1) = Ok k /\ kvin k = [(third, 2%nat); (twoThirds, 2%nat)]) /\
    space_of plus (trunc third 1 3) /\ ~ space_of plus (trunc third 1 2) /\ space_of gd (trunc third 1 2) /\ space_of E (trunc third 1 2) /\ ~ space_of E (trunc third 1 1).
Proof. exact space_example_pf. Qed.
Print Assumptions C62_nonvacuous.
