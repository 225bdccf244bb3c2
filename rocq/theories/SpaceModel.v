(** Model of the spaces along the edges and at the vertices in the approximate C1 construction: src/gsApproxC1Utils.cpp. The plus and
    the minus space are in C1Model.

    Simplifications: knot vectors are clamped and given by their inner knots with multiplicities, as in C1Model; only the component
    along the edge is modelled, the other one is copied. reduceMultiplicity(n) of G+Smo, behind elevateContinuity(n), is external:
    [redn n m] is the new multiplicity. increaseMultiplicity(n), behind reduceContinuity(n), adds [n] to all inner multiplicities;
    setDegreePreservingMultiplicity keeps them. *)
From Verif Require Import Common BaseModel ReparamModel C1Model.
Open Scope Z_scope.

(** component.degree() - knots().multiplicityIndex(degree+1) *)
Definition regularity (k : kvec) : Z := Z.of_nat (kvdeg k) - Z.of_nat (multAfterEnd k).

(** setDegreePreservingMultiplicity(p) *)
Definition setDegree (k : kvec) (p : nat) : kvec := mkKV p (kvlo k) (kvhi k) (kvin k).
(** reduceContinuity(n) *)
Definition reduceCont (k : kvec) (n : nat) : kvec := mkKV (kvdeg k) (kvlo k) (kvhi k) (map (fun xm => (fst xm, snd xm + n)%nat) (kvin k)).
(** elevateContinuity(n) *)
Definition elevateCont (redn : nat -> nat -> nat) (k : kvec) (n : nat) : kvec := mkKV (kvdeg k) (kvlo k) (kvhi k) (reduceInner (redn n) (kvin k)).
(** src/gsApproxC1Utils.cpp:152-155, 198-201, 250-253 *)
Definition setRegularity (redn : nat -> nat -> nat) (k : kvec) (r : Z) : kvec :=
  if r <? regularity k then reduceCont k (Z.to_nat (regularity k - r))
  else if regularity k <? r then elevateCont redn k (Z.to_nat (r - regularity k)) else k.

(** the loops of the geometry check without the case of the minus space: 164-175, 210-221, 262-273, 291-302 *)
Definition geoCheck (geo k : kvec) : res kvec :=
  do l <- foldM (geoStep false (kvdeg geo) (kvdeg k)) (kvin geo) (kvin k);
  Ok (mkKV (kvdeg k) (kvlo k) (kvhi k) l).

(** src/gsApproxC1Utils.cpp:40-54: one geometry knot for the gluing data; 44: regularity 0 becomes 1 *)
Definition gluingStep (pgeo : nat) (rt : Z) (l : list (Q * nat)) (g : Q * nat) : res (list (Q * nat)) :=
  let r0 := Z.of_nat pgeo - Z.of_nat (snd g) - 1 in
  let rgeo := if r0 =? 0 then 1 else r0 in
  if rgeo <? rt then Ok (kinsert l (fst g) (Z.to_nat (rt - rgeo)))
  else if rt <? rgeo then match uFind l (fst g) with None => Err | Some i => Ok (kremove l i (Z.to_nat (rgeo - rt))) end
  else Ok l.
(** src/gsApproxC1Utils.cpp:21-57 createGluingDataSpace; -1 stands for the default. gsKnotVector(uniqueKnots, p, r) repeats the inner
    knots p - r times; [Err] if that is not positive or p is negative. *)
Definition gluingSpace (geo b : kvec) (pt rt : Z) : res kvec :=
  let pt := if pt =? -1 then Z.of_nat (kvdeg b) - 1 else pt in
  let rt := if rt =? -1 then pt - 1 else rt in
  do _ <- ensure ((0 <=? pt) && (rt <? pt));
  do l <- foldM (gluingStep (kvdeg geo) rt) (kvin geo) (map (fun xm => (fst xm, Z.to_nat (pt - rt))) (kvin b));
  Ok (mkKV (Z.to_nat pt) (kvlo b) (kvhi b) l).

(** src/gsApproxC1Utils.cpp:137-179 createEdgeSpace at an interface; the degree p + p~ - 1 must not be negative *)
Definition edgeSpace (redn : nat -> nat -> nat) (geo b plus minus gd : kvec) : res kvec :=
  do _ <- ensure (1 <=? kvdeg plus + kvdeg gd)%nat;
  let e := setDegree b (kvdeg plus + kvdeg gd - 1) in
  let r := Z.min (regularity gd) (Z.min (regularity plus - 1) (regularity minus)) in
  geoCheck geo (setRegularity redn e r).
(** src/gsApproxC1Utils.cpp:181-224 createEdgeSpace at the boundary *)
Definition edgeSpaceBoundary (redn : nat -> nat -> nat) (geo b plus minus : kvec) : res kvec :=
  let e := setDegree b (kvdeg plus) in
  let r := Z.min (regularity plus - 1) (regularity minus) in
  geoCheck geo (setRegularity redn e r).

(** src/gsApproxC1Utils.cpp:227-308 createVertexSpace, one direction *)
Definition vertexSpace (redn : nat -> nat -> nat) (geo b : kvec) (isInterface : bool) (pt rt : Z) : res kvec :=
  if isInterface then
    do gd <- gluingSpace geo b pt rt;
    do plus <- createPlusSpace (redn 1%nat) geo b;
    do minus <- createMinusSpace (redn 1%nat) geo b;
    do _ <- ensure (1 <=? kvdeg plus + kvdeg gd)%nat;
    let e := setDegree b (kvdeg plus + kvdeg gd - 1) in
    let r := Z.min (regularity gd) (Z.min (regularity plus) (regularity minus)) in
    geoCheck geo (setRegularity redn e r)
  else
    geoCheck geo (if regularity b =? Z.of_nat (kvdeg b) - 1 then reduceCont b 1 else b).
