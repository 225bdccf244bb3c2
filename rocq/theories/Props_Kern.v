(** Property C61: the functions at a vertex on the boundary. *)
From Coq Require Import Reals.
From Verif Require Import Common SplineModel SplineSpec SurfGDSpec KernModel KernSpec KernProofs KernProofs2 KernProofs3 KernExamples.
Open Scope R_scope.

(** The matrix is built without reading or writing out of range, and its kernel consists exactly of the combinations with
    vanishing coefficients next to the boundary. With "second" there must not be more patches between interfaces than boundary sides. *)
Theorem C61_matrix : forall second ps, (forall p, In p ps -> (2 <= vdu p)%nat /\ (2 <= vdv p)%nat) -> second = false \/ (between ps <= boundary_sides ps)%nat ->
  exists M, coefsCorner second ps = Ok M /\ forall x, in_kernel M x <-> forall p, In p ps -> meets second p x.
Proof. exact kern_matrix_pf. Qed.
Print Assumptions C61_matrix.

(** The columns are completed to six independent ones, the first of which are those of the kernel, unless no function is expected; six unit vectors are enough. *)
Theorem C61_columns : forall dep dofs ker, (forall K, dep K = true <-> dependent K) -> ~ dependent ker ->
  exists K, kernelColumns dep dofs ker = Ok K /\ length K = 6%nat /\ ~ dependent K /\ ((0 < dofs)%nat -> exists rest, K = ker ++ rest) /\ (dofs = 0%nat -> K = map unitVec (seq 0 6)).
Proof. exact columns_pf. Qed.
Print Assumptions C61_columns.

(** The new functions span the same space as the old ones on all patches at once: the factors do not depend on the patch. *)
Theorem C61_span : forall K, length K = 6%nat -> ~ dependent K ->
  exists l : nat -> nat -> R, forall p, exists g : nat -> nat -> R, (forall j, (j < 6)%nat -> combined p K j = Ok (g j)) /\
    (forall j k, (j < 6)%nat -> g j k = comb p (column_at K j) k) /\
    forall i k, (i < 6)%nat -> vcoef p i k = sumTo 6 (fun j => l i j * g j k).
Proof. exact span_pf. Qed.
Print Assumptions C61_span.

(** Zero coefficients mean zero functions and zero derivatives across an edge. *)
Theorem C61_edges : forall bu bv du dv c f, open_basis bu du -> open_basis bv dv -> (1 <= sdeg bu)%nat -> (1 <= sdeg bv)%nat -> tensor_spline bu bv du dv c f ->
  ((forall i, (i < du)%nat -> c i = 0) -> forall u, f (u, 0) = 0) /\
  ((forall i, (i < du)%nat -> c i = 0 /\ c (i + du)%nat = 0) -> forall u, rderiv (fun v => f (u, v)) 0 0) /\
  ((forall j, (j < dv)%nat -> c (j * du)%nat = 0) -> forall v, f (0, v) = 0) /\
  ((forall j, (j < dv)%nat -> c (j * du)%nat = 0 /\ c (j * du + 1)%nat = 0) -> forall v, rderiv (fun u => f (u, v)) 0 0).
Proof. exact edges_pf. Qed.
Print Assumptions C61_edges.

(** The functions from the kernel vanish along the sides on the boundary; without "second" their derivatives across vanish too. *)
Theorem C61_vertex : forall second ps dep dofs ker M, (forall p, In p ps -> (2 <= vdu p)%nat /\ (2 <= vdv p)%nat) -> second = false \/ (between ps <= boundary_sides ps)%nat ->
  (forall K, dep K = true <-> dependent K) -> ~ dependent ker -> coefsCorner second ps = Ok M -> Forall (in_kernel M) ker -> (0 < dofs)%nat ->
  exists K, kernelColumns dep dofs ker = Ok K /\
    forall p j, In p ps -> (j < length ker)%nat -> exists c, combined p K j = Ok c /\
      forall bu bv f, open_basis bu (vdu p) -> open_basis bv (vdv p) -> (1 <= sdeg bu)%nat -> (1 <= sdeg bv)%nat -> tensor_spline bu bv (vdu p) (vdv p) c f ->
        (vin3 p = false -> forall u, f (u, 0) = 0 /\ (second = false -> rderiv (fun v => f (u, v)) 0 0)) /\
        (vin1 p = false -> forall v, f (0, v) = 0 /\ (second = false -> rderiv (fun u => f (u, v)) 0 0)).
Proof. exact vertex_pf. Qed.
Print Assumptions C61_vertex.

(** The expected number of functions is the smaller one exactly if the tangents of the two edges on the boundary are independent, in the plane and on a surface. *)
Theorem C61_tangents : forall second,
  (forall a b, (independent2 a b -> dofsCorner second 0 (detPlanar a b) = (if second then 1 else 0)%nat) /\ (~ independent2 a b -> dofsCorner second 0 (detPlanar a b) = (if second then 3 else 1)%nat)) /\
  (forall u v a b, independent3 u v -> in_plane u v a -> in_plane u v b ->
    (independent3 a b -> dofsCorner second 0 (detSurface a b (normalOf u v)) = (if second then 1 else 0)%nat) /\ (~ independent3 a b -> dofsCorner second 0 (detSurface a b (normalOf u v)) = (if second then 3 else 1)%nat)).
Proof. exact tangents_pf. Qed.
Print Assumptions C61_tangents.

(** With "second", five patches at a vertex are too many: line 280 reads behind the end of patchID. *)
Theorem C61_second_refuted : exists ps, (forall p, In p ps -> (2 <= vdu p)%nat /\ (2 <= vdv p)%nat) /\ boundary_sides ps = 2%nat /\ coefsCorner true ps = Err /\ exists M, coefsCorner false ps = Ok M.
Proof. exact second_refuted_pf. Qed.
Print Assumptions C61_second_refuted.

(** Two patches along a straight boundary: only y^2 remains. The test for dependent columns can be done by elimination. *)
Theorem C61_nonvacuous : (forall K, depb K = true <-> dependent K) /\ (forall p, In p halfPlane -> (2 <= vdu p)%nat /\ (2 <= vdv p)%nat) /\ open_basis quad3 3 /\
  ~ dependent [unitVec 5] /\ (exists M, coefsCorner false halfPlane = Ok M /\ (forall x, in_kernel M x <-> forall j, (j < 5)%nat -> x j = 0) /\ Forall (in_kernel M) [unitVec 5]) /\
  (exists K, kernelColumns depb (dofsCorner false 0 (detPlanar (1, 0) (-1, 0))) [unitVec 5] = Ok K /\ length K = 6%nat) /\
  (exists c, combined rightOf [unitVec 5] 0 = Ok c /\ c 6%nat = 1 /\ exists f, tensor_spline quad3 quad3 3 3 c f).
Proof. exact kern_example_pf. Qed.
Print Assumptions C61_nonvacuous.
