(** Property C81: systems of one patch at a vertex on the boundary. *)
From Coq Require Import Reals.
From Verif Require Import Common TopoModel SurfGDSpec ReparamModel ReparamSpec KernModel KernSpec KernExamples BSysModel BSysSpec BSysProofs BSysProofs2 BSysExamples.
Open Scope nat_scope.

(** After re-parameterisation the first flag belongs to the south side and the second to the west side, in both orientations. *)
Theorem C81_flags : forall {A} (p : patch A) ng c isB, full p -> nonempty p ->
  exists a v f0 f1 s0 s1 r0 r1, reparametrizeG1Vertex (corner_ix c) (newAux1 p ng) = Ok (a, v) /\ bdyFlags isB (corner_ix c) ng = Ok [f0; f1] /\
    carries (geo1 a) South p s0 r0 /\ carries (geo1 a) West p s1 r1 /\ on_side c s0 = true /\ on_side c s1 = true /\ s0 <> s1 /\ f0 = isB s0 /\ f1 = isB s1.
Proof. exact @flags_pf. Qed.
Print Assumptions C81_flags.

(** The two matrices of a corner of the boundary are filled within their sizes; the kernel of the big one are the combinations with zero coefficients
    in two layers along both sides, that of the small one those with zero coefficients along both sides. *)
Theorem C81_corner : forall p, 2 <= vdu p -> 2 <= vdv p -> exists B S, bigSystem p = Ok B /\ smallSystem p = Ok S /\ krows B = 2 * (vdu p + vdv p - 2) /\ krows S = vdu p + vdv p - 1 /\
  kernel_is B p (fun u v => u < 2 \/ v < 2) /\ kernel_is S p (fun u v => u = 0 \/ v = 0).
Proof. exact both_pf. Qed.
Print Assumptions C81_corner.

(** At other vertices of the boundary: along the west side if it is on the boundary, else along the south side, else at the vertex. *)
Theorem C81_patch : forall p b0 b1, 2 <= vdu p -> 2 <= vdv p -> exists B S, singlePatch p [b0; b1] = Ok (B, S) /\
  kernel_is B p (fun u v => if b1 : bool then u < 2 else if b0 : bool then v < 2 else u + v < 2) /\ kernel_is S p (fun u v => if b1 : bool then u = 0 else if b0 : bool then v = 0 else u = 0 /\ v = 0).
Proof. exact single_pf. Qed.
Print Assumptions C81_patch.

(** The choice gives six independent columns; the first are those of the big kernel, and as many as the small kernel has columns span the small kernel. *)
Theorem C81_select : forall dep, (forall K, dep K = true <-> dependent K) -> forall eps big small bigDim smallDim, (0 <= eps)%R ->
  (bigDim = 0 \/ length big = bigDim /\ ~ dependent big /\ clean eps big) -> (smallDim = 0 \/ length small = smallDim /\ ~ dependent small /\ clean eps small) ->
  (bigDim <> 0 -> smallDim <> 0 /\ forall j, j < bigDim -> combination small (column_at big j)) ->
  exists K n, selectBasis dep eps big bigDim small smallDim = Ok (K, [Z.of_nat bigDim; (Z.of_nat smallDim - Z.of_nat bigDim)%Z; n]) /\ length K = 6 /\ ~ dependent K /\ bigDim <= smallDim /\
    (forall j i, j < bigDim -> i < 6 -> column_at K j i = column_at big j i) /\ (smallDim <> 0 -> forall v, combination (firstn smallDim K) v <-> combination small v).
Proof. exact select_pf. Qed.
Print Assumptions C81_select.

(** Together: of the six functions at a corner of the boundary the first vanish in two layers, the next along the sides, and these are all that do. *)
Theorem C81_functions : forall dep eps p B S big small, (forall K, dep K = true <-> dependent K) -> (0 <= eps)%R -> 2 <= vdu p -> 2 <= vdv p -> bigSystem p = Ok B -> smallSystem p = Ok S ->
  kernel_basis B big -> kernel_basis S small -> clean eps big -> clean eps small ->
  exists K n, selectBasis dep eps big (length big) small (length small) = Ok (K, [Z.of_nat (length big); (Z.of_nat (length small) - Z.of_nat (length big))%Z; n]) /\ length K = 6 /\ ~ dependent K /\
    length big <= length small /\
    (forall j, j < length big -> zero_on p (column_at K j) (fun u v => u < 2 \/ v < 2)) /\ (forall j, j < length small -> zero_on p (column_at K j) (fun u v => u = 0 \/ v = 0)) /\
    (forall x, zero_on p x (fun u v => u = 0 \/ v = 0) -> combination (firstn (length small) K) x).
Proof. exact corner_pf. Qed.
Print Assumptions C81_functions.

(** The third number is not that of the remaining functions: the three numbers add up to the number of columns of the big kernel ... *)
Theorem C81_numbers : forall dep eps big bigDim small smallDim K a b n, selectBasis dep eps big bigDim small smallDim = Ok (K, [a; b; n]) -> (a + b + n = Z.of_nat (length big))%Z.
Proof. exact numbers_pf. Qed.
Print Assumptions C81_numbers.

(** ... for example 1, 1, -1 for six functions. *)
Theorem C81_numbers_refuted : exists dep p B S big small K a b n, (forall K, dep K = true <-> dependent K) /\ bigSystem p = Ok B /\ smallSystem p = Ok S /\ kernel_basis B big /\ kernel_basis S small /\
  selectBasis dep (1/10) big (length big) small (length small) = Ok (K, [a; b; n]) /\ length K = 6 /\ a = 1%Z /\ b = 1%Z /\ n = (-1)%Z.
Proof. exact numbers_refuted_pf. Qed.
Print Assumptions C81_numbers_refuted.

(** Six functions on a 3 x 3 grid. *)
Theorem C81_nonvacuous : exists B S, bigSystem sixFuns = Ok B /\ smallSystem sixFuns = Ok S /\ kernel_basis B [unitVec 5] /\ kernel_basis S [unitVec 4; unitVec 5] /\ (forall K, depb K = true <-> dependent K) /\
  clean (1/10) [unitVec 5] /\ clean (1/10) [unitVec 4; unitVec 5].
Proof. exact six_example. Qed.
Print Assumptions C81_nonvacuous.
