(** C77: the least squares systems of the C1 construction on surfaces. *)
From Coq Require Import Reals.
From Verif Require Import Common SurfGDSpec AsmModel AsmSpec AsmProofs AsmProofs2 AsmExamples.
Open Scope R_scope.

(** Any number of threads, with their elements entering the critical section in any order, assembles the same systems as one thread. *)
Theorem C77_threads : forall m nloc nsys nt els l, (nsys <= nloc)%nat -> (1 <= nt)%nat -> els_ok (msize m) els -> interleaved (threads nt els) l ->
  exists f f', applyAll m nloc els (repeat zeroSys nsys) = Ok f /\ applyAll m nloc l (repeat zeroSys nsys) = Ok f' /\ length f = nsys /\ length f' = nsys /\
    forall s S S', nth_error f s = Some S -> nth_error f' s = Some S' -> same_sys S S'.
Proof. exact threads_pf. Qed.
Print Assumptions C77_threads.

(** The entries are the weighted products of the free functions with each other and with the right-hand side. *)
Theorem C77_matrix : forall m nloc nsys els, (nsys <= nloc)%nat -> els_ok (msize m) els ->
  exists f, applyAll m nloc els (repeat zeroSys nsys) = Ok f /\ length f = nsys /\ forall s S, nth_error f s = Some S -> forall i, free m i -> exists gi, mindex m i = Ok gi /\ (gi < mfree m)%nat /\
    srhs S gi = total (fun n => weight n * (fnval i n * target s n)) (allNodes els) /\
    forall j, free m j -> exists gj, mindex m j = Ok gj /\ (gj = gi -> j = i) /\ smat S gi gj = total (fun n => weight n * (fnval i n * fnval j n)) (allNodes els).
Proof. exact matrix_pf. Qed.
Print Assumptions C77_matrix.

(** On a fresh object the six functions at a vertex are the weighted least squares approximations of their right-hand sides. *)
Theorem C77_vertex : forall solver m els, els_ok (msize m) els ->
  (forall f S, applyAll m 6 els (repeat zeroSys 6) = Ok f -> In S f -> solver_ok solver (mfree m) (smat S) (srhs S)) ->
  exists st result, setVertex solver m els (mkVBS [] []) = Ok (st, result) /\ length result = 6%nat /\
    forall s c, nth_error result s = Some c -> length c = msize m /\ least_squares m els s (fun i => nth i c 0).
Proof. exact vertex_solution_pf. Qed.
Print Assumptions C77_vertex.

(** The same for a function at an edge, among the functions that are not eliminated. *)
Theorem C77_edge : forall solver m els, els_ok (msize m) els ->
  (forall f S, applyAll m 1 els [zeroSys] = Ok f -> In S f -> solver_ok solver (mfree m) (smat S) (srhs S)) ->
  exists c, setEdge solver m els = Ok c /\ length c = msize m /\ least_squares m els 0 (fun i => nth i c 0).
Proof. exact edge_solution_pf. Qed.
Print Assumptions C77_edge.

(** All functions of an edge: the plus functions but for the first and last three, then the minus functions but for the first and last two. *)
Theorem C77_edges : forall solver m np nm els, (forall b i, els_ok (msize m) (els b i)) ->
  (forall b i f S, applyAll m 1 (els b i) [zeroSys] = Ok f -> In S f -> solver_ok solver (mfree m) (smat S) (srhs S)) ->
  exists l, setEdges solver m np nm els = Ok l /\ length l = (np - 6 + (nm - 4))%nat /\
    (forall i, (3 <= i)%nat -> (i + 3 < np)%nat -> exists c, nth_error l (i - 3) = Some c /\ length c = msize m /\ least_squares m (els true i) 0 (fun k => nth k c 0)) /\
    (forall i, (2 <= i)%nat -> (i + 2 < nm)%nat -> exists c, nth_error l (np - 6 + (i - 2)) = Some c /\ length c = msize m /\ least_squares m (els false i) 0 (fun k => nth k c 0)).
Proof. exact edges_pf. Qed.
Print Assumptions C77_edges.

(** A right-hand side that is a spline of the space is reproduced in all nodes. *)
Theorem C77_exact : forall m els s c d, least_squares m els s c -> admissible m d -> (forall n, In n (allNodes els) -> 0 < weight n) ->
  (forall n, In n (allNodes els) -> spline d n = target s n) -> forall n, In n (allNodes els) -> spline c n = target s n.
Proof. exact exact_pf. Qed.
Print Assumptions C77_exact.

(** At an edge exactly the functions of the first two rows (columns) are kept. *)
Theorem C77_edge_free : forall du dv uv k, (1 <= du)%nat -> free (edgeMapper du dv uv) k <-> (k < du * dv)%nat /\ (match uv with O => k / du | _ => k mod du end < 2)%nat.
Proof. exact edge_free_pf. Qed.
Print Assumptions C77_edge_free.

(** At a vertex all functions are kept. *)
Theorem C77_vertex_free : forall n k, free (vertexMapper n) k <-> (k < n)%nat.
Proof. exact vertex_free_pf. Qed.
Print Assumptions C77_vertex_free.

(** A second call of setG1BasisVertex on the same object always fails: twelve systems, six local right-hand sides. *)
Theorem C77_twice : forall solver m els st r, els <> [] -> setVertex solver m els (mkVBS [] []) = Ok (st, r) -> setVertex solver m els st = Err.
Proof. exact twice_pf. Qed.
Print Assumptions C77_twice.

(** An example with an eliminated function that does not vanish in the nodes. *)
Theorem C77_nonvacuous : els_ok 3 exEls /\ free (edgeMapper 1 3 0) 0 /\ free (edgeMapper 1 3 0) 1 /\ ~ free (edgeMapper 1 3 0) 2 /\ setEdge diagonal (edgeMapper 1 3 0) exEls = Ok [5; 7; 0] /\
  (forall f S, applyAll (edgeMapper 1 3 0) 1 exEls [zeroSys] = Ok f -> In S f -> solver_ok diagonal 2 (smat S) (srhs S)) /\ length (allNodes exEls) = 2%nat.
Proof. exact ex_ok. Qed.
Print Assumptions C77_nonvacuous.
