(** Model of the assembly of the least squares systems of the C1 construction on surfaces: src/gsC1SurfBasisVertex.h,
    src/gsC1SurfBasisEdge.h:107-290 and the functions assemble, localToGlobal of the visitors
    src/gsC1SurfVisitorBasisVertex.h:422-467, src/gsC1SurfVisitorBasisEdge.h:161-190.

    Simplifications: real arithmetic is exact; an element is given by its active functions and its quadrature nodes, a node by
    its weight, the measure of the geometry, the values of the active functions and the values of the right-hand sides (modelled
    in SurfGDModel.v, SurfVModel.v); the local matrices are functions; the linear solver is an argument; gsDofMapper and
    gsSparseSystem::push (G+Smo core) are specified below. *)
From Coq Require Import Reals.
From Verif Require Import Common.
Open Scope R_scope.

(** A quadrature node; the values are those of the active functions, in their order, and of the right-hand side of system [s]. *)
Record anode := mkAN { aw : R; ameas : R; aval : nat -> R; arhs : nat -> R }.
Record element := mkAE { aact : list nat; anodes : list anode }.

(** gsDofMapper for one patch (G+Smo core): functions 0..size-1, some of them marked by markBoundary; finalize numbers the free
    ones first, in their order, then the others. *)
Record mapper := mkMap { msize : nat; mfixed : nat -> bool }.
Definition rankOf (p : nat -> bool) (i : nat) : nat := length (filter p (seq 0 i)).
Definition mfree (m : mapper) : nat := rankOf (fun i => negb (mfixed m i)) (msize m).
Definition mindex (m : mapper) (i : nat) : res nat :=
  if (i <? msize m)%nat then
    Ok (if mfixed m i then mfree m + rankOf (mfixed m) i else rankOf (fun j => negb (mfixed m j)) i)%nat
  else Err.

(** A matrix and a right-hand side *)
Record sys := mkSys { smat : nat -> nat -> R; srhs : nat -> R }.
Definition zeroSys : sys := mkSys (fun _ _ => 0) (fun _ => 0).
Definition addMat (S : sys) (g h : nat) (x : R) : sys :=
  mkSys (fun g' h' => if ((g' =? g) && (h' =? h))%nat then smat S g' h' + x else smat S g' h') (srhs S).
Definition addRhs (S : sys) (g : nat) (x : R) : sys :=
  mkSys (smat S) (fun g' => if (g' =? g)%nat then srhs S g' + x else srhs S g').

(** gsSparseSystem::push (G+Smo core): rows of free functions only; columns of eliminated functions go to the right-hand side *)
Definition push (m : mapper) (elim : nat -> R) (lm : nat -> nat -> R) (lr : nat -> R) (act : list nat) (S : sys) : res sys :=
  foldM (fun S p =>
    do a <- vget act p; do g <- mindex m a;
    if (g <? mfree m)%nat then
      foldM (fun S q =>
        do b <- vget act q; do h <- mindex m b;
        if (h <? mfree m)%nat then Ok (addMat S g h (lm p q)) else Ok (addRhs S g (- (lm p q * elim (h - mfree m)%nat))))
      (seq 0 (length act)) (addRhs S g (lr p))
    else Ok S) (seq 0 (length act)) S.

(** src/gsC1SurfVisitorBasisVertex.h:430-431, src/gsC1SurfVisitorBasisEdge.h:168-171: basisData * W * M * basisData^T *)
Definition localMat (e : element) (p q : nat) : R :=
  fold_left (fun a k => a + aval k p * aw k * ameas k * aval k q) (anodes e) 0.
(** src/gsC1SurfVisitorBasisVertex.h:433-451, src/gsC1SurfVisitorBasisEdge.h:173-178; sqrt(det G) is the measure *)
Definition localRhs (e : element) (s p : nat) : R :=
  fold_left (fun a k => a + aw k * ameas k * (aval k p * arhs k s)) (anodes e) 0.

(** src/gsC1SurfVisitorBasisVertex.h:455-467 localToGlobal: [nloc] local systems (6 at a vertex, 1 on an edge); localMat.at(s) is
    [Err] for s >= nloc; the eliminated functions have the values m_ddof = 0 (src/gsC1SurfBasisVertex.h:191, src/gsC1SurfBasisEdge.h:223) *)
Definition runElement (m : mapper) (nloc : nat) (f : list sys) (e : element) : res (list sys) :=
  mapM (fun sS : nat * sys => let '(s, X) := sS in
    if (s <? nloc)%nat then push m (fun _ => 0) (localMat e) (localRhs e s) (aact e) X else Err) (combine (seq 0 (length f)) f).

(** src/gsC1SurfBasisVertex.h:203-257, src/gsC1SurfBasisEdge.h:233-290 apply, without threads *)
Definition applyAll (m : mapper) (nloc : nat) (els : list element) (f : list sys) : res (list sys) := foldM (runElement m nloc) els f.

(** src/gsC1SurfBasisVertex.h:236-238, src/gsC1SurfBasisEdge.h:269-271: thread [tid] of [nt] starts at element tid and goes on in steps of nt *)
Fixpoint every (nt skip : nat) (els : list element) : list element :=
  match els with
  | [] => []
  | e :: r => match skip with O => e :: every nt (nt - 1) r | S k => every nt k r end
  end.
Definition threads (nt : nat) (els : list element) : list (list element) := map (fun tid => every nt tid els) (seq 0 nt).

(** src/gsC1SurfBasisVertex.h:135-155, src/gsC1SurfBasisEdge.h:166-186 constructSolution: one coefficient; [sol] is the solution *)
Definition constructSolution (m : mapper) (sol : nat -> R) : res (list R) :=
  mapM (fun i => do g <- mindex m i; Ok (if (g <? mfree m)%nat then sol g else 0)) (seq 0 (msize m)).

(** src/gsC1SurfBasisVertex.h:159-175 refresh: no function is marked *)
Definition vertexMapper (n : nat) : mapper := mkMap n (fun _ => false).
(** src/gsC1SurfBasisEdge.h:190-209 refresh: the functions from the third row (column) on are marked; [uv] = 0 for the side 3 *)
Definition edgeMapper (du dv uv : nat) : mapper :=
  mkMap (du * dv) (fun k =>
    match uv with
    | O => existsb (fun i => (k / du =? i)%nat) (seq 2 (dv - 2))
    | _ => existsb (fun i => (k mod du =? i)%nat) (seq 2 (du - 2))
    end).

(** Data members m_f, solVec of gsC1SurfBasisVertex *)
Record vbstate := mkVBS { vf : list sys; vsol : list (nat -> R) }.
Section Solver.
(** SimplicialLDLT: [solver n M b] for n unknowns *)
Variable solver : nat -> (nat -> nat -> R) -> (nat -> R) -> nat -> R.

(** src/gsC1SurfBasisVertex.h:69-77, 123-157, 259-273 setG1BasisVertex: refresh, assemble (by the elements in the order [els]), solve, constructSolution *)
Definition setVertex (m : mapper) (els : list element) (st : vbstate) : res (vbstate * list (list R)) :=
  do f <- applyAll m 6 els (vf st ++ repeat zeroSys 6);
  do new <- mapM (fun i => do X <- vget f i; Ok (solver (mfree m) (smat X) (srhs X))) (seq 0 6);
  let sols := vsol st ++ new in
  do result <- mapM (fun p => do _ <- vget f p; do x <- vget sols p; constructSolution m x) (seq 0 6);
  Ok (mkVBS f sols, result).

(** src/gsC1SurfBasisEdge.h:120-132, 139-151 setG1BasisEdge, one function: the system is created anew *)
Definition setEdge (m : mapper) (els : list element) : res (list R) :=
  do f <- applyAll m 1 els [zeroSys];
  do X <- vget f 0;
  constructSolution m (solver (mfree m) (smat X) (srhs X)).

(** src/gsC1SurfBasisEdge.h:107-155 setG1BasisEdge: [np], [nm] are the sizes of the plus and minus space; [els true i], [els false i]
    the elements with the values of the i-th plus and minus function *)
Definition setEdges (m : mapper) (np nm : nat) (els : bool -> nat -> list element) : res (list (list R)) :=
  do plus <- mapM (fun i => setEdge m (els true i)) (seq 3 (np - 3 - 3));
  do minus <- mapM (fun i => setEdge m (els false i)) (seq 2 (nm - 2 - 2));
  Ok (plus ++ minus).
End Solver.
