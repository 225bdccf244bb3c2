(** Model of setC1BasisEdge of the approximate C1 construction, src/gsApproxC1Edge.hpp:52-184: L2 projection of the functions at an edge, one patch.

    Simplifications: real arithmetic is exact; quadrature nodes carry weight, point and the values of the active functions of the edge piece
    (gsExprAssembler and the quadrature belong to the G+Smo core); gsDofMapper and the push of the local matrices are those of AsmModel.v and
    BihModel.v; the linear solver is an argument; the branches for the option "interpolation" (121-128, 152-159) are modelled in InterpModel.v; parametrizeBasisBack
    (179) is modelled in ReparamModel.v. *)
From Verif Require Import Common SplineModel GluingModel AsmModel BihModel.
Open Scope R_scope.

(** size() of a univariate basis (G+Smo core) *)
Definition bsize (b : sbasis) : nat := (length (sknots b) - sdeg b - 1)%nat.

(** boundaryOffset(3, i) for dir = 0 and boundaryOffset(1, i) for dir = 1 of a tensor-product basis with nu * nv functions (G+Smo core): row i from the
    south side, column i from the west side *)
Definition offsetFns (nu nv dir i : nat) : list nat :=
  match dir with O => map (fun u => (u + nu * i)%nat) (seq 0 nu) | _ => map (fun v => (i + nu * v)%nat) (seq 0 nv) end.
(** component(1 - dir).size() *)
Definition across (nu nv dir : nat) : nat := match dir with O => nv | _ => nu end.
(** src/gsApproxC1Edge.hpp:91-102 *)
Definition edgeMapper (nu nv dir : nat) : res mapper :=
  foldM mark (map (offsetFns nu nv dir) (seq 2 (across nu nv dir - 2))) (mkMap (nu * nv) (fun _ => false)).

Record qnode := mkQN { qw : R; qx : R * R; qv : nat -> R }.
Definition qelem : Type := list nat * list qnode.
(** src/gsApproxC1Edge.hpp:110: u * u.tr() *)
Definition massElem (e : qelem) : kelem := mkKE (fst e) (map (fun k => mkKN (qw k) (qv k) (qv k) 0) (snd e)).
(** src/gsApproxC1Edge.hpp:133-135, 164-166: u * aa, [f] is the function to be projected *)
Definition loadElem (f : R * R -> res R) (e : qelem) : res kelem :=
  do ks <- mapM (fun k => do y <- f (qx k); Ok (mkKN (qw k) (qv k) (qv k) y)) (snd e);
  Ok (mkKE (fst e) ks).

Section Solver.
(** SimplicialLDLT: [solver n M b] for n unknowns *)
Variable solver : nat -> (nat -> nat -> R) -> (nat -> R) -> nat -> R.

(** src/gsApproxC1Edge.hpp:131-143, 162-174: one function; [X] holds the matrix, the fixed part is zero (106-107) *)
Definition edgeFunction (m : mapper) (X : sys) (els : list qelem) (f : R * R -> res R) : res (list R) :=
  do es <- mapM (loadElem f) els;
  do Y <- assembleJobs m (fun _ => 0) (map JRhs es);
  constructSolution m (solver (mfree m) (smat X) (srhs Y)).

(** src/gsApproxC1Edge.hpp:77-176; [comp] are the components of initSpace.basis(0), [bp] and [bm] the plus and the minus space *)
Definition edgeFunctionsOf (nu nv dir : nat) (els : list qelem) (comp : nat -> sbasis) (bp bm : sbasis) (alpha beta : R -> R) (bdy : bool) : res (list (list R)) :=
  do m <- edgeMapper nu nv dir;
  do X <- assembleJobs m (fun _ => 0) (map (fun e => JMat (massElem e)) els);
  do a <- mapM (fun i => edgeFunction m X els (traceEval comp bp beta bdy i dir)) (seq 3 (bsize bp - 6));
  do b <- mapM (fun i => edgeFunction m X els (normalEval comp bm alpha bdy i dir)) (seq 2 (bsize bm - 4));
  Ok (a ++ b).
End Solver.
