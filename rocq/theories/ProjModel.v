(** Model of the L2 projections without prescribed coefficients: the gluing data, src/gsApproxC1GluingData.h:100-193, and the functions at a vertex,
    src/gsApproxC1Vertex.h:266-337.

    Simplifications: as in EdgeModel.v; in the univariate projection of the gluing data the second coordinate of a node is zero; the flag interpolate_boundary is
    false (104), so nothing is marked; at a vertex the marking is commented out (286), the branch for the option "interpolation" is modelled in InterpModel.v. *)
From Verif Require Import Common SplineModel AsmModel BihModel EdgeModel.
Open Scope R_scope.

(** src/gsApproxC1GluingData.h:135-145, src/gsApproxC1Vertex.h:277-292: all functions are free *)
Definition freeMapper (n : nat) : mapper := mkMap n (fun _ => false).

Section Solver.
(** SimplicialLDLT: [solver n M b] for n unknowns *)
Variable solver : nat -> (nat -> nat -> R) -> (nat -> R) -> nat -> R.

(** src/gsApproxC1GluingData.h:154-167 and 176-190: one projection, matrix and right-hand side *)
Definition projectOne (n : nat) (els : list qelem) (f : R * R -> res R) : res (list R) :=
  do X <- assembleJobs (freeMapper n) (fun _ => 0) (map (fun e => JMat (massElem e)) els);
  edgeFunction solver (freeMapper n) X els f.
(** src/gsApproxC1GluingData.h:120-193: alphaSContainer[dir] and betaSContainer[dir] *)
Definition setGluingData (n : nat) (els : list qelem) (alpha beta : R * R -> res R) (dir : nat) (st : list (list R) * list (list R)) : res (list (list R) * list (list R)) :=
  do a <- projectOne n els alpha;
  do alphaS <- vset (fst st) dir a;
  do b <- projectOne n els beta;
  do betaS <- vset (snd st) dir b;
  Ok (alphaS, betaS).
(** src/gsApproxC1Vertex.h:266-337: the six functions at a vertex on one patch *)
Definition vertexFunctions (n : nat) (els : list qelem) (fs : nat -> R * R -> res R) : res (list (list R)) :=
  do X <- assembleJobs (freeMapper n) (fun _ => 0) (map (fun e => JMat (massElem e)) els);
  mapM (fun bfID => edgeFunction solver (freeMapper n) X els (fs bfID)) (seq 0 6).
End Solver.
