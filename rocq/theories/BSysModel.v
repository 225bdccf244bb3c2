(** The systems for functions at vertices on the boundary in gsC1SurfVertex.h:134-443: flags of the boundary sides, matrices of one patch, and the
    choice of the combinations.  The calls of the matrices and of the choice are commented out in the present code (lines 724-790), which uses
    computeKernel instead (KernModel.v).

    Simplifications, as in KernModel.v: exact real arithmetic, an entry with square at most m_zero^2 is 0, so that a skipped assignment changes
    nothing; the six functions of a patch are those of a [vpatch]; FullPivLU is external: kernels are lists of columns, [dep] is the test
    dimensionOfKernel() != 0.  getG1BasisCoefs returns a copy (gsG1AuxiliaryPatch.h:364-367), so that the "else" branches of the code change nothing. *)
From Coq Require Import Reals.
From Verif Require Import Common TopoModel KernModel.
Open Scope nat_scope.

(** checkBoundary, gsC1SurfVertex.h:134-156 ([isB]: gsMultiPatch::isBoundary of the core). *)
Definition checkBoundary (isB : side -> bool) (c : nat) : list bool :=
  match c with
  | 1 => [isB South; isB West]
  | 2 => [isB East; isB South]
  | 3 => [isB West; isB North]
  | 4 => [isB North; isB East]
  | _ => []
  end.
(** swapBdy, gsC1SurfVertex.h:158-163. *)
Definition swapBdy (b : list bool) : res (list bool) :=
  do x <- vget b 0; do y <- vget b 1;
  do b <- vset b 0 y; vset b 1 x.
(** The flags after reparametrizeG1Vertex, gsC1SurfVertex.h:42, 61, 93-98. *)
Definition bdyFlags (isB : side -> bool) (c : nat) (negative : bool) : res (list bool) :=
  if negative then swapBdy (checkBoundary isB c) else Ok (checkBoundary isB c).

(** Matrix(r, bf) = getG1BasisCoefs(bf).at(k) for the pairs (r, k) in order, for every bf. *)
Definition fill (p : vpatch) (rows : nat) (pairs : list (nat * nat)) : res kmat :=
  foldM (fun m bf => foldM (fun m '(r, k) => do x <- coefAt p bf k; kset m r bf x) pairs m) (seq 0 6) (mkKM rows (fun _ _ => 0%R)).

(** computeBigSystemMatrix, gsC1SurfVertex.h:165-193; the sizes are those of index_t (nonnegative for at least one function in each direction). *)
Definition bigSystem (p : vpatch) : res kmat :=
  fill p (2 * (vdu p + vdv p - 2))
    (map (fun i => (i, i)) (seq 0 (2 * vdu p)) ++
     flat_map (fun i => map (fun j => (i + j + 2 * vdu p - 2, (i + 1) * vdu p + j - i)) (seq i 2)) (seq 1 (vdv p - 2))).
(** computeSmallSystemMatrix, gsC1SurfVertex.h:195-220. *)
Definition smallSystem (p : vpatch) : res kmat :=
  fill p (vdu p + vdv p - 1) (map (fun i => (i, i)) (seq 0 (vdu p)) ++ map (fun i => (i + vdu p - 1, i * vdu p)) (seq 1 (vdv p - 1))).
(** leftBoundaryBigSystem, gsC1SurfVertex.h:222-246. *)
Definition leftBig (p : vpatch) : res kmat :=
  fill p (2 * vdv p) (flat_map (fun i => map (fun j => (i + j, i * vdu p + j - i)) (seq i 2)) (seq 0 (vdv p))).
(** rightBoundaryBigSystem, gsC1SurfVertex.h:248-268. *)
Definition rightBig (p : vpatch) : res kmat := fill p (2 * vdu p) (map (fun i => (i, i)) (seq 0 (2 * vdu p))).
(** leftBoundarySmallSystem, gsC1SurfVertex.h:270-291. *)
Definition leftSmall (p : vpatch) : res kmat := fill p (vdv p) (map (fun i => (i, i * vdu p)) (seq 0 (vdv p))).
(** rightBoundarySmallSystem, gsC1SurfVertex.h:293-313. *)
Definition rightSmall (p : vpatch) : res kmat := fill p (vdu p) (map (fun i => (i, i)) (seq 0 (vdu p))).
(** bigInternalBoundaryPatchSystem, gsC1SurfVertex.h:315-332. *)
Definition innerBig (p : vpatch) : res kmat := fill p 3 [(0, 0); (1, 1); (2, vdu p)].
(** smallInternalBoundaryPatchSystem, gsC1SurfVertex.h:334-344. *)
Definition innerSmall (p : vpatch) : res kmat := fill p 1 [(0, 0)].

(** createSinglePatchSystem, gsC1SurfVertex.h:346-357. *)
Definition singlePatch (p : vpatch) (bdy : list bool) : res (kmat * kmat) :=
  do b1 <- vget bdy 1;
  if b1 : bool then do m <- leftBig p; do s <- leftSmall p; Ok (m, s)
  else
    do b0 <- vget bdy 0;
    if b0 : bool then do m <- rightBig p; do s <- rightSmall p; Ok (m, s)
    else do m <- innerBig p; do s <- innerSmall p; Ok (m, s).

(** checkValues, gsC1SurfVertex.h:359-369; [eps] is m_zero. *)
Definition checkValues (eps : R) (K : list (nat -> R)) : list (nat -> R) :=
  map (fun col i => if Rlt_dec (Rabs (col i * col i)) (eps * eps) then 0%R else col i) K.

(** addSmallKerBasis, gsC1SurfVertex.h:392-407. *)
Definition addSmallKer (dep : list (nat -> R) -> bool) (V small : list (nat -> R)) (n : nat) : res (list (nat -> R)) :=
  foldM (fun V i => do c <- vget small i; let V' := V ++ [c] in Ok (if dep V' then V else V')) (seq 0 n) V.

(** selectVertexBoundaryBasisFunction, gsC1SurfVertex.h:409-443; addVertexBasis (lines 371-390) is the loop [complete] of KernModel.v with six functions. *)
Definition selectBasis (dep : list (nat -> R) -> bool) (eps : R) (big : list (nat -> R)) (bigDim : nat) (small : list (nat -> R)) (smallDim : nat) : res (list (nat -> R) * list Z) :=
  let numbers := [Z.of_nat bigDim; (Z.of_nat smallDim - Z.of_nat bigDim)%Z; (Z.of_nat (length big) - Z.of_nat smallDim)%Z] in
  do V <- (if negb (bigDim =? 0) then
             do V <- addSmallKer dep (checkValues eps big) (checkValues eps small) smallDim;
             complete dep V 0 7
           else if negb (smallDim =? 0) then complete dep (checkValues eps small) 0 7
           else Ok (map unitVec (seq 0 6)));
  Ok (V, numbers).
