(** Model of src/gsBiharmonicAssembler2.h: default data of the first constructor, numbering of the functions, projection of the boundary values,
    assembly, solution and errors.

    Simplifications: real arithmetic is exact; quadrature nodes carry the product of weight and measure and the values of the active functions (value,
    Laplacian on the surface, normal derivative), the geometry map is not modelled; the lists returned by boundary and boundaryOffset of
    gsMappedSingleBasis and the linear solver are arguments; gsDofMapper and the push of the local matrices (G+Smo core) are those of AsmModel.v, all
    patches have the offset 0 after setIdentity, so that a function has one number on all patches. *)
From Coq Require Import Reals.
From Verif Require Import Common AsmModel.
Open Scope R_scope.

(** src/gsBiharmonicAssembler2.h:34 source function m_f *)
Definition bihSource (x y : R) : R := 1 * PI * PI * PI * PI * (4 * cos (1 * PI * x) * cos (1 * PI * y) - cos (1 * PI * x) - cos (1 * PI * y)).
(** src/gsBiharmonicAssembler2.h:38 exact solution m_ms *)
Definition bihSol (x y : R) : R := (cos (1 * PI * x) - 1) * (cos (1 * PI * y) - 1).
(** src/gsBiharmonicAssembler2.h:46 *)
Definition bihLap (x y : R) : R := - (1) * PI * PI * (2 * cos (1 * PI * x) * cos (1 * PI * y) - cos (1 * PI * x) - cos (1 * PI * y)).
(** src/gsBiharmonicAssembler2.h:49-50 *)
Definition bihDx (x y : R) : R := - (1) * PI * (cos (1 * PI * y) - 1) * sin (1 * PI * x).
Definition bihDy (x y : R) : R := - (1) * PI * (cos (1 * PI * x) - 1) * sin (1 * PI * y).

(** src/gsBiharmonicAssembler2.h:41-60: the conditions of the sides on the boundary *)
Inductive bctype := BDirichlet | BNeumann | BLaplace.
Definition bihConds {A} (second : bool) (sides : list A) : list (A * bctype) :=
  flat_map (fun s => [(s, BDirichlet); (s, if second then BLaplace else BNeumann)]) sides.

(** gsDofMapper::markBoundary (G+Smo core); a function without number is [Err] *)
Definition mark (m : mapper) (l : list nat) : res mapper :=
  foldM (fun m i => if (i <? msize m)%nat then Ok (mkMap (msize m) (fun j => (j =? i)%nat || mfixed m j)) else Err) l m.

(** src/gsBiharmonicAssembler2.h:151-170 setMapperForBiharmonic: [dir], [neu] are the functions at the sides with Dirichlet conditions and those of the
    second layer at the sides with Neumann conditions, one list for every condition *)
Definition setMapper (n : nat) (dir neu : list (list nat)) : res mapper :=
  do m <- foldM mark dir (mkMap n (fun _ => false));
  foldM mark neu m.

(** src/gsBiharmonicAssembler2.h:178-184 mapperBdy: the free functions of the mapper (findFree) are marked *)
Definition findFree (m : mapper) : list nat := filter (fun i => negb (mfixed m i)) (seq 0 (msize m)).
Definition bdyMapper (m : mapper) : res mapper := mark (mkMap (msize m) (fun _ => false)) (findFree m).

(** Elements: active functions and nodes with weight, factors of the matrix, factor and value of the right-hand side *)
Record knode := mkKN { kw : R; kD : nat -> R; kV : nat -> R; kf : R }.
Record kelem := mkKE { kact : list nat; knodes : list knode }.
Definition locMat (e : kelem) (p q : nat) : R := fold_left (fun a k => a + kw k * kD k p * kD k q) (knodes e) 0.
Definition locRhs (e : kelem) (p : nat) : R := fold_left (fun a k => a + kw k * kV k p * kf k) (knodes e) 0.

(** gsExprAssembler (G+Smo core): expressions for the matrix and for the right-hand side, element by element *)
Inductive job := JMat (e : kelem) | JRhs (e : kelem).
Definition runJob (m : mapper) (elim : nat -> R) (S : sys) (j : job) : res sys :=
  match j with
  | JMat e => push m elim (locMat e) (fun _ => 0) (kact e) S
  | JRhs e => push m elim (fun _ _ => 0) (locRhs e) (kact e) S
  end.
Definition assembleJobs (m : mapper) (elim : nat -> R) (jobs : list job) : res sys := foldM (runJob m elim) jobs zeroSys.

(** Quadrature nodes in the interior and on the boundary: values, Laplacians, normal derivatives of the active functions; source; prescribed value (or
    Laplacian) and normal component of the prescribed gradient *)
Record inode := mkIN { iw : R; ival : nat -> R; ilap : nat -> R; isrc : R }.
Record bnode := mkBN { bw : R; btr : nat -> R; bdn : nat -> R; bg : R; bgn : R }.
Definition ielem : Type := list nat * list inode.
Definition belem : Type := list nat * list bnode.

(** src/gsBiharmonicAssembler2.h:197 *)
Definition lambda : R := 1 / 100000.
(** src/gsBiharmonicAssembler2.h:200-201 *)
Definition dirElem (e : belem) : kelem := mkKE (fst e) (map (fun k => mkKN (bw k) (btr k) (btr k) (bg k)) (snd e)).
(** src/gsBiharmonicAssembler2.h:202-206 *)
Definition neuElem (e : belem) : kelem := mkKE (fst e) (map (fun k => mkKN (lambda * bw k) (bdn k) (bdn k) (bgn k)) (snd e)).
(** src/gsBiharmonicAssembler2.h:113 *)
Definition intElem (e : ielem) : kelem := mkKE (fst e) (map (fun k => mkKN (iw k) (ilap k) (ival k) (isrc k)) (snd e)).
(** src/gsBiharmonicAssembler2.h:116-118: nv(G) is the unit normal times the measure *)
Definition lapElem (e : belem) : kelem := mkKE (fst e) (map (fun k => mkKN (bw k) (bdn k) (bdn k) (bg k)) (snd e)).

Section Solver.
(** SimplicialLDLT: [solver n M b] for n unknowns *)
Variable solver : nat -> (nat -> nat -> R) -> (nat -> R) -> nat -> R.

(** src/gsBiharmonicAssembler2.h:172-212 gsDirichletNeumannValuesL2Projection *)
Definition projJobs (dir neu : list belem) : list job :=
  map (fun e => JMat (dirElem e)) dir ++ map (fun e => JRhs (dirElem e)) dir ++ map (fun e => JMat (neuElem e)) neu ++ map (fun e => JRhs (neuElem e)) neu.
Definition project (m : mapper) (dir neu : list belem) : res (list R) :=
  do mb <- bdyMapper m;
  do X <- assembleJobs mb (fun _ => 0) (projJobs dir neu);
  Ok (map (solver (mfree mb) (smat X) (srhs X)) (seq 0 (mfree mb))).

(** src/gsBiharmonicAssembler2.h:86-126 assemble and solve; [fixed] is fixedPart(): its rows are read by the number among the marked functions *)
Definition bihJobs (els : list ielem) (lap : list belem) : list job :=
  flat_map (fun e => [JMat (intElem e); JRhs (intElem e)]) els ++ map (fun e => JRhs (lapElem e)) lap.
Definition bihSystem (m : mapper) (fixed : list R) (els : list ielem) (lap : list belem) : res sys :=
  do _ <- ensure (length fixed =? msize m - mfree m)%nat;
  assembleJobs m (fun k => nth k fixed 0) (bihJobs els lap).
(** gsFeSolution (G+Smo core): coefficients of the solution *)
Definition bihCoefs (m : mapper) (fixed : list R) (y : nat -> R) : res (list R) :=
  mapM (fun i => do g <- mindex m i; if (g <? mfree m)%nat then Ok (y g) else vget fixed (g - mfree m)) (seq 0 (msize m)).
Definition bihSolve (n : nat) (dirIx neuIx : list (list nat)) (dir neu lap : list belem) (els : list ielem) : res (list R) :=
  do m <- setMapper n dirIx neuIx;
  do fixed <- project m dir neu;
  do X <- bihSystem m fixed els lap;
  bihCoefs m fixed (solver (mfree m) (smat X) (srhs X)).
End Solver.

(** src/gsBiharmonicAssembler2.h:128-145 computeError: differences of value, gradient and second derivatives in the nodes *)
Record enode := mkEN { ew : R; e0 : R; e1 : list R; e2 : list R }.
Definition sqNorm (l : list R) : R := fold_right (fun x a => x * x + a) 0 l.
Definition integral (f : enode -> R) (l : list enode) : R := fold_left (fun a k => a + ew k * f k) l 0.
Definition computeError (l : list enode) : R * R * R :=
  let l2 := sqrt (integral (fun k => sqNorm [e0 k]) l) in
  let h1 := l2 + sqrt (integral (fun k => sqNorm (e1 k)) l) in
  let h2 := h1 + sqrt (integral (fun k => sqNorm (e2 k)) l) in
  (l2, h1, h2).
