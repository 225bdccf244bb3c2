(** C82: the solver of the biharmonic equation. *)
From Coq Require Import Reals.
From Verif Require Import Common SurfGDSpec AsmModel AsmExamples BihModel BihSpec BihProofs BihProofs2 BihExamples.
Open Scope R_scope.

(** The default data belong together: the gradient and the Laplacian are those of the exact solution, the source is the Laplacian of the Laplacian. *)
Theorem C82_data : d_x bihSol bihDx /\ d_y bihSol bihDy /\ laplacian bihSol bihLap /\ laplacian bihLap bihSource.
Proof. exact data_pf. Qed.
Print Assumptions C82_data.

(** Every side on the boundary gets a Dirichlet condition and one for the Laplacian or the normal derivative. *)
Theorem C82_conditions : forall (A : Type) second (sides : list A) s t, In (s, t) (bihConds second sides) <-> In s sides /\ (t = BDirichlet \/ t = if second then BLaplace else BNeumann).
Proof. exact conds_pf. Qed.
Print Assumptions C82_conditions.

(** Exactly the functions in the lists of the conditions are prescribed; a function without number is an error. *)
Theorem C82_mapper : forall n dirIx neuIx,
  (indices_ok n dirIx neuIx <-> exists m, setMapper n dirIx neuIx = Ok m) /\
  forall m, setMapper n dirIx neuIx = Ok m -> msize m = n /\ forall i, mfixed m i = true <-> prescribed dirIx neuIx i.
Proof. exact mapper_pf. Qed.
Print Assumptions C82_mapper.

(** The number of a prescribed function in the projection is its number among the prescribed ones in the equation. *)
Theorem C82_numbers : forall m, exists mb, bdyMapper m = Ok mb /\ mfree mb = (msize m - mfree m)%nat /\
  (forall i, (i < msize m)%nat -> mfixed m i = true -> exists k, (k < mfree mb)%nat /\ mindex m i = Ok (mfree m + k)%nat /\ mindex mb i = Ok k) /\
  (forall k, (k < mfree mb)%nat -> exists i, (i < msize m)%nat /\ mfixed m i = true /\ mindex mb i = Ok k) /\
  (forall i j g, mindex m i = Ok g -> mindex m j = Ok g -> i = j) /\
  (forall i g, mindex m i = Ok g -> (g < msize m)%nat /\ ((g < mfree m)%nat <-> mfixed m i = false)).
Proof. exact numbers_pf. Qed.
Print Assumptions C82_numbers.

(** The prescribed coefficients are the best fit to the boundary data; the others solve the discrete equation and minimise the energy. *)
Theorem C82_solution : forall solver n dirIx neuIx dir neu lap els, indices_ok n dirIx neuIx -> acts_ok n dir -> acts_ok n neu -> acts_ok n lap -> acts_ok n els ->
  solver_good solver n dirIx neuIx dir neu lap els ->
  exists c, bihSolve solver n dirIx neuIx dir neu lap els = Ok c /\ length c = n /\
    (exists b, outer dirIx neuIx b /\ (forall i, prescribed dirIx neuIx i -> b i = nth i c 0) /\
       (positive dir neu els -> forall d, outer dirIx neuIx d -> bdyCost dir neu b <= bdyCost dir neu d)) /\
    (forall d, inner dirIx neuIx d -> bilinear els (fun i => nth i c 0) d = load els lap d) /\
    (positive dir neu els -> forall d, (forall i, prescribed dirIx neuIx i -> d i = nth i c 0) -> energy els lap (fun i => nth i c 0) <= energy els lap d).
Proof. exact solve_pf. Qed.
Print Assumptions C82_solution.

(** A spline that satisfies the boundary conditions and the discrete equation is found exactly. *)
Theorem C82_exact : forall solver n dirIx neuIx dir neu lap els v, indices_ok n dirIx neuIx -> acts_ok n dir -> acts_ok n neu -> acts_ok n lap -> acts_ok n els ->
  solver_good solver n dirIx neuIx dir neu lap els -> positive dir neu els -> visible n dirIx neuIx dir neu els -> is_solution dirIx neuIx dir neu lap els v ->
  exists c, bihSolve solver n dirIx neuIx dir neu lap els = Ok c /\ length c = n /\ forall i, (i < n)%nat -> nth i c 0 = v i.
Proof. exact exact_pf. Qed.
Print Assumptions C82_exact.

(** The values alone need not be the best fit: slopes prescribed at the same functions change them, even if the values could be met. *)
Theorem C82_values_refuted : bihSolve diagonal 1 [[0%nat]] [[0%nat]] exV exV [] [] = Ok [/ 100001] /\ solver_good diagonal 1 [[0%nat]] [[0%nat]] exV exV [] [] /\
  (forall n, In n (nodes exV) -> valueGap (fun _ => 0) n = 0) /\ exists n, In n (nodes exV) /\ valueGap (fun _ => / 100001) n <> 0.
Proof. exact ex_values. Qed.
Print Assumptions C82_values_refuted.

(** The three errors: increasing, equivalent to the norms of the differences, and zero only without any difference in the nodes. *)
Theorem C82_errors : forall l, (forall k, In k l -> 0 < ew k) -> exists l2 h1 h2, computeError l = (l2, h1, h2) /\ 0 <= l2 <= h1 /\ h1 <= h2 /\
  l2 * l2 = part (fun k => [e0 k]) l /\
  part (fun k => [e0 k]) l + part e1 l <= h1 * h1 <= 2 * (part (fun k => [e0 k]) l + part e1 l) /\
  part (fun k => [e0 k]) l + part e1 l + part e2 l <= h2 * h2 <= 3 * (part (fun k => [e0 k]) l + part e1 l + part e2 l) /\
  (h2 = 0 <-> forall k, In k l -> e0 k = 0 /\ (forall x, In x (e1 k) -> x = 0) /\ (forall x, In x (e2 k) -> x = 0)).
Proof. exact errors_pf. Qed.
Print Assumptions C82_errors.

(** Three functions, one prescribed by its value, one by its slope. *)
Theorem C82_nonvacuous : bihSolve diagonal 3 exDirIx exNeuIx exDir exNeu exLap exInt = Ok [5; 3; 2] /\ solver_good diagonal 3 exDirIx exNeuIx exDir exNeu exLap exInt /\
  indices_ok 3 exDirIx exNeuIx /\ acts_ok 3 exDir /\ acts_ok 3 exNeu /\ acts_ok 3 exLap /\ acts_ok 3 exInt /\
  positive exDir exNeu exInt /\ visible 3 exDirIx exNeuIx exDir exNeu exInt /\ is_solution exDirIx exNeuIx exDir exNeu exLap exInt (fun i => nth i [5; 3; 2] 0).
Proof. exact ex_ok. Qed.
Print Assumptions C82_nonvacuous.
