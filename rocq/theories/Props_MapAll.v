(** Property C63: the whole map of the basis with enhanced smoothness. *)
From Coq Require Import Reals.
From Coq Require Import Permutation.
From Verif Require Import Common TopoModel TopoSpec MapModel MapSpec MapTravelSpec MapAllModel MapAllSpec MapAllProofs MapAllExamples.
Open Scope Z_scope.

(** The map is built without error; it has at most as many columns as rows; every column has some rows, each once, with positive weights;
    the entries of every row sum to one; the columns are linearly independent. *)
Theorem C63_mapper : forall M n, mp_ok M n -> let N := nrOfLocals (mbs M) in
  exists cols, makeMapper M = Ok cols /\ Z.of_nat (length cols) <= N /\ (forall c, In c cols -> col_ok N c) /\ (forall l, 0 <= l < N -> rowSum cols l = 1%R) /\ independent N cols.
Proof. exact mapper_pf. Qed.
Print Assumptions C63_mapper.

(** A patch that meets a special vertex twice adds the functions at the vertex twice. *)
Theorem C63_twice_refuted : exists M x x' c c', consistent (mtop M) /\ natural (mconf M 0%nat) /\ x <> x' /\ In (x, Singular) (patchActions (mconf M 0%nat)) /\ In (x', Singular) (patchActions (mconf M 0%nat)) /\
  addAction M 0 (x, Singular) = Ok [c] /\ addAction M 0 (x', Singular) = Ok [c'] /\ Permutation c c' /\ rowSum [c; c'] 0 = 2%R.
Proof. exact twice_pf. Qed.
Print Assumptions C63_twice_refuted.

(** Four patches around a vertex that is special or regular. *)
Theorem C63_nonvacuous : mp_ok (grid false) 2 /\ mp_ok (grid true) 2 /\ addAction (grid true) 0 ((3, 3), Singular) = Ok [[(15, 1%R); (28, 1%R); (35, 1%R); (48, 1%R)]] /\
  In ((3, 3), Singular) (patchActions (mconf (grid true) 0)) /\ In ((3, 3), Block North East 2 2 0 0) (patchActions (mconf (grid false) 0)).
Proof. exact nonvacuous_pf. Qed.
Print Assumptions C63_nonvacuous.
