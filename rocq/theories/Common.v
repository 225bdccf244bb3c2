(** Common vocabulary of the model: outcomes, checked array access, finite sums. *)
From Coq Require Export List Arith ZArith QArith Lia Bool.
Export ListNotations.
Open Scope nat_scope.

(** Outcome of a C++ function.  [Err] stands for a failing GISMO_ENSURE /
    GISMO_ERROR / GISMO_ASSERT, or for an access outside an array (undefined
    behaviour in the C++ code). *)
Inductive res (A : Type) : Type := Ok (a : A) | Err.
Arguments Ok {A} a.
Arguments Err {A}.

Definition bind {A B} (x : res A) (f : A -> res B) : res B :=
  match x with Ok a => f a | Err => Err end.

Notation "'do' x <- e ; f" := (bind e (fun x => f))
  (at level 200, x pattern, e at level 100, f at level 200, right associativity).

(** GISMO_ENSURE(b,...): continue only when [b] holds. *)
Definition ensure (b : bool) : res unit := if b then Ok tt else Err.

(** Run [f] on every element, stopping at the first error. *)
Fixpoint mapM {A B} (f : A -> res B) (l : list A) : res (list B) :=
  match l with
  | [] => Ok []
  | x :: r => do y <- f x; do ys <- mapM f r; Ok (y :: ys)
  end.

(** Loop with a state: for (x in l) s = f(s,x). *)
Fixpoint foldM {A S} (f : S -> A -> res S) (l : list A) (s : S) : res S :=
  match l with
  | [] => Ok s
  | x :: r => do s' <- f s x; foldM f r s'
  end.

(** Checked reads and writes of std::vector. *)
Definition vget {A} (l : list A) (i : nat) : res A :=
  match nth_error l i with Some a => Ok a | None => Err end.

Fixpoint upd {A} (l : list A) (i : nat) (v : A) : list A :=
  match l, i with
  | [], _ => []
  | _ :: r, 0 => v :: r
  | a :: r, S j => a :: upd r j v
  end.

Definition vset {A} (l : list A) (i : nat) (v : A) : res (list A) :=
  if i <? length l then Ok (upd l i v) else Err.

(** Sums. *)
Fixpoint sumN (l : list nat) : nat :=
  match l with [] => 0 | x :: r => x + sumN r end.

Fixpoint sumZ (l : list Z) : Z :=
  match l with [] => 0%Z | x :: r => (x + sumZ r)%Z end.

Fixpoint sumQ (l : list Q) : Q :=
  match l with [] => 0%Q | x :: r => (x + sumQ r)%Q end.

(** Number of elements of [l] satisfying [f]. *)
Definition countb {A} (f : A -> bool) (l : list A) : nat := length (filter f l).
