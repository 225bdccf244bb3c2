(** Specification vocabulary for C10-C14 and C43. *)
From Verif Require Import Common TopoModel IndexSpec TopoSpec SmoothSpec SmoothSpec2.

(** lexicographic order on (patch, index) *)
Definition lower (a b : nat * nat) : Prop := fst a < fst b \/ (fst a = fst b /\ snd a < snd b).

(** [s] lists its elements in increasing order. *)
Inductive increasing : list (nat * nat) -> Prop :=
| inc_nil : increasing []
| inc_cons a l : (forall b, In b l -> lower a b) -> increasing l -> increasing (a :: l).

(** The pair (patch corner, side): the side is a boundary side through the vertex of [a]. *)
Definition boundary_at (t : topo) (a : pcorner) (x : pcorner * side) : Prop :=
  same_vertex t a (fst x) /\ touches (snd (fst x)) (snd x) /\ In (fst (fst x), snd x) (tbd t).

(** scalar product *)
Fixpoint scalar (a b : list Q) : Q :=
  match a, b with x :: a', y :: b' => (x * y + scalar a' b')%Q | _, _ => 0%Q end.

(** |x| > tol *)
Definition exceeds (x tol : Q) : Prop := (tol < x \/ tol < - x)%Q.

(** equality of lists of rational numbers *)
Definition same_values (a b : list Q) : Prop := Forall2 Qeq a b.

(** A history of calls of a function with internal state: [f patch flag state] gives the
    returned value and the new state; the list [out] collects the returned values. *)
Inductive run_calls {A S : Type} (f : nat -> bool -> S -> res (A * S)) : list (nat * bool) -> S -> list A -> Prop :=
| run_nil s : run_calls f [] s []
| run_cons p b rest s o s' out : f p b s = Ok (o, s') -> run_calls f rest s' out -> run_calls f ((p, b) :: rest) s (o :: out).
