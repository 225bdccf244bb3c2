(** What the assembled systems are meant to be. *)
From Coq Require Import Reals.
From Verif Require Import Common SurfGDSpec AsmModel.
Open Scope R_scope.

(** all nodes, with the active functions of their elements *)
Definition allNodes (els : list element) : list (list nat * anode) := flat_map (fun e => map (fun k => (aact e, k)) (anodes e)) els.
Definition weight (n : list nat * anode) : R := aw (snd n) * ameas (snd n).
Definition target (s : nat) (n : list nat * anode) : R := arhs (snd n) s.
(** the spline with coefficients [c] at a node: the sum over the active functions *)
Definition spline (c : nat -> R) (n : list nat * anode) : R :=
  sumTo (length (fst n)) (fun p => aval (snd n) p * c (nth p (fst n) 0%nat)).
(** function [i] at a node *)
Definition unit (i j : nat) : R := if (j =? i)%nat then 1 else 0.
Definition fnval (i : nat) (n : list nat * anode) : R := spline (unit i) n.

Definition els_ok (n : nat) (els : list element) : Prop := forall e a, In e els -> In a (aact e) -> (a < n)%nat.
Definition free (m : mapper) (i : nat) : Prop := (i < msize m)%nat /\ mfixed m i = false.

(** orders in which the elements of several threads may enter the critical section *)
Inductive interleaved {A} : list (list A) -> list A -> Prop :=
| inter_done ls : Forall (fun l => l = []) ls -> interleaved ls []
| inter_step pre x r post l : interleaved (pre ++ r :: post) l -> interleaved (pre ++ (x :: r) :: post) (x :: l).

(** the same matrix and right-hand side *)
Definition same_sys (S T : sys) : Prop := (forall g h, smat S g h = smat T g h) /\ forall g, srhs S g = srhs T g.

(** coefficients that vanish for the eliminated functions *)
Definition admissible (m : mapper) (d : nat -> R) : Prop := forall i, mfixed m i = true -> d i = 0.
(** [c] are the coefficients of a weighted least squares approximation of the right-hand side of system [s] *)
Definition least_squares (m : mapper) (els : list element) (s : nat) (c : nat -> R) : Prop :=
  admissible m c /\
  (forall i, free m i -> total (fun n => weight n * ((spline c n - target s n) * fnval i n)) (allNodes els) = 0) /\
  ((forall n, In n (allNodes els) -> 0 <= weight n) -> forall d, admissible m d ->
     total (fun n => weight n * ((spline c n - target s n) * (spline c n - target s n))) (allNodes els) <=
     total (fun n => weight n * ((spline d n - target s n) * (spline d n - target s n))) (allNodes els)).
(** the solver solves the equations *)
Definition solver_ok (solver : nat -> (nat -> nat -> R) -> (nat -> R) -> nat -> R) (n : nat) (M : nat -> nat -> R) (b : nat -> R) : Prop :=
  solves n M b (solver n M b).
