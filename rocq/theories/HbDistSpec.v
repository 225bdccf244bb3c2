(** What distances along interfaces of hierarchical bases are meant to be. *)
From Verif Require Import Common TopoModel VertexModel SmoothSpec SmoothSpec2 VertexSpec HbDistModel.
Open Scope nat_scope.

(** every level has as many flags as functions *)
Definition hside_ok (S : hside) : Prop :=
  length (hsKnots S) = length (hsAct S) /\
  forall m k a, nth_error (hsKnots S) m = Some k -> nth_error (hsAct S) m = Some a -> length k = length a + hsDeg S + 1.

(** where the support of function [j] ends, seen from the lower or from the upper end of the side: from below it ends at
    the last of its knots, from above it ends at the first of its knots, measured by the reflected parameter *)
Definition reach (deg : nat) (k : list Z) (upper : bool) (j : nat) : Z :=
  if upper then (hd 0 k + last k 0 - nth j k 0)%Z else nth (j + deg + 1) k 0%Z.

(** the functions of one level that are active *)
Definition actives (a : list bool) : list nat := filter (fun j => nth j a false) (seq 0 (length a)).
(** where the supports of the active functions of all levels end *)
Definition ends (S : hside) (upper : bool) : list Z :=
  flat_map (fun m => map (reach (hsDeg S) (nth m (hsKnots S) []) upper) (actives (nth m (hsAct S) []))) (seq 0 (length (hsKnots S))).

(** [p] is the [n]-th smallest of [l], counted from one *)
Definition ranked (l : list Z) (n : nat) (p : Z) : Prop :=
  In p l /\ countb (fun x => x <? p)%Z l < n <= countb (fun x => x <=? p)%Z l.

(** the number of functions of level [m] whose support ends before [p], active or not *)
Definition before (S : hside) (m : nat) (upper : bool) (p : Z) : nat :=
  let k := nth m (hsKnots S) [] in
  countb (fun j => reach (hsDeg S) k upper j <? p)%Z (seq 0 (length k - hsDeg S - 1)).

(** two sides of an interface: the same knots on every level, reflected when the interface is flipped *)
Definition sides_match (flip : bool) (S S' : hside) : Prop :=
  hsDeg S' = hsDeg S /\ hsKnots S' = map (fun k => if flip then kreverse k else k) (hsKnots S).
