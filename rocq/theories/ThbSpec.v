(** What the refinement in _makeTHB is meant to do (C84). *)
From Coq Require Import Reals.
From Verif Require Import Common ThbModel.
Open Scope R_scope.

(** a box: level, lower and upper indices of elements; an index on level l is the parameter (in elements of level 0) index / 2^l *)
Record box := mkBox { blev : Z; blo0 : Z; blo1 : Z; bup0 : Z; bup1 : Z }.
Definition flat (b : box) : list Z := [blev b; blo0 b; blo1 b; bup0 b; bup1 b].
Definition at_level (l x : Z) : R := IZR x * powerRZ 2 (- l).
Definition region (b : box) : R * R * R * R := (at_level (blev b) (blo0 b), at_level (blev b) (blo1 b), at_level (blev b) (bup0 b), at_level (blev b) (bup1 b)).

Fixpoint rsumTo (n : nat) (f : nat -> R) : R := match n with O => 0 | S m => rsumTo m f + f m end.
Definition entries (m : spm) (r c : nat) : R := spcoeff (sptrip m) r c.
Definition inside (m : spm) : Prop := forall t, In t (sptrip m) -> (fst (fst t) < sprows m)%nat /\ (snd (fst t) < spcols m)%nat.
Definition apply (m : spm) (c : nat -> R) (r : nat) : R := rsumTo (spcols m) (fun j => entries m r j * c j).

Section Bases.
Context {B X : Type}.
Variable size : B -> nat.
Variable value : B -> nat -> X -> R.
(** the spline with the coefficients [c] *)
Definition spline (b : B) (c : nat -> R) (x : X) : R := rsumTo (size b) (fun j => c j * value b j x).
(** [m] takes coefficients for [b] to those for [b'] of the same function *)
Definition transfers (b b' : B) (m : spm) : Prop := sprows m = size b' /\ spcols m = size b /\ inside m /\ forall c x, spline b' (apply m c) x = spline b c x.
(** number of the first function of patch [p] *)
Definition first_of (bs : list B) (p : nat) : nat := sumN (map size (firstn p bs)).
Definition sum_of (bs : list B) : nat := sumN (map size bs).
(** the spline on patch [p] *)
Definition on_patch (bs : list B) (c : nat -> R) (p : nat) (x : X) : option R := match nth_error bs p with Some b => Some (spline b (fun j => c (first_of bs p + j)%nat) x) | None => None end.
End Bases.

(** row [r] of the product of [A] (one column for every function before) with the transpose of [m] *)
Definition times_tr (A : nat -> nat -> R) (m : spm) (r i : nat) : R := rsumTo (spcols m) (fun j => A r j * entries m i j).
(** the rows sum to one *)
Definition stochastic (m : spm) : Prop := forall i, (i < sprows m)%nat -> rsumTo (spcols m) (entries m i) = 1.
