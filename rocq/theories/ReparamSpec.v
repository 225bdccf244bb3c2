(** Specification vocabulary for re-parameterised patches, independent of the
    index expressions of the model. *)
From Verif Require Import Common TopoModel ReparamModel.

(** Well-formed patch: one row per grid point. *)
Definition full {A} (p : patch A) : Prop := length (pC p) = csize (pU p) * csize (pV p).

(** Row at grid point (u,v). *)
Definition at_ {A} (p : patch A) (u v : nat) : option A :=
  if (u <? csize (pU p)) && (v <? csize (pV p)) then nth_error (pC p) (u + csize (pU p) * v) else None.

(** Number of points along a side, and the point at position [k] of a side. *)
Definition side_count {A} (p : patch A) (s : side) : nat :=
  match s with West | East => csize (pV p) | South | North => csize (pU p) end.

Definition on_side_at {A} (p : patch A) (s : side) (k : nat) : option A :=
  match s with
  | West => at_ p 0 k
  | East => at_ p (csize (pU p) - 1) k
  | South => at_ p k 0
  | North => at_ p k (csize (pV p) - 1)
  end.

Definition corner_row {A} (p : patch A) (c : corner) : option A :=
  match c with
  | SW => at_ p 0 0
  | SE => at_ p (csize (pU p) - 1) 0
  | NW => at_ p 0 (csize (pV p) - 1)
  | NE => at_ p (csize (pU p) - 1) (csize (pV p) - 1)
  end.

(** Side [s'] of patch [q] carries the rows of side [s] of patch [p], in the same
    or in the opposite order. *)
Definition carries {A} (q : patch A) (s' : side) (p : patch A) (s : side) (reversed : bool) : Prop :=
  side_count q s' = side_count p s /\
  forall k, k < side_count p s ->
    on_side_at q s' k = on_side_at p s (if reversed then side_count p s - 1 - k else k).

(** The patch runs along [s] in its mathematically positive (counter-clockwise)
    sense. *)
Definition ccw (s : side) : bool := match s with South | East => true | _ => false end.

(** Rotations only. *)
Definition is_rotation (o : op) : Prop := o <> OSwap.

(** The same univariate basis (knots as rational numbers), and a knot vector that
    is symmetric about its centre. *)
Definition same_comp (c c' : comp) : Prop := csize c = csize c' /\ Forall2 Qeq (cknots c) (cknots c').
Definition symmetric (c : comp) : Prop := same_comp (krev c) c.

Definition nonempty {A} (p : patch A) : Prop := 0 < csize (pU p) /\ 0 < csize (pV p).

(** An optional swap of the axes followed by [h]; histories with at most one
    rotation are those the edge and vertex constructions perform. *)
Definition history (sw : bool) (h : list op) : list op := if sw then OSwap :: h else h.
Definition at_most_one_rotation (h : list op) : Prop := h = [] \/ exists o, is_rotation o /\ h = [o].
