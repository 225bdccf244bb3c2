(** Specification vocabulary for positions in a tensor grid. *)
From Verif Require Import Common TopoModel.

(** distance of position [i] (out of [n]) from the lower or upper end *)
Definition dist_end (upper : bool) (n i : nat) : nat := if upper then n - 1 - i else i.

(** number of functions along a side, and across it *)
Definition along (s : side) (n0 n1 : nat) : nat :=
  match s with West | East => n1 | South | North => n0 end.
Definition across (s : side) (n0 n1 : nat) : nat :=
  match s with West | East => n0 | South | North => n1 end.

(** Grid point (i,j) lies [o] rows inward of side [s]. *)
Definition rows_inward (s : side) (n0 n1 i j : nat) : nat :=
  match s with
  | West => i | East => n0 - 1 - i | South => j | North => n1 - 1 - j
  end.

(** Grid point (i,j) lies [k] steps away from corner [c], measured along [s]. *)
Definition steps_along (s : side) (c : corner) (n0 n1 i j : nat) : nat :=
  match s, c with
  | (West | East), (SW | SE) => j
  | (West | East), (NW | NE) => n1 - 1 - j
  | (South | North), (SW | NW) => i
  | (South | North), (SE | NE) => n0 - 1 - i
  end.

(** Corner [c] is an end point of side [s]. *)
Definition touches (c : corner) (s : side) : Prop :=
  match s, c with
  | West, (SW | NW) | East, (SE | NE) | South, (SW | SE) | North, (NW | NE) => True
  | _, _ => False
  end.
