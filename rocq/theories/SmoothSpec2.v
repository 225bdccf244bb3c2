(** Specification for the result of gsSmoothInterfaces::compute(). *)
From Verif Require Import Common TopoModel BaseModel IndexSpec TopoSpec SmoothSpec.

(** Entry of the smoothing matrix. *)
Definition entry_of (R : result) (r c : nat) : Q := mget (rMat R) r c.

(** Control point (one coordinate) of the exported multipatch at global position
    [c], for coefficients [coef] of the smooth basis: row [c] of
    matrix()^T * coefficients. *)
Definition control (R : result) (coef : nat -> Q) (c : nat) : Q :=
  sumQ (map (fun r => (entry_of R r c * coef r)%Q) (seq 0 (rRows R))).

(** Global position of grid point (i,j) of patch [p]: patches are stored one after
    the other, each with the first direction running fastest. *)
Definition column (bs : list tbasis) (p i j : nat) : nat :=
  sumN (map (fun b => fst b * snd b) (firstn p bs)) + (i + fst (nth p bs (0, 0)) * j).

(** Grid point at position [u] along side [s], [o] rows inward. *)
Definition grid_point (s : side) (n0 n1 o u : nat) : nat * nat :=
  match s with
  | West => (o, u)
  | East => (n0 - 1 - o, u)
  | South => (u, o)
  | North => (u, n1 - 1 - o)
  end.

(** Its global position. *)
Definition side_column (bs : list tbasis) (ps : pside) (o u : nat) : nat :=
  let b := nth (fst ps) bs (0, 0) in
  let g := grid_point (snd ps) (fst b) (snd b) o u in
  column bs (fst ps) (fst g) (snd g).

Definition side_length (bs : list tbasis) (ps : pside) : nat :=
  let b := nth (fst ps) bs (0, 0) in along (snd ps) (fst b) (snd b).

(** Position on the second side of an interface matching position [u] on the first. *)
Definition matching (bs : list tbasis) (f : iface) (u : nat) : nat :=
  if ifflip f then side_length bs (if2 f) - 1 - u else u.

(** Patch corners meeting in one point of the multipatch. *)
Inductive same_vertex (t : topo) (a : pcorner) : pcorner -> Prop :=
| sv_refl : same_vertex t a a
| sv_step b c : same_vertex t a b -> glued_corners t b c \/ glued_corners t c b -> same_vertex t a c.

Definition has_valence (t : topo) (a : pcorner) (v : nat) : Prop :=
  exists l, NoDup l /\ (forall b, In b l <-> same_vertex t a b) /\ length l = v.

(** all sides meeting there are interfaces *)
Definition interior_vertex (t : topo) (a : pcorner) : Prop :=
  forall b s, same_vertex t a b -> touches (snd b) s ->
    exists f, In f (tif t) /\ (if1 f = (fst b, s) \/ if2 f = (fst b, s)).

(** flagged as sharp *)
Definition sharp (I : input) (a : pcorner) : Prop :=
  nth_error (iC0 I) (vertIndex a) = Some true.

(** a boundary vertex that is kept C1 by the construction *)
Definition smooth_boundary_pair (I : input) (a : pcorner) : Prop :=
  ~ interior_vertex (itopo I) a /\ has_valence (itopo I) a 2 /\ ~ sharp I a.

(** grid position of the corner function of a patch corner *)
Definition corner_column (bs : list tbasis) (a : pcorner) : nat :=
  let b := nth (fst a) bs (0, 0) in
  match snd a with
  | SW => column bs (fst a) 0 0
  | SE => column bs (fst a) (fst b - 1) 0
  | NW => column bs (fst a) 0 (snd b - 1)
  | NE => column bs (fst a) (fst b - 1) (snd b - 1)
  end.

(** The end of a side at position 0 ([false]) or at the last position ([true]). *)
Definition end_position (bs : list tbasis) (ps : pside) (last : bool) : nat :=
  if last then side_length bs ps - 1 else 0.
Definition end_corner (ps : pside) (last : bool) : pcorner := (fst ps, corner_at (snd ps) last).
