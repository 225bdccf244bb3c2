(** What the properties C49 and C50 say: which local functions are combined across interfaces. *)
From Verif Require Import Common TopoModel MapModel MapSpec.
Open Scope Z_scope.

(** number of functions across / along a side *)
Definition nsz (b : mbase) (s : side) : Z := match s with West | East => mb_u b | _ => mb_v b end.
Definition asz (b : mbase) (s : side) : Z := match s with West | East => mb_v b | _ => mb_u b end.

(** the two sides belong to different directions *)
Definition adjacent (s s' : side) : Prop := side_dir s <> side_dir s'.

(** number of the function of patch [p] with [d] functions between it and side [s] and [e] between it and the adjacent
    side [s'] *)
Definition coord (n : Z) (high : bool) (d : Z) : Z := if high then n - 1 - d else d.
Definition fun_at (bs : list mbase) (p : nat) (b : mbase) (s : side) (d : Z) (s' : side) (e : Z) : Z :=
  before bs p +
  match side_dir s with
  | O => coord (mb_u b) (side_par s) d + mb_u b * coord (mb_v b) (side_par s') e
  | _ => coord (mb_u b) (side_par s') e + mb_u b * coord (mb_v b) (side_par s) d
  end.

(** the side of the other direction at the low / high end of [s] *)
Definition side_at_end (s : side) (high : bool) : side :=
  match side_dir s with
  | O => if high then North else South
  | _ => if high then East else West
  end.

Definition opposite (s s' : side) : bool :=
  match s, s' with West, East | East, West | South, North | North, South => true | _, _ => false end.

(** Crossing side [s] of patch [p] next to side [s2] leads to side [s'] of patch [p'] next to side [s2']: the interface is
    found in the topology, both sides have the same number of functions, and the ends of the sides correspond. *)
Record glued (bs : list mbase) (t : topo) (p : nat) (b : mbase) (s s2 : side) (p' : nat) (b' : mbase) (s' s2' : side) : Prop := {
  gl_b : nth_error bs p = Some b;
  gl_b' : nth_error bs p' = Some b';
  gl_f : exists f, getInterface t (p, s) = Some f /\ iother f (p, s) = Ok (p', s') /\ s2' = side_at_end s' (xorb (ifflip f) (side_par s2)) /\
                   (* steps along the side keep their sense when opposite sides are joined, so these must not be flipped *)
                   (opposite s s' = true -> ifflip f = false);
  gl_adj : adjacent s s2;
  gl_size : asz b s = asz b' s' }.

(** a regular interior vertex: four patches, every two neighbours glued in both directions.
    [p] has the sides [s1], [s2]; [p1] lies across [s1], [p2] across [s2], [p3] is the diagonal one; the side of each patch
    with index 1 is shared in the first direction *)
Record frame := mkF { fp : nat; fb : mbase; fs1 : side; fs2 : side }.
Definition cross1 (bs : list mbase) (t : topo) (F G : frame) : Prop :=
  glued bs t (fp F) (fb F) (fs1 F) (fs2 F) (fp G) (fb G) (fs1 G) (fs2 G) /\
  glued bs t (fp G) (fb G) (fs1 G) (fs2 G) (fp F) (fb F) (fs1 F) (fs2 F).
Definition cross2 (bs : list mbase) (t : topo) (F G : frame) : Prop :=
  glued bs t (fp F) (fb F) (fs2 F) (fs1 F) (fp G) (fb G) (fs2 G) (fs1 G) /\
  glued bs t (fp G) (fb G) (fs2 G) (fs1 G) (fp F) (fb F) (fs2 F) (fs1 F).
Record square (bs : list mbase) (t : topo) (F F1 F2 F3 : frame) : Prop := {
  sq_01 : cross1 bs t F F1;
  sq_23 : cross1 bs t F2 F3;
  sq_02 : cross2 bs t F F2;
  sq_13 : cross2 bs t F1 F3 }.

(** the patch has room for [n1] functions across its first and [n2] across its second side *)
Definition room (n1 n2 : Z) (F : frame) : Prop := n1 <= nsz (fb F) (fs1 F) /\ n2 <= nsz (fb F) (fs2 F).

(** function of patch [F] with depths at most [x] and [y] *)
Definition in_corner (bs : list mbase) (F : frame) (x y l : Z) : Prop :=
  exists d e, 0 <= d <= x /\ 0 <= e <= y /\ l = fun_at bs (fp F) (fb F) (fs1 F) d (fs2 F) e.

(** the functions combined around the vertex: from patch [F] at depths [x], [y], with [n1] + 1 functions in the first and
    [n2] + 1 in the second direction *)
Definition in_block (bs : list mbase) (F F1 F2 F3 : frame) (n1 n2 x y l : Z) : Prop :=
  in_corner bs F x y l \/ in_corner bs F1 (n1 - 1 - x) y l \/
  in_corner bs F2 x (n2 - 1 - y) l \/ in_corner bs F3 (n1 - 1 - x) (n2 - 1 - y) l.

(** the four patches are different *)
Definition distinct4 (F F1 F2 F3 : frame) : Prop := NoDup [fp F; fp F1; fp F2; fp F3].
