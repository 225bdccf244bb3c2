(** Specification of a basis made of several pieces (C28, C29, C30): the functions are the pairs (piece, local number),
    listed piece after piece. *)
From Verif Require Import Common TopoModel BaseModel ContainerModel.

Section Spec.
Context {X S : Type}.

(** All functions in the order of their global numbers. *)
Definition numbered {A} (l : list A) : list (nat * A) := combine (seq 0 (length l)) l.
Definition all_funs (l : list (cpiece X S)) : list (nat * nat) :=
  flat_map (fun pb => map (pair (fst pb)) (seq 0 (fst (cp_tb (snd pb)) * snd (cp_tb (snd pb))))) (numbered l).

(** The rows of a piece: [m k] rows per active function. [val k i u] are those of function i. *)
Record piece_ok (m : nat -> nat) (val : nat -> nat -> X -> list Q) (b : cpiece X S) : Prop := {
  po_range : forall u i, In i (cp_act b u) -> i < fst (cp_tb b) * snd (cp_tb b);
  po_nodup : forall u, NoDup (cp_act b u);
  po_rows : forall k u, cp_rows b k u = concat (map (fun i => val k i u) (cp_act b u));
  po_width : forall k i u, length (val k i u) = m k }.

(** Function i of a basis with nu x nv functions has distance o to a side. *)
Definition at_distance (b : tbasis) (s : side) (o i : nat) : Prop :=
  exists x y, x < fst b /\ y < snd b /\ i = x + fst b * y /\
    match s with West => x = o | East => x + o + 1 = fst b | South => y = o | North => y + o + 1 = snd b end.

(** Pieces 1..4 belong to the sides west, east, south, north, pieces 5..8 to the corners. *)
Definition touches (s : side) (q : nat) : Prop :=
  match s with
  | West => q = 1 \/ q = 5 \/ q = 7
  | East => q = 2 \/ q = 6 \/ q = 8
  | South => q = 3 \/ q = 5 \/ q = 6
  | North => q = 4 \/ q = 7 \/ q = 8
  end.
Definition corner_piece_of (c : corner) : nat := match c with SW => 5 | SE => 6 | NW => 7 | NE => 8 end.

Definition at_corner (b : tbasis) (c : corner) (i : nat) : Prop :=
  match c with
  | SW => i = 0
  | SE => i + 1 = fst b
  | NW => i + fst b = fst b * snd b
  | NE => i + 1 = fst b * snd b
  end.

(** number of functions across a side *)
Definition across (b : tbasis) (s : side) : nat := match s with West | East => fst b | _ => snd b end.
End Spec.
