(** Specification for the constructions on hierarchical bases. *)
From Verif Require Import Common TopoModel BaseModel IndexSpec TopoSpec SmoothSpec SmoothSpec2 RingModel.

(** The two outermost rings of functions of a basis are arranged like those of a
    tensor-product basis: the boundary rows are duplicate free, rows of opposite
    sides and the two rows of one side are disjoint, two rows of adjacent sides meet
    in one function near the corner. *)
Record ring_like (b : rbasis) : Prop := {
  rl_nodup : forall s o, o < 2 -> NoDup (roff b s o);
  rl_range : forall s o x, o < 2 -> In x (roff b s o) -> x < rsize b;
  rl_rows : forall s, length (roff b s 0) = length (roff b s 1);
  rl_disjoint : forall s o s' o' x, o < 2 -> o' < 2 -> side_dir s = side_dir s' -> (s, o) <> (s', o') ->
    In x (roff b s o) -> In x (roff b s' o') -> False;
  rl_meet : forall c s s' k o x, touches c s -> touches c s' -> s <> s' -> k < 2 -> o < 2 ->
    (In x (roff b s o) /\ In x (roff b s' k)) <-> x = rifv b k c s o;
  rl_corner : forall c s, touches c s -> rcorner b c = rifv b 0 c s 0
}.

Record ring_input (I : rinput) : Prop := {
  ri_topo : consistent (ritopo I);
  ri_np : tnp (ritopo I) = length (ribases I);
  ri_bases : forall b, In b (ribases I) -> ring_like b;
  ri_C0_length : length (riC0 I) = 4 * length (ribases I);
  ri_C0_vertex : forall a b, glued_corners (ritopo I) a b ->
    nth_error (riC0 I) (vertIndex a) = nth_error (riC0 I) (vertIndex b);
  ri_fits : (Z.of_nat (sumN (map rsize (ribases I))) < 2 ^ 64)%Z
}.

(** vertices the constructions support *)
Definition supported (sc : scheme) (t : topo) : Prop :=
  forall a v, fst a < tnp t -> has_valence t a v ->
    match sc with
    | SchemeDPatch => interior_vertex t a \/ v <= 3
    | SchemeAlmostC1 => interior_vertex t a -> 3 <= v
    end.
