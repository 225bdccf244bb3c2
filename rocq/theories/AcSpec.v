(** What the property C67 says: the smoothing matrix of gsAlmostC1 before the treatment of the special vertices. *)
From Verif Require Import Common TopoModel BaseModel IndexSpec TopoSpec SmoothSpec SmoothSpec2 RingModel RingSpec DpModel DpSpec.

(** inputs of the statements: bases with two regular outer rings, a topology in which every side is used once, and
    at least three patches around every interior vertex *)
Record ac_input (I : dinput) : Prop := {
  ac_ring : ring_input (dring I);
  ac_rows : rows_match I;
  ac_supported : supported SchemeAlmostC1 (ritopo (dring I))
}.

(** the vertex is sharp *)
Definition is_sharp (I : dinput) (c : pcorner) : Prop := nth_error (riC0 (dring I)) (vertIndex c) = Some true.
Definition is_smooth (I : dinput) (c : pcorner) : Prop := nth_error (riC0 (dring I)) (vertIndex c) = Some false.

(** side [s] of corner [c] lies on the boundary *)
Definition boundary_edge (I : dinput) (c : pcorner) (s : side) : Prop := touches (snd c) s /\ In (fst c, s) (tbd (ritopo (dring I))).

(** a row without entries *)
Definition spare (R : dresult) (r : nat) : Prop := forall c, c < drCols R -> dentry R r c = 0%Q.
