(** What the property C70 says: the coefficients that gsDPatch computes from a geometry. *)
From Verif Require Import Common TopoModel BaseModel IndexSpec TopoSpec SmoothSpec SmoothSpec2 RingModel RingSpec DpModel DpSpec DpPreModel.

(** Control point [k] of patch [p] with respect to the refined basis of the patch *)
Definition transferred (T : list tmat) (P : list (list Q)) (p k : nat) (u : Q) : Prop :=
  exists M cs, nth_error T p = Some M /\ nth_error P p = Some cs /\
    ((tmRows M = 0 \/ tmCols M = 0) /\ nth_error cs k = Some u \/
     k < tmRows M /\ 0 < tmCols M /\ u = sumQ (map (fun j => (tmAt M k j * nth j cs 0)%Q) (seq 0 (tmCols M)))).

(** One matrix and one list of control points for every patch, of the sizes of its bases *)
Definition fits_refined (I : dinput) (T : list tmat) (P : list (list Q)) : Prop :=
  length T = length (ribases (dring I)) /\ length P = length (ribases (dring I)) /\
  forall p b M cs, nth_error (ribases (dring I)) p = Some b -> nth_error T p = Some M -> nth_error P p = Some cs ->
    if (tmRows M =? 0) || (tmCols M =? 0) then length cs = rsize b else tmRows M = rsize b /\ length cs = tmCols M.

(** A corner of a boundary vertex has a boundary side. *)
Definition outer_corner (I : dinput) (c : pcorner) : Prop := exists s, touches (snd c) s /\ In (fst c, s) (tbd (ritopo (dring I))).

(** The corners of a boundary vertex of three patches: two on the boundary, one between them *)
Definition fan_of (I : dinput) (c c1 c2 c3 : pcorner) : Prop :=
  fst c < length (ribases (dring I)) /\ ~ interior_vertex (ritopo (dring I)) c /\ has_valence (ritopo (dring I)) c 3 /\
  NoDup [c1; c2; c3] /\ (forall b, In b [c1; c2; c3] <-> same_vertex (ritopo (dring I)) c b) /\
  outer_corner I c1 /\ outer_corner I c3 /\ ~ outer_corner I c2.

(** Line 99 skips the corners with this number as soon as any corner anywhere is sharp. *)
Definition some_sharp (I : dinput) : Prop := In true (riC0 (dring I)).
Definition skipped (I : dinput) (c1 c2 c3 : pcorner) : Prop := some_sharp I /\ snd c1 = SW /\ snd c2 = SW /\ snd c3 = SW.

Definition coef_of (v : list Q) (r : nat) : Q := nth r v 0%Q.
