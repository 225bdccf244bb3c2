(** Specification of the local refinement (C21). *)
From Verif Require Import Common TopoModel BaseModel IndexSpec TopoSpec SmoothSpec SmoothSpec2 RefModel.

(** the corner at the other end of the patch edge leaving [c] in direction [dim] *)
Definition opposite_in (dim : nat) (c : corner) : corner :=
  match dim with
  | 0 => corner_of (negb (cpar0 c)) (cpar1 c)
  | _ => corner_of (cpar0 c) (negb (cpar1 c))
  end.

(** degree and number of elements of patch p in direction dim *)
Definition dir_of (I : rfinput) (p dim : nat) (K : kdir) : Prop :=
  exists d, nth_error (rfdirs I) p = Some d /\ K = (match dim with 0 => fst d | _ => snd d end).

(** Corners that must be refined: those given, and all corners of a vertex at the far end of a
    patch edge all of whose elements are refined. *)
Inductive must_refine (I : rfinput) (nel : nat -> nat) (start : list (list pcorner)) : pcorner -> Prop :=
| mr_start l c : In l start -> In c l -> must_refine I nel start c
| mr_edge c dim K c' : must_refine I nel start c -> dim < 2 -> dir_of I (fst c) dim K -> knel K = nel (kdeg K) ->
    same_vertex (rftopo I) (fst c, opposite_in dim (snd c)) c' -> must_refine I nel start c'.

(** the box of a corner: [n0] x [n1] elements at the corner of a patch with [e0] x [e1] elements *)
Definition interval_at (upper : bool) (e n : Z) : Z * Z := if upper then (e - n, e)%Z else (0, n)%Z.
Definition box_at (c : corner) (e0 e1 n0 n1 : Z) : list Z :=
  let x := interval_at (cpar0 c) e0 n0 in
  let y := interval_at (cpar1 c) e1 n1 in
  [0; fst x; fst y; snd x; snd y]%Z.
Definition box_of (I : rfinput) (nel : nat -> nat) (c : pcorner) : list Z :=
  match nth_error (rfdirs I) (fst c) with
  | Some (K0, K1) => box_at (snd c) (Z.of_nat (knel K0)) (Z.of_nat (knel K1))
                       (Z.of_nat (nel (kdeg K0))) (Z.of_nat (nel (kdeg K1)))
  | None => []
  end.
(** a box lies inside a patch with e0 x e1 elements and is not empty *)
Definition box_inside (e0 e1 : Z) (b : list Z) : Prop :=
  exists l0 l1 u0 u1, b = [0; l0; l1; u0; u1]%Z /\ (0 <= l0 < u0 /\ u0 <= e0 /\ 0 <= l1 < u1 /\ u1 <= e1)%Z.

Record ref_input (I : rfinput) : Prop := {
  rf_topo : consistent (rftopo I);
  rf_np : tnp (rftopo I) = length (rfdirs I)
}.
(** enough elements at every corner that must be refined *)
Definition enough_elements (I : rfinput) (nel : nat -> nat) (start : list (list pcorner)) : Prop :=
  forall c dim K, must_refine I nel start c -> dim < 2 -> dir_of I (fst c) dim K -> nel (kdeg K) <= knel K.

(** special vertices of gsAlmostC1 *)
Definition special_vertex (t : topo) (C0s : list bool) (c : pcorner) : Prop :=
  fst c < tnp t /\ exists v, has_valence t c v /\
    ((interior_vertex t c /\ v <> 4) \/
     (~ interior_vertex t c /\ (2 < v \/ (v = 2 /\ nth_error C0s (vertIndex c) = Some true)))).
