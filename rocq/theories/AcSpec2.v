(** What the property C68 says: the special vertices of gsAlmostC1. *)
From Coq Require Import Reals.
From Verif Require Import Common TopoModel BaseModel BaseSpec2 IndexSpec TopoSpec SmoothSpec SmoothSpec2 RefSpec RingModel RingSpec DpModel DpSpec
  PiSpec TriangleModel TriangleSpec AcModel AcSpec.
Open Scope nat_scope.

Definition special (I : dinput) (c : pcorner) : Prop := special_vertex (ritopo (dring I)) (riC0 (dring I)) c.

(** the function at corner [c]; the function one step from corner [c] along side [s] *)
Definition corner_dof (I : dinput) (c : pcorner) : nat * nat := (fst c, rcorner (basis_at I (fst c)) (snd c)).
Definition edge_dof (I : dinput) (c : pcorner) (s : side) : nat * nat := (fst c, rifv (basis_at I (fst c)) 1 (snd c) s 0).
(** side [s] of corner [c] is an interface *)
Definition interface_edge (I : dinput) (c : pcorner) (s : side) : Prop :=
  touches (snd c) s /\ In (fst c, s) (iface_sides (ritopo (dring I))).

Definition has_row (R : dresult) (x : nat * nat) (r : nat) : Prop := cindex (drMap R) (snd x) (fst x) = Ok r /\ r < drRows R.

(** The rows of a special vertex: with three or more patches those of the three lowest corner functions; with two patches those of the two
    corner functions and of the lowest function next to them on the interface. *)
Inductive vertex_rows (I : dinput) (R : dresult) (c : pcorner) : nat -> nat -> nat -> Prop :=
| vr_many v b0 b1 b2 r0 r1 r2 : has_valence (ritopo (dring I)) c v -> 3 <= v ->
    same_vertex (ritopo (dring I)) c b0 -> same_vertex (ritopo (dring I)) c b1 -> same_vertex (ritopo (dring I)) c b2 ->
    lower (corner_dof I b0) (corner_dof I b1) -> lower (corner_dof I b1) (corner_dof I b2) ->
    (forall b, same_vertex (ritopo (dring I)) c b -> b = b0 \/ b = b1 \/ b = b2 \/ lower (corner_dof I b2) (corner_dof I b)) ->
    has_row R (corner_dof I b0) r0 -> has_row R (corner_dof I b1) r1 -> has_row R (corner_dof I b2) r2 ->
    vertex_rows I R c r0 r1 r2
| vr_two b0 b1 b s r0 r1 r2 : has_valence (ritopo (dring I)) c 2 -> b0 <> b1 ->
    same_vertex (ritopo (dring I)) c b0 -> same_vertex (ritopo (dring I)) c b1 ->
    same_vertex (ritopo (dring I)) c b -> interface_edge I b s ->
    (forall b' s', same_vertex (ritopo (dring I)) c b' -> interface_edge I b' s' ->
       edge_dof I b' s' = edge_dof I b s \/ lower (edge_dof I b s) (edge_dof I b' s')) ->
    has_row R (corner_dof I b0) r0 -> has_row R (corner_dof I b1) r1 -> has_row R (edge_dof I b s) r2 ->
    vertex_rows I R c r0 r1 r2.

(** the points do not all coincide with the vertex (on surfaces: in the plane of the mean normal) *)
Definition placed (I : dinput) (F : refinedIn) (pt : pcorner -> nat -> nat -> vec3) (b : pcorner) : Prop :=
  (rf_dim F = 2 /\ exists c a e, same_vertex (ritopo (dring I)) b c /\ a < 2 /\ e < 2 /\ dropz (pt c a e) <> dropz (rf_point F b)) \/
  (rf_dim F = 3 /\ (forall c, same_vertex (ritopo (dring I)) b c -> unit_vec (rf_normal F c)) /\
   forall l n, cornerList (ritopo (dring I)) b = Ok l -> mean_direction (map (rf_normal F) l) n ->
     exists c a e, same_vertex (ritopo (dring I)) b c /\ a < 2 /\ e < 2 /\ foot (rf_point F b) n (pt c a e) <> rf_point F b).

(** the projection to the plane in which the triangle lies *)
Definition projection (I : dinput) (F : refinedIn) (b : pcorner) (f : vec3 -> vec3) : Prop :=
  (rf_dim F = 2 /\ f = dropz) \/
  (rf_dim F = 3 /\ exists l n, cornerList (ritopo (dring I)) b = Ok l /\ mean_direction (map (rf_normal F) l) n /\ f = foot (rf_point F b) n).

(** Refined patches with [nf] functions: [cl c a e] is the column and [pt c a e] the control point of the function at distances [a], [e]
    from corner [c]. *)
Record refined_ok (I : dinput) (F : refinedIn) (nf : nat) (cl : pcorner -> nat -> nat -> nat) (pt : pcorner -> nat -> nat -> vec3) : Prop := {
  ro_col : forall c a e, special I c -> a < 2 -> e < 2 ->
    exists i, rf_ix F a c (cside (snd c) 0) e = Ok i /\ rf_col F i (fst c) = Ok (cl c a e) /\ rf_coef F (fst c) i = pt c a e;
  ro_lt : forall c a e, special I c -> a < 2 -> e < 2 -> cl c a e < nf;
  ro_inj : forall c a e c' a' e', special I c -> special I c' -> a < 2 -> e < 2 -> a' < 2 -> e' < 2 ->
    cl c a e = cl c' a' e' -> c = c' /\ a = a' /\ e = e';
  ro_placed : forall c, special I c -> placed I F pt c
}.

(** columns next to a special vertex *)
Definition near_special (I : dinput) (cl : pcorner -> nat -> nat -> nat) (x : nat) : Prop :=
  exists c a e, special I c /\ a < 2 /\ e < 2 /\ x = cl c a e.

(** Coefficients are determined by their refinement outside these columns, except those of corner functions of special vertices. *)
Definition determined (I : dinput) (F : refinedIn) (nf : nat) (cl : pcorner -> nat -> nat -> nat) (n : nat) : Prop :=
  forall g : nat -> R, (forall x, x < nf -> ~ near_special I cl x -> rsum n (fun k => g k * rf_t F x k)%R = 0%R) ->
    forall p k, p < length (ribases (dring I)) -> k < rsize (basis_at I p) -> (forall c, special I c -> (p, k) <> corner_dof I c) ->
      g (dcolumn I p k) = 0%R.

(** The points around the vertex are not all on a line after the projection. *)
Definition spread (I : dinput) (F : refinedIn) (pt : pcorner -> nat -> nat -> vec3) (c : pcorner) : Prop :=
  forall b f, same_vertex (ritopo (dring I)) c b -> projection I F b f ->
    exists c0 a0 e0 c1 a1 e1 c2 a2 e2,
      same_vertex (ritopo (dring I)) c c0 /\ a0 < 2 /\ e0 < 2 /\ same_vertex (ritopo (dring I)) c c1 /\ a1 < 2 /\ e1 < 2 /\
      same_vertex (ritopo (dring I)) c c2 /\ a2 < 2 /\ e2 < 2 /\
      vcross (vsub (f (pt c1 a1 e1)) (f (pt c0 a0 e0))) (vsub (f (pt c2 a2 e2)) (f (pt c0 a0 e0))) <> vzero.

(** the control point of column [x] *)
Definition fcontrol (n : nat) (A : nat -> nat -> R) (coef : nat -> R) (x : nat) : R := rsum n (fun r => coef r * A r x)%R.
