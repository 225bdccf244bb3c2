(** What the property C69 says: the geometry exported by gsAlmostC1. *)
From Coq Require Import Reals Qreals.
From Verif Require Import Common TopoModel BaseModel IndexSpec TopoSpec SmoothSpec SmoothSpec2 RingModel RingSpec DpModel DpSpec PiSpec
  TriangleModel TriangleSpec AcModel AcSpec AcSpec2.
Open Scope nat_scope.

(** control point [k] of patch [p] *)
Definition point_at (P : list (list vec3)) (x : nat * nat) (u : vec3) : Prop :=
  exists cs, nth_error P (fst x) = Some cs /\ nth_error cs (snd x) = Some u.
(** one control point for every function *)
Definition fits (I : dinput) (P : list (list vec3)) : Prop := map (@length vec3) P = map rsize (ribases (dring I)).
Definition flat_points (P : list (list vec3)) : Prop := forall x u, point_at P x u -> vz u = 0%R.

(** Sum of the points [g k] with the weights [w k], k < n *)
Definition weighted (n : nat) (w : nat -> R) (g : nat -> vec3) : vec3 :=
  V3 (rsum n (fun k => w k * vx (g k)))%R (rsum n (fun k => w k * vy (g k)))%R (rsum n (fun k => w k * vz (g k)))%R.
Definition points (l : list vec3) (k : nat) : vec3 := nth k l vzero.

(** The row belongs to a special vertex. *)
Definition special_row (I : dinput) (R : dresult) (r : nat) : Prop :=
  exists c r0 r1 r2, special I c /\ vertex_rows I R c r0 r1 r2 /\ In r [r0; r1; r2].

(** The corner functions of special vertices refine into the functions around the vertices. *)
Definition corners_near (I : dinput) (F : refinedIn) (nf : nat) (cl : pcorner -> nat -> nat -> nat) : Prop :=
  forall c x, special I c -> x < nf -> ~ near_special I cl x -> rf_t F x (dcolumn I (fst c) (snd (corner_dof I c))) = 0%R.

(** The points around special vertices are those of the refined geometry with the control points [loc]. *)
Definition points_of (I : dinput) (F : refinedIn) (n : nat) (cl : pcorner -> nat -> nat -> nat) (pt : pcorner -> nat -> nat -> vec3)
    (loc : list vec3) : Prop :=
  length loc = n /\
  forall c a e, special I c -> a < 2 -> e < 2 -> pt c a e = weighted n (rf_t F (cl c a e)) (points loc).

(** Around the vertex the points lie in the plane of the projection. *)
Definition in_plane (I : dinput) (F : refinedIn) (pt : pcorner -> nat -> nat -> vec3) (c : pcorner) : Prop :=
  forall b f a e, same_vertex (ritopo (dring I)) c b -> projection I F b f -> a < 2 -> e < 2 -> f (pt c a e) = pt c a e.
