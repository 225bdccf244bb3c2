(** Vocabulary of elementary geometry for C19 and C20. *)
From Coq Require Import Reals List.
From Verif Require Import Common TriangleModel PiSpec.
Import ListNotations.
Open Scope R_scope.

Definition unit_vec (a : vec3) : Prop := vdot a a = 1.
Definition vopp (a : vec3) : vec3 := V3 (- vx a) (- vy a) (- vz a).
(** lengths and angles are kept *)
Definition isometry (M : mat3) : Prop := forall x y, vdot (mapply M x) (mapply M y) = vdot x y.
Definition is_rotation (M : mat3) : Prop := isometry M /\ mdet M = 1.

(** barycentric coordinates: non-negative with sum one *)
Definition convex_weights (l : vec3) : Prop :=
  0 <= vx l /\ 0 <= vy l /\ 0 <= vz l /\ vx l + vy l + vz l = 1.
Definition combination (c0 c1 c2 l : vec3) : vec3 :=
  vadd (vscale (vx l) c0) (vadd (vscale (vy l) c1) (vscale (vz l) c2)).
(** foot of the perpendicular from p to the plane through m with unit normal n *)
Definition foot (m n p : vec3) : vec3 := vsub p (vscale (vdot (vsub p m) n) n).

(** the common normal used at a vertex: the direction of the sum of the patches' unit normals,
    or the first of them if they cancel *)
Definition vsum (l : list vec3) : vec3 := fold_right vadd vzero l.
Definition mean_direction (normals : list vec3) (n : vec3) : Prop :=
  unit_vec n /\
  ((exists s, 0 < s /\ vscale s n = vsum normals) \/ (vsum normals = vzero /\ hd_error normals = Some n)).
