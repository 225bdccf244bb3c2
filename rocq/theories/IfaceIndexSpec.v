(** What it means to lie on an interface at a given distance from a vertex (C51). *)
From Verif Require Import Common TopoModel BaseModel IndexSpec TopoSpec.

(** [x] = (patch, function) lies on the outermost row of an interface side [s] of the
    corner [pc], [depth] steps away from the corner. *)
Definition at_depth (I : input) (depth : nat) (pc : pcorner) (x : nat * nat) : Prop :=
  exists s n0 n1 i j, fst x = fst pc /\ touches (snd pc) s /\ ~ In (fst pc, s) (tbd (itopo I)) /\ nth_error (ibases I) (fst pc) = Some (n0, n1) /\
    snd x = i + n0 * j /\ i < n0 /\ j < n1 /\ rows_inward s n0 n1 i j = 0 /\ steps_along s (snd pc) n0 n1 i j = depth.
