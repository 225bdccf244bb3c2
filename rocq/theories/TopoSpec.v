(** Specification: which topologies are consistent. *)
From Verif Require Import Common TopoModel.
From Coq Require Export Permutation.

(** The two ends of every interface, in order. *)
Definition iface_sides (t : topo) : list pside :=
  flat_map (fun f => [if1 f; if2 f]) (tif t).

(** Every side of every patch occurs exactly once: either as one end of one
    interface or as one boundary. *)
Definition sides_partitioned (t : topo) : Prop :=
  Permutation (iface_sides t ++ tbd t) (all_sides (tnp t)).

(** No patch is glued to itself along two sides that share a corner (nor a side
    to itself): an interface joins different patches or opposite sides. *)
Definition no_adjacent_self_gluing (t : topo) : Prop :=
  forall f, In f (tif t) ->
    fst (if1 f) <> fst (if2 f)
    \/ (side_dir (snd (if1 f)) = side_dir (snd (if2 f)) /\ snd (if1 f) <> snd (if2 f)).

Definition consistent (t : topo) : Prop :=
  sides_partitioned t /\ no_adjacent_self_gluing t.
