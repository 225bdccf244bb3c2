(** What an internal vertex is meant to be (C88). *)
From Verif Require Import Common SelectModel.

(** the two sides of a patch that meet at a corner (1 southwest, 2 southeast, 3 northwest, 4 northeast) *)
Definition sides_at (corner : nat) : nat * nat := match corner with 1 => (1, 3) | 2 => (2, 3) | 3 => (1, 4) | _ => (2, 4) end.
(** the sides around a vertex; [vi] are its corners in the patches around it *)
Fixpoint sides_from (i : nat) (vi : list nat) : list pside :=
  match vi with [] => [] | c :: r => mkPS i (fst (sides_at c)) :: mkPS i (snd (sides_at c)) :: sides_from (S i) r end.
Definition around (vi : list nat) : list pside := sides_from 0 vi.
Definition joined (ifs : list iface) (s : pside) : Prop := exists f, In f ifs /\ (s = first f \/ s = second f).
Definition ends (ifs : list iface) : list pside := flat_map (fun f => [first f; second f]) ifs.
(** every side around the vertex is on an interface *)
Definition internal (vi : list nat) (ifs : list iface) : Prop := forall s, In s (around vi) -> joined ifs s.
(** every side is on one interface at most *)
Definition topology_ok (ifs : list iface) : Prop := NoDup (ends ifs).
(** the patches around the vertex have no other interface with each other *)
Definition only_around (vi : list nat) (ifs : list iface) : Prop := forall s, In s (ends ifs) -> In s (around vi).
