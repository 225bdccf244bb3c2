(** What the property C60 says. *)
From Coq Require Import Reals.
From Verif Require Import Common SelectModel.
Open Scope R_scope.

(** the sides in an interface *)
Definition sides (f : iface) : list pside := [first f; second f].
(** Every side belongs to at most one interface. *)
Definition sides_once (ifs : list iface) : Prop := NoDup (concat (map sides ifs)).
(** [k] is a side at the vertex: the patches are reparametrised such that the vertex is the corner with the sides 1 and 3 *)
Definition at_vertex (k : nat) : Prop := k = 1%nat \/ k = 3%nat.
(** An interface with a side at the vertex joins the west side of the patch on its right with the south side of the patch on its
    left. *)
Definition joins (f : iface) (right left : nat) : Prop :=
  (first f = mkPS right 1 /\ second f = mkPS left 3) \/ (first f = mkPS left 3 /\ second f = mkPS right 1).
Definition oriented (ifs : list iface) : Prop :=
  forall f, In f ifs -> at_vertex (psindex (first f)) \/ at_vertex (psindex (second f)) -> exists r l, joins f r l.
(** all interfaces are at the vertex *)
Definition all_at_vertex (ifs : list iface) : Prop := forall f, In f ifs -> at_vertex (psindex (first f)) \/ at_vertex (psindex (second f)).

(** side [k] of patch [i] belongs to an interface *)
Definition inner_side (ifs : list iface) (i k : nat) : Prop := exists f, In f ifs /\ In (mkPS i k) (sides f).
(** the vertex is inside the domain: no side at the vertex is on the boundary *)
Definition inner_vertex (n : nat) (ifs : list iface) : Prop := forall i, (i < n)%nat -> inner_side ifs i 1 /\ inner_side ifs i 3.
Definition valid_patches (n : nat) (ifs : list iface) : Prop := forall f s, In f ifs -> In s (sides f) -> (pspatch s < n)%nat.

(** column [c] of [m] contains the two coefficients of alpha and the two of beta *)
Definition column (m : gmat) (c : nat) (a0 a1 b0 b1 : R) : Prop :=
  m 0%nat c = Some a0 /\ m 1%nat c = Some a1 /\ m 2%nat c = Some b0 /\ m 3%nat c = Some b1.

(** The matrix of patch [i]: column 0 belongs to its south edge, column 1 to its west edge. At an interface the data are those of
    the interface, as the left patch (column 0) or the right one (column 1); at the boundary they are 1 and 0. *)
Definition data_of (ifs : list iface) (gds : nat -> nat -> (nat -> R) * (nat -> R)) (i : nat) (m : gmat) : Prop :=
  (forall f r, In f ifs -> joins f r i -> let '(sol, solB) := gds r i in column m 0 (sol 2%nat) (sol 3%nat) (solB 2%nat) (solB 3%nat)) /\
  (forall f l, In f ifs -> joins f i l -> let '(sol, solB) := gds i l in column m 1 (sol 0%nat) (sol 1%nat) (solB 0%nat) (solB 1%nat)) /\
  (~ inner_side ifs i 3 -> column m 0 1 1 0 0) /\ (~ inner_side ifs i 1 -> column m 1 1 1 0 0).
(** no patch is joined with itself *)
Definition two_patches (ifs : list iface) : Prop := forall f, In f ifs -> pspatch (first f) <> pspatch (second f).
