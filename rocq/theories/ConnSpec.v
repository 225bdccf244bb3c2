(** What the property C37 says: edges of the control mesh. *)
From Coq Require Export Sorted.
From Verif Require Import Common TopoModel MapModel MapSpec.
Open Scope Z_scope.

(** local function [l] is the one at grid position (i,j) of patch [p] *)
Definition placed (bs : list mbase) (l : Z) (p : nat) (i j : Z) : Prop :=
  exists b, nth_error bs p = Some b /\ 0 <= i < mb_u b /\ 0 <= j < mb_v b /\ l = before bs p + i + mb_u b * j.

(** two local functions are neighbours: same patch, one step apart in one direction *)
Definition neighbours (bs : list mbase) (a b : Z) : Prop :=
  exists p i j i' j', placed bs a p i j /\ placed bs b p i' j' /\
    ((i = i' /\ (j' = j + 1 \/ j = j' + 1)) \/ (j = j' /\ (i' = i + 1 \/ i = i' + 1))).

(** the local functions of a function of the basis: ascending numbers of existing functions, at least one *)
Definition locals_ok (bs : list mbase) (l : list Z) : Prop :=
  l <> [] /\ StronglySorted Z.lt l /\ forall x, In x l -> 0 <= x < before bs (length bs).

(** one shares all its local functions but one with the other *)
Definition shares_all_but_one (l l' : list Z) : Prop :=
  exists x, In x l /\ ~ In x l' /\ forall y, In y l -> y <> x -> In y l'.
(** every local function of [l] has a neighbour in [l'] *)
Definition covered (bs : list mbase) (l l' : list Z) : Prop :=
  forall x, In x l -> exists y, In y l' /\ neighbours bs x y.

(** Two functions are joined: single functions when they are neighbours; a single function and a combined one when it is a
    neighbour of one of its local functions; two combined ones when one shares all its local functions but one, or they
    share nothing and all of one have neighbours in the other. *)
Definition joined (bs : list mbase) (l l' : list Z) : Prop :=
  match l, l' with
  | [x], _ => exists y, In y l' /\ neighbours bs x y
  | _, [y] => exists x, In x l /\ neighbours bs y x
  | _, _ => shares_all_but_one l l' \/ shares_all_but_one l' l \/
            ((forall x, In x l -> ~ In x l') /\ (covered bs l l' \/ covered bs l' l))
  end.
