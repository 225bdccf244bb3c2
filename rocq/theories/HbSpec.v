(** What the property C74 says: repairing the patches of a hierarchical basis. *)
From Coq Require Import Sorting.Sorted.
From Verif Require Import Common TopoModel TopoSpec HbModel.

(** Element (i,j) of level [M] lies in the box [b] of a lower level. *)
Definition in_box (M : nat) (b : hbox) (i j : nat) : Prop :=
  bl b <= M /\ bu0 b <= i / 2 ^ (M - bl b) < bu1 b /\ bv0 b <= j / 2 ^ (M - bl b) < bv1 b.
(** All levels of the basis are at most [M]. *)
Definition below (h : hbasis) (M : nat) : Prop := forall b, In b (hboxes h) -> bl b <= M.
(** Element (i,j) of level [M] is refined to level [l] or further. *)
Definition refined (h : hbasis) (l M i j : nat) : Prop := exists b, In b (hboxes h) /\ l <= bl b /\ in_box M b i j.
Definition all_refined (h : hbasis) (l : nat) (b : hbox) : Prop := forall M i j, below h M -> in_box M b i j -> refined h l M i j.

(** support of function (a,c) of level [l]: from the [p]-th element before to element number a *)
Definition support (h : hbasis) (l a c : nat) : hbox :=
  mkBox l (a - hpu h) (c - hpv h) (Nat.min (hnu h * 2 ^ l) (a + 1)) (Nat.min (hnv h * 2 ^ l) (c + 1)).
(** The function is in the refined region; it is active if it is not replaced by functions of the next level. *)
Definition present (h : hbasis) (l a c : nat) : Prop := all_refined h l (support h l a c).
Definition active_fun (h : hbasis) (l a c : nat) : Prop := present h l a c /\ ~ all_refined h (S l) (support h l a c).

(** functions of level [l] on side [s] *)
Definition side_count (h : hbasis) (l : nat) (s : side) : nat :=
  match s with West | East => hnv h * 2 ^ l + hpv h | _ => hnu h * 2 ^ l + hpu h end.
Definition on_side_fun (P : hbasis -> nat -> nat -> nat -> Prop) (h : hbasis) (l : nat) (s : side) (k : nat) : Prop :=
  match s with
  | West => P h l 0 k | East => P h l (hnu h * 2 ^ l + hpu h - 1) k
  | South => P h l k 0 | North => P h l k (hnv h * 2 ^ l + hpv h - 1)
  end.

Definition nobasis : hbasis := mkHB 0 0 0 0 [].
Definition opposite (fl : bool) (n k : nat) : nat := if fl then n - 1 - k else k.
(** Functions of level 1 or more that are active on side [s] of [h] are present on side [s'] of [h']. *)
Definition within (h : hbasis) (s : side) (h' : hbasis) (s' : side) (fl : bool) : Prop :=
  forall l k, 1 <= l -> k < side_count h l s -> on_side_fun active_fun h l s k -> on_side_fun present h' l s' (opposite fl (side_count h l s) k).
(** The same functions are active on both sides. *)
Definition same_active (h : hbasis) (s : side) (h' : hbasis) (s' : side) (fl : bool) : Prop :=
  forall l k, 1 <= l -> k < side_count h l s -> (on_side_fun active_fun h l s k <-> on_side_fun active_fun h' l s' (opposite fl (side_count h l s) k)).
Definition at_iface {A} (F : hbasis -> side -> hbasis -> side -> bool -> A) (bs : list hbasis) (f : iface) : A :=
  F (nth (fst (if1 f)) bs nobasis) (snd (if1 f)) (nth (fst (if2 f)) bs nobasis) (snd (if2 f)) (ifflip f).
Definition matched (t : topo) (bs : list hbasis) : Prop := forall f, In f (tif t) -> at_iface same_active bs f.
(** one of the two patches has all functions of the other *)
Definition ordered (h : hbasis) (s : side) (h' : hbasis) (s' : side) (fl : bool) : Prop := within h s h' s' fl \/ within h' s' h s fl.

(** Element [k] of level [l] along side [s], [d] elements away from the side *)
Definition side_elem (h : hbasis) (l : nat) (s : side) (k d : nat) : hbox :=
  match s with
  | West => mkBox l d k (d + 1) (k + 1) | East => mkBox l (hnu h * 2 ^ l - 1 - d) k (hnu h * 2 ^ l - d) (k + 1)
  | South => mkBox l k d (k + 1) (d + 1) | North => mkBox l k (hnv h * 2 ^ l - 1 - d) (k + 1) (hnv h * 2 ^ l - d)
  end.
Definition depth (h : hbasis) (incr : nat) (s : side) : nat := 2 * Nat.min (match s with West | East => hpu h | _ => hpv h end) (incr + 1).
Definition elem_count (h : hbasis) (l : nat) (s : side) : nat := match s with West | East => hnv h * 2 ^ l | _ => hnu h * 2 ^ l end.
(** Elements at an interface that are refined to level [l] are so up to the given distance. *)
Definition suitable (t : topo) (incr p : nat) (h : hbasis) : Prop :=
  forall s l k d, isInterface t (p, s) = true -> 1 <= l -> k < elem_count h l s -> d < depth h incr s ->
    all_refined h l (side_elem h l s k 0) -> (forall M i j, below h M -> in_box M (side_elem h l s k 0) i j -> ~ refined h (S l) M i j) ->
    all_refined h l (side_elem h l s k d).

(** inputs: degrees at least 1, at least as many elements at level 1 as the distances, and the same numbers along interfaces *)
Record hb_input (t : topo) (incr : nat) (bs : list hbasis) : Prop := {
  hi_topo : consistent t;
  hi_np : tnp t = length bs;
  hi_degree : forall h, In h bs -> 1 <= hpu h /\ 1 <= hpv h;
  hi_size : forall h, In h bs -> 2 * Nat.min (hpu h) (incr + 1) <= 2 * hnu h /\ 2 * Nat.min (hpv h) (incr + 1) <= 2 * hnv h;
  hi_match : forall f, In f (tif t) -> at_iface (fun h s h' s' _ => forall l, side_count h l s = side_count h' l s') bs f }.

(** the maximal runs in a list of flags, from left to right *)
Definition is_run (r : list bool) (a b : nat) : Prop :=
  a <= b < length r /\ (forall i, a <= i <= b -> nth i r false = true) /\ (a = 0 \/ nth (a - 1) r false = false) /\ nth (b + 1) r false = false.
Definition the_runs (r : list bool) (R : list (nat * nat)) : Prop :=
  (forall a b, In (a, b) R <-> is_run r a b) /\ StronglySorted (fun x y => snd x < fst y) R.

(** [n] rounds of the loop of repairPatches, each with a patch still to be checked *)
Fixpoint after_rounds (n : nat) (t : topo) (incr : nat) (x : list hbasis * list nat) : res (list hbasis * list nat) :=
  match n with
  | 0 => Ok x
  | S n => match snd x with [] => Err | p :: todo => do y <- repairRound t incr (fst x) p todo; after_rounds n t incr y end
  end.

(** Function [k] along side [s] is active in the neighbour only. *)
Definition missing (h : hbasis) (s : side) (n : hbasis) (sn : side) (fl : bool) (l k : nat) : Prop :=
  k < side_count h l s /\ on_side_fun active_fun n l sn (opposite fl (side_count h l s) k) /\ ~ on_side_fun active_fun h l s k.
(** support of function [k] along side [s] in row [d] from that side *)
Definition row_support (h : hbasis) (l : nat) (s : side) (k d : nat) : hbox :=
  match s with
  | West => support h l d k | East => support h l (hnu h * 2 ^ l + hpu h - 1 - d) k
  | South => support h l k d | North => support h l k (hnv h * 2 ^ l + hpv h - 1 - d)
  end.
(** the interface [f] joins side [s] of patch [p] with side [s'] of patch [q] *)
Definition joins (f : iface) (p : nat) (s : side) (q : nat) (s' : side) : Prop :=
  (if1 f = (p, s) /\ if2 f = (q, s')) \/ (if2 f = (p, s) /\ if1 f = (q, s')).

Definition facing (s : side) : side := match s with West => East | East => West | South => North | North => South end.
Definition start_side (s : side) : side := match s with West | East => South | _ => West end.
Definition end_side (s : side) : side := match s with West | East => North | _ => East end.
(** Adding function [k] along side [s] may change side [z]. *)
Definition touches (h : hbasis) (incr l : nat) (s : side) (k : nat) (z : side) : Prop :=
  (z = facing s /\ side_count h l (start_side s) <= depth h incr s + 1) \/ (z = start_side s /\ k = 0) \/ (z = end_side s /\ side_count h l s <= k + 2).

(** One level of one side refines cell (i,j) of level [M] to level [l0] or more, if the supports of missing functions and of the rows behind them do. *)
Definition new_cover (h n : hbasis) (incr : nat) (s sn : side) (fl : bool) (l l0 M i j : nat) : Prop :=
  l0 <= l /\ exists k d, missing h s n sn fl l k /\ d < depth h incr s /\ in_box M (row_support h l s k d) i j.
(** Side [z] of the patch has to be checked again: there the patch has more than the neighbour, or an added function may change the side. *)
Definition new_flag (h n : hbasis) (incr : nat) (s sn : side) (fl : bool) (l : nat) (z : side) : Prop :=
  (z = s /\ exists k, k < side_count h l s /\ on_side_fun active_fun h l s k /\ ~ on_side_fun active_fun n l sn (opposite fl (side_count h l s) k)) \/
  (exists k, missing h s n sn fl l k /\ touches h incr l s k z).
Definition all_cover (t : topo) (incr : nat) (bs : list hbasis) (p : nat) (h : hbasis) (l0 M i j : nat) : Prop :=
  exists s f q s' l, In f (tif t) /\ joins f p s q s' /\ 1 <= l /\ new_cover h (nth q bs nobasis) incr s s' (ifflip f) l l0 M i j.
Definition all_flag (t : topo) (incr : nat) (bs : list hbasis) (p : nat) (h : hbasis) (z : side) : Prop :=
  exists s f q s' l, In f (tif t) /\ joins f p s q s' /\ 1 <= l /\ new_flag h (nth q bs nobasis) incr s s' (ifflip f) l z.
(** Element [k] along side [s] is an element of level [l] that is not refined further. *)
Definition leaf_at (h : hbasis) (l : nat) (s : side) (k : nat) : Prop :=
  all_refined h l (side_elem h l s k 0) /\ (forall M i j, below h M -> in_box M (side_elem h l s k 0) i j -> ~ refined h (S l) M i j).
(** The inner boxes refine the elements behind such an element. *)
Definition inner_cover (h : hbasis) (incr : nat) (t : topo) (p l0 M x y : nat) : Prop :=
  exists s l k d, isInterface t (p, s) = true /\ 1 <= l /\ l0 <= l /\ k < elem_count h l s /\ d < depth h incr s /\ leaf_at h l s k /\ in_box M (side_elem h l s k d) x y.
