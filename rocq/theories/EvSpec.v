(** What the property C64 says. *)
From Coq Require Import Reals.
From Verif Require Import Common TopoModel TopoSpec PiModel PiSpec EvModel.
Open Scope nat_scope.

(** Corner [c] of side [s] and corner [c'] of side [s'] are identified by an interface between these sides. *)
Definition across (t : topo) (c : pcorner) (s : side) (c' : pcorner) (s' : side) : Prop :=
  exists f u, In f (tif t) /\ snd c = corner_at s (xorb (ifflip f) u) /\ snd c' = corner_at s' u /\
    ((if1 f = (fst c, s) /\ if2 f = (fst c', s')) \/ (if2 f = (fst c, s) /\ if1 f = (fst c', s'))).

(** the other side at a corner *)
Definition otherSideAt (c : pcorner) (s : side) : side := cside (snd c) (1 - side_dir s).

(** A walk around the vertex: corners with the side through which they are left; the last one leads to the first one. *)
Definition ring (t : topo) (l : list pcorner) (cs : list (pcorner * side)) : Prop :=
  Permutation (map fst cs) l /\
  forall i x, nth_error cs i = Some x -> on_side (snd (fst x)) (snd x) = true /\
    exists y s', nth_error cs ((i + 1) mod length cs) = Some y /\ across t (fst x) (snd x) (fst y) s' /\ snd y = otherSideAt (fst y) s'.

(** The functions near a corner: at distance at most 3 in one and at most 1 in the other direction *)
Definition near (a b : nat) : Prop := a <= 3 /\ b <= 3 /\ (a <= 1 \/ b <= 1).
(** [k] functions along side [s] from corner [c], [o] functions away from the side *)
Definition along {A} (f : pcorner -> nat -> nat -> A) (c : pcorner) (s : side) (k o : nat) : A :=
  match side_dir s with 0 => f c o k | _ => f c k o end.

(** [cl c a b]: column of the function at distances [a], [b] from corner [c] in the refined basis; [rw]: row of that function of
    the unrefined basis *)
Record numbering (I : evin) (evs : list (list pcorner)) (cl rw : pcorner -> nat -> nat -> nat) : Prop := {
  nb_col : forall l c s k o, In l evs -> In c l -> on_side (snd c) s = true -> k <= 3 -> o <= 1 ->
    exists x, ev_ix I k c s o = Ok x /\ ev_mo I x (fst c) = Ok (along cl c s k o);
  nb_row : forall l c s k, In l evs -> In c l -> on_side (snd c) s = true -> k = 1 \/ k = 2 ->
    exists x, ev_ix0 I k c s 1 = Ok x /\ ev_mm I x (fst c) = Ok (along rw c s k 1);
  nb_inj : forall c c' a b a' b', In c (concat evs) -> In c' (concat evs) -> near a b -> near a' b' -> cl c a b = cl c' a' b' -> c = c' /\ a = a' /\ b = b' }.

(** inner vertices, each once, that no patch meets twice *)
Record vertices (t : topo) (evs : list (list pcorner)) : Prop := {
  vt_top : consistent t;
  vt_vertex : forall l, In l evs -> exists c, fst c < tnp t /\ cornerList t c = Ok l /\ vertex_inner t l = true;
  vt_patches : forall l, In l evs -> NoDup (map fst l);
  vt_once : NoDup (concat evs) }.

(** the functions to be changed at a vertex *)
Definition involved (rw : pcorner -> nat -> nat -> nat) (l : list pcorner) (r : nat) : Prop :=
  exists c, In c l /\ (r = rw c 1 1 \/ r = rw c 1 2 \/ r = rw c 2 1).

(** values on both sides of an interface at a vertex: the coefficients on the interface are averages *)
Definition averaged (t : topo) (cl : pcorner -> nat -> nat -> nat) (l : list pcorner) (A : matrix) (r k : nat) : Prop :=
  forall c s c' s', In c l -> across t c s c' s' ->
    A r (along cl c s k 0) = (/ 2 * (A r (along cl c s k 1%nat) + A r (along cl c' s' k 1%nat)))%R.

(** The other functions vanish near the vertex and are smooth across the interfaces a bit further away. *)
Definition others_ok (t : topo) (cl rw : pcorner -> nat -> nat -> nat) (l : list pcorner) (B : matrix) : Prop :=
  forall r, ~ involved rw l r ->
    (forall c a b, In c l -> a + b <= 3 -> a <= 2 -> b <= 2 -> 1 <= a * b \/ a + b <= 1 -> B r (cl c a b) = 0%R) /\
    forall k, k = 2 \/ k = 3 -> averaged t cl l B r k.

(** column [x] of the projection: the functions 11 of all corners, then those next to the side of arrival, then to the side of departure *)
Definition starCol (cl : pcorner -> nat -> nat -> nat) (cs : list (pcorner * side)) (x : nat) : nat :=
  let N := length cs in
  match nth_error cs (x mod N) with
  | Some (c, s) => match x / N with 0 => cl c 1 1 | 1 => along cl c (otherSideAt c s) 2 1 | _ => along cl c s 2 1 end
  | None => 0
  end.

(** The coefficients of function [r] at a vertex: one point with a planar star around it. *)
Definition dpatch_at (t : topo) (cl : pcorner -> nat -> nat -> nat) (Beta : R) (RefLevel : nat) (cs : list (pcorner * side)) (A : matrix) (r : nat) : Prop :=
  exists m a d : R, forall i c s c' s', nth_error cs i = Some (c, s) -> across t c s c' s' ->
    let phi := (2 * PI / INR (length cs))%R in
    let t1 := (INR (S i) * phi)%R in
    let t2 := (t1 - 2 * atan (Beta * (1 / 2) ^ RefLevel * sin phi))%R in
    A r (cl c 0 0) = m /\ A r (cl c 1 0) = m /\ A r (cl c 0 1) = m /\ A r (cl c 1 1) = m /\
    A r (along cl c s 2 1) = (m + a * cos t2 + d * sin t2)%R /\ A r (along cl c' s' 2 1) = (m + a * cos t1 + d * sin t1)%R /\
    forall k, k = 2 \/ k = 3 ->
      A r (along cl c s k 0) = (/ 2 * (A r (along cl c s k 1%nat) + A r (along cl c' s' k 1%nat)))%R /\
      A r (along cl c' s' k 0) = (/ 2 * (A r (along cl c s k 1%nat) + A r (along cl c' s' k 1%nat)))%R.

(** a column near one of the vertices, except those that are only read *)
Definition written (evs : list (list pcorner)) (cl : pcorner -> nat -> nat -> nat) (x : nat) : Prop :=
  exists c a b, In c (concat evs) /\ near a b /\ ~ (a = 3 /\ b = 1) /\ ~ (a = 1 /\ b = 3) /\ x = cl c a b.

(** the sum of all functions *)
Definition colSum (n : nat) (A : matrix) (c : nat) : R := rsum n (fun r => A r c).

(** Knot insertion near a corner: [tau a a'] is the coefficient of function [a] after the refinement that comes from function [a'] before
    it, counted from the end of the knot vector; the same in all directions and patches *)
Record insertion (tau : nat -> nat -> R) : Prop := {
  in_first : tau 0 0 = 1%R;
  in_rows : forall a, a <= 3 -> rsum (S a) (tau a) = 1%R }.
(** [oc c a b]: column of the function at distances [a], [b] from the corner before the refinement *)
Definition transfer (n : nat) (T : matrix) (evs : list (list pcorner)) (cl oc : pcorner -> nat -> nat -> nat) (tau : nat -> nat -> R) : Prop :=
  forall c a b, In c (concat evs) -> near a b -> forall f : nat -> R,
    rsum n (fun k => f k * T (cl c a b) k)%R = rsum (S a) (fun a' => rsum (S b) (fun b' => tau a a' * tau b b' * f (oc c a' b'))%R).
