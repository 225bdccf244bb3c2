(** What the properties C34, C35, C36, C39, C52, C53 say. *)
From Verif Require Import Common TopoModel TopoSpec IndexSpec SmoothSpec SmoothSpec2 VertexModel.

(** *** Weights *)

(** the side belongs to an interface *)
Definition interface_side (t : topo) (ps : pside) : Prop := exists f, In f (tif t) /\ (if1 f = ps \/ if2 f = ps).
(** [x] is the value set last for [ps] in a history *)
Definition latest (h : list (pside * Q)) (ps : pside) (x : Q) : Prop :=
  exists h1 h2, h = h1 ++ (ps, x) :: h2 /\ ~ In ps (map fst h2).

(** *** Distances *)

(** wanted number of merely continuous functions at one end of an interface: the distance at a special vertex, the degree
    at a regular vertex between interfaces, nothing at the boundary *)
Definition wanted (special inter : bool) (dist degree : nat) : nat :=
  if special then dist else if inter then degree else 0.

(** knot values without repetition, ascending *)
Definition breakpoints (k u : list Z) : Prop :=
  (forall x, In x u <-> In x k) /\ forall i j x y, i < j -> nth_error u i = Some x -> nth_error u j = Some y -> (x < y)%Z.

(** knots that do not descend *)
Definition ascending (k : list Z) : Prop := forall i j x y, i <= j -> nth_error k i = Some x -> nth_error k j = Some y -> (x <= y)%Z.

(** parameter of a knot seen from one end of [a,b]: distance from that end, counted from a *)
Definition seen_from (upper : bool) (a b x : Z) : Z := if upper then (a + b - x)%Z else x.

(** the knots along the two sides of an interface are the same, in the order given by the orientation; so are the degrees *)
Definition knots_match (B : list vbase) (f : iface) : Prop :=
  exists b b', nth_error B (fst (if1 f)) = Some b /\ nth_error B (fst (if2 f)) = Some b' /\
    let k := knots b (1 - side_dir (snd (if1 f))) in let k' := knots b' (1 - side_dir (snd (if2 f))) in
    degree b (1 - side_dir (snd (if1 f))) = degree b' (1 - side_dir (snd (if2 f))) /\
    length k = length k' /\
    forall i x, nth_error k i = Some x ->
      if ifflip f then nth_error k' (length k - 1 - i) = Some (hd 0%Z k + last k 0%Z - x)%Z else nth_error k' i = Some x.

(** all corners of a vertex are treated alike *)
Definition vertex_wise (S : vstate) : Prop := forall c c', same_vertex (vT S) c c' ->
  isSpecialVertex (vVert S) c = isSpecialVertex (vVert S) c' /\ (In c (map fst (vVert S)) <-> In c' (map fst (vVert S))).

(** an open knot vector on [0,b] with simple interior knots [mid] and degree [p] *)
Definition simple_open (p : nat) (b : Z) (mid k : list Z) : Prop :=
  k = repeat 0%Z (p + 1) ++ mid ++ repeat b (p + 1) /\ breakpoints (0%Z :: mid ++ [b]) (0%Z :: mid ++ [b]).

(** the end of the first side of an interface, and the corner of the second side glued to it *)
Definition end1 (f : iface) (upper : bool) : pcorner := (fst (if1 f), corner_at (snd (if1 f)) upper).
Definition end2 (f : iface) (upper : bool) : pcorner := (fst (if2 f), corner_at (snd (if2 f)) (xorb (ifflip f) upper)).

(** the records are those made by the constructor: one per interface, in order, with the two ends of the first side *)
Definition records_of (S : vstate) : Prop :=
  map dIf (vDist S) = tif (vT S) /\ forall d, In d (vDist S) -> dC1 d = end1 (dIf d) false /\ dC2 d = end1 (dIf d) true.

(** every patch exists and has more than [n] different knots in both directions, in ascending order *)
Definition enough_knots (t : topo) (B : list vbase) (n : nat) : Prop :=
  forall p, p < tnp t -> exists b, nth_error B p = Some b /\
    forall dir, ascending (knots b dir) /\ exists u, breakpoints (knots b dir) u /\ n < length u.

(** all patches have open knot vectors on [0,L] with simple interior knots; at least [n] spans *)
Definition simple_bases (t : topo) (B : list vbase) (n : nat) : Prop :=
  forall p, p < tnp t -> exists b, nth_error B p = Some b /\
    forall dir, exists L mid, simple_open (degree b dir) L mid (knots b dir) /\ n <= length mid + 1.

(** the knots are symmetric about the middle *)
Definition symmetric (k : list Z) : Prop := forall i x, nth_error k i = Some x -> nth_error k (length k - 1 - i) = Some (hd 0%Z k + last k 0%Z - x)%Z.
