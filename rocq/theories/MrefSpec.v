(** What the properties C71 and C72 say. *)
From Verif Require Import Common TopoModel TopoSpec VertexModel VertexSpec RepairSpec SplineModel BoehmSpec MrefModel.
Open Scope nat_scope.

(** two neighbouring knots with [a < b] *)
Definition span_of (k : list Z) (a b : Z) : Prop := exists i, nth_error k i = Some a /\ nth_error k (S i) = Some b /\ (a < b)%Z.
Definition midpoint (k : list Z) (x : Z) : Prop := exists a b, span_of k a b /\ (a + b = 2 * x)%Z.
(** [x] is one of [n] points that divide a span into equal parts *)
Definition division (n : nat) (k : list Z) (x : Z) : Prop :=
  exists a b j, span_of k a b /\ 1 <= j <= n /\ (Z.of_nat (n + 1) * (x - a) = Z.of_nat j * (b - a))%Z.
(** all spans can be divided into [n] parts *)
Definition divisible (n : nat) (k : list Z) : Prop := forall a b, span_of k a b -> (Z.of_nat n | b - a)%Z.

Definition in_range (dir : nat) (x : Z) (X : box) : Prop :=
  match dir with 0 => (bLo0 X < x < bHi0 X)%Z | _ => (bLo1 X < x < bHi1 X)%Z end.
(** no midpoint lies in the ranges of two boxes *)
Definition apart (b : vbase) (boxes : list box) : Prop :=
  forall dir x i j X Y, dir < 2 -> midpoint (knots b dir) x -> nth_error boxes i = Some X -> nth_error boxes j = Some Y ->
    in_range dir x X -> in_range dir x Y -> i = j.

(** The knots after a refinement of patch [P]: the given ones, the midpoints inside the boxes, and what is carried over interfaces. *)
Inductive refined (t : topo) (L : nat -> nat -> Z) (B : list vbase) (P : nat) (boxes : list box) : nat -> nat -> Z -> Prop :=
| ref_own p dir x : has_knot B p dir x -> refined t L B P boxes p dir x
| ref_mid b X dir x : nth_error B P = Some b -> midpoint (knots b dir) x -> In X boxes -> in_range dir x X -> refined t L B P boxes P dir x
| ref_step p s q s' fl x : joined_sides t p s q s' fl -> refined t L B P boxes p (along s) x ->
    refined t L B P boxes q (along s') (if fl then L p (along s) - x else x)%Z.

(** ** Geometry: one coordinate of a tensor B-spline surface *)
Definition count0 (b : vbase) : nat := length (knots b 0) - degree b 0 - 1.
Definition count1 (b : vbase) : nat := length (knots b 1) - degree b 1 - 1.
Definition knotR (b : vbase) (dir : nat) (i : nat) : R := IZR (nth i (knots b dir) 0%Z).
Definition surf (b : vbase) (c : list R) (x y : R) : R :=
  rsum (count1 b) (fun j => rsum (count0 b) (fun i =>
    nth (i + count0 b * j) c 0 * (bspl (knotR b 0) (degree b 0) i x * bspl (knotR b 1) (degree b 1) j y)))%R.

(** the coefficients of patch [p] *)
Definition block {C} (B : list vbase) (p : nat) (c : list C) : list C :=
  match nth_error B p with Some b => firstn (count0 b * count1 b) (skipn (sumN (map (fun b => count0 b * count1 b) (firstn p B))) c) | None => [] end.
Definition total (B : list vbase) : nat := sumN (map (fun b => count0 b * count1 b) B).
(** the same surface on every patch *)
Definition same_surfaces (B : list vbase) (c : list R) (B' : list vbase) (c' : list R) : Prop :=
  length B' = length B /\ length c' = total B' /\
  forall p b b', nth_error B p = Some b -> nth_error B' p = Some b' -> forall x y, surf b' (block B' p c') x y = surf b (block B p c) x y.

(** whether [x] lies in the range of the box *)
Definition in_rangeb (dir : nat) (x : Z) (X : box) : bool :=
  match dir with 0 => (bLo0 X <? x)%Z && (x <? bHi0 X)%Z | _ => (bLo1 X <? x)%Z && (x <? bHi1 X)%Z end.
Definition pick {A} (dir : nat) (p : A * A) : A := match dir with 0 => fst p | _ => snd p end.

(** boxes that do not overlap *)
Definition disjoint (X Y : box) : Prop := (bHi0 X <= bLo0 Y \/ bHi0 Y <= bLo0 X \/ bHi1 X <= bLo1 Y \/ bHi1 Y <= bLo1 X)%Z.
(** one block of coefficients per patch *)
Definition blocks_fit {C} (B : list vbase) (cs : list (list C)) : Prop := Forall2 (fun b c => length c = count0 b * count1 b) B cs.
(** The knots after a refinement of all patches, patch [p] by the boxes [bx p]. *)
Inductive refined_all (t : topo) (L : nat -> nat -> Z) (B : list vbase) (bx : nat -> list box) : nat -> nat -> Z -> Prop :=
| all_own p dir x : has_knot B p dir x -> refined_all t L B bx p dir x
| all_mid p b X dir x : nth_error B p = Some b -> midpoint (knots b dir) x -> In X (bx p) -> in_range dir x X -> refined_all t L B bx p dir x
| all_step p s q s' fl x : joined_sides t p s q s' fl -> refined_all t L B bx p (along s) x ->
    refined_all t L B bx q (along s') (if fl then L p (along s) - x else x)%Z.
