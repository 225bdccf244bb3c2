(** What the property C79 says. *)
From Coq Require Import Reals Qreals.
From Verif Require Import Common TopoModel C1Model SpaceModel SpaceSpec IfSpaceModel.
Open Scope nat_scope.

(** the knots along a side *)
Definition side_comp (b : kvec * kvec) (s : side) : kvec := match s with West | East => snd b | South | North => fst b end.
(** a component of a tensor basis *)
Definition component (b : kvec * kvec) (d : nat) : kvec := if d =? 0 then fst b else snd b.
(** the coarser of two knot vectors, the first one if they have equally many elements *)
Definition the_coarser (k1 k2 k : kvec) : Prop :=
  length (kvin k1) <= length (kvin k2) /\ k = k1 \/ length (kvin k2) < length (kvin k1) /\ k = k2.
(** neither is coarser unless they are equal *)
Definition ranked (k1 k2 : kvec) : Prop := length (kvin k1) <> length (kvin k2) \/ k1 = k2.

(** ascending knots, a first inner knot of least multiplicity, degree at least 1 *)
Definition usable (k : kvec) : Prop := knots_ok (kvin k) /\ first_least k /\ 1 <= kvdeg k.
(** no inner knots *)
Definition straight (g : kvec * kvec) : Prop := kvin (fst g) = [] /\ kvin (snd g) = [].
(** degree and smoothness of the gluing data make sense; -1: one less than the basis, as smooth as possible *)
Definition gd_valid (pt rt : Z) (k : kvec) : Prop :=
  let p := if (pt =? -1)%Z then (Z.of_nat (kvdeg k) - 1)%Z else pt in
  let r := if (rt =? -1)%Z then (p - 1)%Z else rt in (0 <= p)%Z /\ (r < p)%Z.

(** [E] contains what the gluing data in [gd] and the functions in [plus] and [minus] are combined to *)
Definition represents (plus minus gd E : kvec) : Prop :=
  forall P P' M al be s, space_of plus P -> space_of minus M -> space_of gd al -> space_of gd be -> derivative P P' ->
    (product be P' s -> space_of E s) /\ (product al M s -> space_of E s) /\ (1 <= kvdeg gd -> space_of E P).
Definition represents_boundary (plus minus E : kvec) : Prop :=
  forall P M, space_of plus P -> space_of minus M -> space_of E P /\ space_of E M.

(** [plus], [minus] and [gd] are the spaces on [k] for any geometry without inner knots *)
Definition spaces_on (redn : nat -> nat -> nat) (pt rt : Z) (k plus minus gd : kvec) : Prop :=
  forall geo, kvin geo = [] -> createPlusSpace (redn 1) geo k = Ok plus /\ createMinusSpace (redn 1) geo k = Ok minus /\ gluingSpace geo k pt rt = Ok gd.

(** the input of a patch at a vertex *)
Definition vp_ok (pt rt : Z) (P : vpatch) : Prop :=
  straight (vpGeo P) /\ (forall s, usable (side_comp (vpBas P) s) /\ gd_valid pt rt (side_comp (vpBas P) s)) /\
  (forall s n, vpNb P s = Some n -> usable (side_comp (vnBas n) (vnSide n)) /\ gd_valid pt rt (side_comp (vnBas n) (vnSide n))).
Definition is_interface (P : vpatch) (s : side) : Prop := exists n, vpNb P s = Some n.
(** the knots that decide about the functions on the side: those of the coarser patch at an interface *)
Definition edge_knots (P : vpatch) (s : side) (k : kvec) : Prop :=
  match vpNb P s with None => k = side_comp (vpBas P) s | Some n => the_coarser (side_comp (vpBas P) s) (side_comp (vnBas n) (vnSide n)) k end.
(** [Q] is the neighbour of [P] across [s], and [s'] is its side *)
Definition neighbours (P : vpatch) (s : side) (Q : vpatch) (s' : side) : Prop :=
  (exists n, vpNb P s = Some n /\ vnBas n = vpBas Q /\ vnSide n = s') /\ (exists n, vpNb Q s' = Some n /\ vnBas n = vpBas P /\ vnSide n = s).

(** the point lies on a line of inner knots of multiplicity [m] *)
Definition on_line (g : kvec * kvec) (xy : Q * Q) (m : nat) : Prop :=
  (exists x, (x == fst xy)%Q /\ In (x, m) (kvin (fst g))) \/ (exists y, (y == snd xy)%Q /\ In (y, m) (kvin (snd g))).
(** sum of the two ends of the parameter interval *)
Definition ends (k : kvec) : Q := (kvlo k + kvhi k)%Q.
(** the corner and the sides of the domain [0,sU] x [0,sV] *)
Definition corner_point (s : Q * Q) (c : corner) : Q * Q :=
  match c with SW => (0, 0)%Q | SE => (fst s, 0)%Q | NW => (0, snd s)%Q | NE => s end.
Definition on_side_of (s : Q * Q) (d : side) (xy : Q * Q) : Prop :=
  match d with West => fst xy == 0 | East => fst xy == fst s | South => snd xy == 0 | North => snd xy == snd s end%Q.
(** twice the signed area of a triangle *)
Definition area (p q r : Q * Q) : Q := ((fst q - fst p) * (snd r - snd p) - (fst r - fst p) * (snd q - snd p))%Q.
