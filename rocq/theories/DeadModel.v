(** Model of two helpers of the MPBES classes that nothing calls: getNrOfSpecialKnots (src/gsMPBESBSplineBasis.hpp:317-337) and _flipOverCorner
    (src/gsMPBESMapTensor.h:473-495). *)
From Coq Require Import QArith.
From Verif Require Import Common TopoModel.
Open Scope nat_scope.

(** src/gsMPBESBSplineBasis.hpp:323-324: position [i] counted from the end given by [par]; a position outside is an error *)
Definition atEnd {A} (par : bool) (l : list A) (i : nat) : res A := if length l <=? i then Err else vget l (if par then length l - i - 1 else i).
(** src/gsMPBESBSplineBasis.hpp:321-335, [n] passes left; specialKnots and index are always equal and are one variable here *)
Fixpoint specialLoop (par : bool) (kv nk : list Q) (n i index : nat) : res nat :=
  match n with
  | 0 => Ok index
  | S n' =>
    if length nk <=? index then Ok index else
    do x <- atEnd par nk index;
    do k <- atEnd par kv i;
    specialLoop par kv nk n' (S i) (if (if par then Qle_bool k x else Qle_bool x k) then S index else index)
  end.
(** src/gsMPBESBSplineBasis.hpp:317-337 *)
Definition getNrOfSpecialKnots (degree : nat) (kv nk : list Q) (par : bool) (distance : Z) : res nat :=
  specialLoop par kv nk (Z.to_nat (distance + Z.of_nat degree + 1)) 0 0.

(** src/gsMPBESMapTensor.h:473-495: a side of a patch with a flag for its end *)
Definition flipOverCorner (ps : nat * side) (flag : bool) : (nat * side) * bool :=
  let '(p, s) := ps in
  match s with
  | North => ((p, if flag then East else West), true)
  | South => ((p, if flag then East else West), false)
  | West => ((p, if flag then North else South), false)
  | East => ((p, if flag then North else South), true)
  end.
