(** What the unused helpers are meant to do (C90). *)
From Coq Require Import QArith.
From Verif Require Import Common TopoModel.
Open Scope nat_scope.

Definition ascending (l : list Q) : Prop := forall i j x y, i <= j -> nth_error l i = Some x -> nth_error l j = Some y -> (x <= y)%Q.
(** how many of the new knots are not to the right of [x] *)
Definition up_to (nk : list Q) (x : Q) : nat := length (filter (fun y => Qle_bool y x) nk).
(** at most one new knot up to the first knot and between consecutive knots *)
Definition one_by_one (kv nk : list Q) : Prop :=
  (forall x, nth_error kv 0 = Some x -> up_to nk x <= 1) /\ (forall i x y, nth_error kv i = Some x -> nth_error kv (S i) = Some y -> up_to nk y <= S (up_to nk x)).
Definition mirror (l : list Q) : list Q := map Qopp (rev l).
(** the corner at one end of a side (src/gsMPBESMapTensor.h:461-464) *)
Definition end_of (s : side) (flag : bool) : corner :=
  match s with West => corner_of false flag | East => corner_of true flag | South => corner_of flag false | North => corner_of flag true end.
(** two elements of degree 2, for the examples *)
Definition kv0 : list Q := [0; 0; 0; 1; 2; 2; 2]%Q.
