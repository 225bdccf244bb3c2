(** C90: the unused helpers of the MPBES classes. *)
From Coq Require Import QArith.
From Verif Require Import Common TopoModel DeadModel DeadSpec DeadProofs.
Open Scope nat_scope.

(** Counted from the left, there are no errors as long as the knots suffice, and no more is counted than there are new knots up to the last knot looked at. *)
Theorem C90_bound : forall degree kv nk distance last x, ascending kv -> ascending nk -> (distance + Z.of_nat degree = Z.of_nat last)%Z -> nth_error kv last = Some x ->
  exists c, getNrOfSpecialKnots degree kv nk false distance = Ok c /\ c <= S last /\ c <= up_to nk x.
Proof. exact bound_pf. Qed.
Print Assumptions C90_bound.

(** If the new knots come one by one between the old ones, as in uniform refinement, exactly these are counted. *)
Theorem C90_exact : forall degree kv nk distance last x, ascending kv -> ascending nk -> one_by_one kv nk -> (distance + Z.of_nat degree = Z.of_nat last)%Z -> nth_error kv last = Some x ->
  getNrOfSpecialKnots degree kv nk false distance = Ok (up_to nk x).
Proof. exact exact_pf. Qed.
Print Assumptions C90_exact.

(** Counting from the right is counting from the left on the mirrored knots. *)
Theorem C90_mirror : forall degree kv nk distance, getNrOfSpecialKnots degree kv nk true distance = getNrOfSpecialKnots degree (mirror kv) (mirror nk) false distance.
Proof. exact mirror_pf. Qed.
Print Assumptions C90_mirror.

(** In general the count is too small: of two new knots in the first element only one is counted. *)
Theorem C90_count_refuted : ascending kv0 /\ ascending [1#4; 1#2]%Q /\ getNrOfSpecialKnots 2 kv0 [1#4; 1#2]%Q false 1 = Ok 1 /\ nth_error kv0 3 = Some 1%Q /\ up_to [1#4; 1#2]%Q 1 = 2.
Proof. exact two_pf. Qed.
Print Assumptions C90_count_refuted.

(** _flipOverCorner goes to the other side of the same patch at the same corner, and back when applied twice. *)
Theorem C90_flip : forall p s flag, let '((p', s'), flag') := flipOverCorner (p, s) flag in p' = p /\ s' <> s /\ end_of s' flag' = end_of s flag /\ flipOverCorner (p', s') flag' = ((p, s), flag).
Proof. exact flip_pf. Qed.
Print Assumptions C90_flip.

(** Uniform refinement of two elements, from both ends; a distance beyond the knots is an error. *)
Theorem C90_nonvacuous : one_by_one kv0 [1#2; 3#2]%Q /\ getNrOfSpecialKnots 2 kv0 [1#2; 3#2]%Q false 1 = Ok 1 /\ getNrOfSpecialKnots 2 kv0 [1#2; 3#2]%Q false 2 = Ok 2 /\ getNrOfSpecialKnots 2 kv0 [1#2; 3#2]%Q true 1 = Ok 1 /\ getNrOfSpecialKnots 2 kv0 [1#2; 3]%Q false 5 = Err.
Proof. exact half_ok. Qed.
Print Assumptions C90_nonvacuous.
