(** C76: distances along interfaces of hierarchical bases. *)
From Verif Require Import Common TopoModel TopoSpec VertexModel SmoothSpec SmoothSpec2 VertexSpec HbDistModel HbDistSpec HbDistProofs HbDistExamples.
Open Scope nat_scope.

(** The number of functions on a side is the number of active functions of all levels. *)
Theorem C76_functions : forall S upper, hside_ok S -> hfunctionsOnSide S = length (ends S upper).
Proof. exact functions_pf. Qed.
Print Assumptions C76_functions.

(** findParameter returns exactly the n-th smallest end of a support, seen from the corner; it reads beyond the vector exactly
    when there are fewer than n functions. *)
Theorem C76_parameter : forall S s c n, hside_ok S -> 1 <= n ->
  (n <= hfunctionsOnSide S -> exists p, hfindParameter S s c n = Ok p) /\
  (hfunctionsOnSide S < n -> hfindParameter S s c n = Err) /\
  (forall p, hfindParameter S s c n = Ok p <-> ranked (ends S (pos_on s c)) n p).
Proof. exact parameter_pf. Qed.
Print Assumptions C76_parameter.

(** getDistanceOfVertex counts the functions of a level that end before the parameter, but as seen from the OTHER end of the side. *)
Theorem C76_distance : forall S m s c p, hside_ok S -> m < length (hsKnots S) -> p <> 0%Z ->
  hdistance S m s c p = Ok (before S m (negb (pos_on s c)) p + 1).
Proof. exact distance_pf. Qed.
Print Assumptions C76_distance.

(** For symmetric knots this is the number seen from the corner. *)
Theorem C76_symmetric : forall S m s c p, hside_ok S -> m < length (hsKnots S) -> symmetric (nth m (hsKnots S) []) -> p <> 0%Z ->
  hdistance S m s c p = Ok (before S m (pos_on s c) p + 1).
Proof. exact symmetric_pf. Qed.
Print Assumptions C76_symmetric.

(** On one level with symmetric knots the parameter found for n functions is counted back as n functions. *)
Theorem C76_back : forall deg k n s c p, symmetric k -> 1 <= n -> deg + 1 <= length k ->
  let S := mkHS deg [k] [repeat true (length k - deg - 1)] in
  hfindParameter S s c n = Ok p -> p <> 0%Z ->
  countb (fun x => x =? p)%Z (ends S (pos_on s c)) = 1 -> hdistance S 0 s c p = Ok n.
Proof. exact back_pf. Qed.
Print Assumptions C76_back.

(** Both sides of an interface with matching knots count the same number on every level. *)
Theorem C76_sides : forall flip S S' m s c s' c' p, sides_match flip S S' -> pos_on s' c' = xorb flip (pos_on s c) ->
  hdistance S' m s' c' p = hdistance S m s c p.
Proof. exact sides_pf. Qed.
Print Assumptions C76_sides.

(** Without symmetry even one level of active functions is counted wrongly: three functions are asked for, two are counted. *)
Theorem C76_distance_refuted : exists S n p r, hside_ok S /\ length (hsKnots S) = 1 /\ (forall m a x, nth_error (hsAct S) m = Some a -> In x a -> x = true) /\
  ranked (ends S false) n p /\ countb (fun x => x =? p)%Z (ends S false) = 1 /\ hfindParameter S West SW n = Ok p /\ before S 0 false p + 1 = n /\ hdistance S 0 West SW p = Ok r /\ r < n.
Proof. exact distance_refuted_pf. Qed.
Print Assumptions C76_distance_refuted.

(** Two levels, refined at one end. *)
Theorem C76_nonvacuous : hside_ok twolevel /\ (forall m, m < 2 -> symmetric (nth m (hsKnots twolevel) [])) /\
  ends twolevel false = [12; 16; 16; 16; 2; 4; 6; 8]%Z /\ ends twolevel true = [16; 12; 8; 4; 16; 16; 16; 14]%Z /\ hfunctionsOnSide twolevel = 8 /\
  hfindParameter twolevel West SW 3 = Ok 6%Z /\ hdistance twolevel 0 West SW 6 = Ok 2 /\ hdistance twolevel 1 West SW 6 = Ok 3 /\
  hfindParameter twolevel West NW 3 = Ok 12%Z /\ hdistance twolevel 0 West NW 12 = Ok 3 /\ hdistance twolevel 1 West NW 12 = Ok 6 /\
  hfindParameter twolevel West SW 9 = Err.
Proof. exact nonvacuous_pf. Qed.
Print Assumptions C76_nonvacuous.
