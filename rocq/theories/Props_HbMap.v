(** Property C75: the map of a multi-patch basis of hierarchical splines. *)
From Coq Require Import Reals.
From Verif Require Import Common TopoModel MapModel MapSpec MapTravelSpec MapAllModel MapAllSpec HbMapModel HbMapSpec HbMapProofs HbMapConn HbMapExamples.
Open Scope Z_scope.

(** The map is built without error; it has at most as many columns as there are hierarchical splines; every column has some rows, each once,
    with positive weights; the entries of every row sum to one; the columns are linearly independent. *)
Theorem C75_mapper : forall H n, hmp_ok H n -> let N := hlocals H in
  exists cols, hmakeMapper H = Ok cols /\ Z.of_nat (length cols) <= N /\ (forall c, In c cols -> col_ok N c) /\ (forall l, 0 <= l < N -> rowSum cols l = 1%R) /\ independent N cols.
Proof. exact hmapper_pf. Qed.
Print Assumptions C75_mapper.

(** The columns are the columns of the maps of the levels (property C63) that consist of active functions, with the numbers of the hierarchical splines. *)
Theorem C75_levels : forall H n, hmp_ok H n -> exists cols, hmakeMapper H = Ok cols /\ forall c, In c cols <->
  exists m p P cols0 c0, nth_error (hps H) p = Some P /\ (m < length (hpX P))%nat /\ makeMapper (hlevel H m) = Ok cols0 /\ In c0 cols0 /\ Forall2 (fun e e0 => renum H m (fst e0) (fst e) /\ snd e = snd e0) c c0.
Proof. exact levels_pf. Qed.
Print Assumptions C75_levels.

(** The numbers of the active functions are all numbers below the number of hierarchical splines, each once. *)
Theorem C75_numbers : forall H n, hmp_ok H n -> let bsl m := mbs (hlevel H m) in
  (forall m p b u v, nth_error (bsl m) p = Some b -> 0 <= u < mb_u b -> 0 <= v < mb_v b -> act_in H m p (u + mb_u b * v) -> exists i, hlocalIndexOf H m p u v = Ok i /\ 0 <= i < hlocals H) /\
  (forall l, 0 <= l < hlocals H -> exists m p b u v, nth_error (bsl m) p = Some b /\ 0 <= u < mb_u b /\ 0 <= v < mb_v b /\ act_in H m p (u + mb_u b * v) /\ hlocalIndexOf H m p u v = Ok l) /\
  (forall m p b u v m' p' b' u' v' l, nth_error (bsl m) p = Some b -> 0 <= u < mb_u b -> 0 <= v < mb_v b -> act_in H m p (u + mb_u b * v) -> hlocalIndexOf H m p u v = Ok l ->
     nth_error (bsl m') p' = Some b' -> 0 <= u' < mb_u b' -> 0 <= v' < mb_v b' -> act_in H m' p' (u' + mb_u b' * v') -> hlocalIndexOf H m' p' u' v' = Ok l -> (m, p, u, v) = (m', p', u', v')).
Proof. exact numbers_pf. Qed.
Print Assumptions C75_numbers.

(** It is not enough that on both sides of an interface the same functions are active: where a refined strip is one element wide,
    the functions next to the interface are gone while the second ones are not, and the function with number -1 is asked for. *)
Theorem C75_rows_refuted : exists H, hmp_lists H 2 /\ corners_once H /\ mirrored H 2 /\ hlocalIndexOf H 0 0 3 0 = Ok (-1) /\ hmakeMapper H = Err.
Proof. exact rows_pf. Qed.
Print Assumptions C75_rows_refuted.

(** Levels that jump by two at a special vertex: the functions at the vertex on the coarse level are combined twice, those on the fine level never. *)
Theorem C75_corner_refuted : exists H c, hmp_lists H 2 /\ rows_matched H 2 /\
  In ((3, 3), Singular) (patchActions (hconf H 0 0)) /\ haddAction H 0 0 ((3, 3), Singular) = Ok [c] /\ In ((9, 9), Singular) (patchActions (hconf H 2 0)) /\ haddAction H 2 0 ((9, 9), Singular) = Ok [c] /\
  act_in H 2 0 99 /\ hlocalIndexOf H 2 0 9 9 = Ok 19 /\ ~ In 19 (map fst c).
Proof. exact two_pf. Qed.
Print Assumptions C75_corner_refuted.

(** What isLocallyConnected answers for two functions of one patch and level: from the third function on it reads beyond the index vector,
    before that it compares one entry of the first index with both entries of the second. *)
Theorem C75_connected : forall H n, hmp_ok H n -> forall m p b u v i m' p' b' u' v' j,
  nth_error (mbs (hlevel H m)) p = Some b -> 0 <= u < mb_u b -> 0 <= v < mb_v b -> act_in H m p (u + mb_u b * v) -> hlocalIndexOf H m p u v = Ok i ->
  nth_error (mbs (hlevel H m')) p' = Some b' -> 0 <= u' < mb_u b' -> 0 <= v' < mb_v b' -> act_in H m' p' (u' + mb_u b' * v') -> hlocalIndexOf H m' p' u' v' = Ok j ->
  hisLocallyConnected H i j =
    if negb (Nat.eqb p p') then Ok false else if negb (Nat.eqb m m') then Ok false
    else if j =? 0 then Ok (xorb (negb (u =? u')) (negb (u =? v'))) else if j =? 1 then Ok (xorb (negb (v =? u')) (negb (v =? v'))) else Err.
Proof. exact connected_pf. Qed.
Print Assumptions C75_connected.

(** so it is wrong in both ways *)
Theorem C75_connected_refuted : exists H, hmp_ok H 2 /\
  hlocalIndexOf H 0 0 2 1 = Ok 2 /\ hlocalIndexOf H 0 0 1 1 = Ok 1 /\ hisLocallyConnected H 2 1 = Ok false /\
  hlocalIndexOf H 0 0 1 3 = Ok 9 /\ hlocalIndexOf H 0 0 0 1 = Ok 0 /\ hisLocallyConnected H 9 0 = Ok true.
Proof. exact conn_refuted_pf. Qed.
Print Assumptions C75_connected_refuted.

(** Four patches around a vertex that is special or regular, the lower half of the lower two refined. *)
Theorem C75_nonvacuous : (forall sp, hmp_ok (low sp) 2) /\ hlocals (low true) = 80 /\
  haddAction (low true) 0 0 ((0, 0), Free) = Ok [] /\ haddAction (low true) 1 0 ((0, 0), Free) = Ok [[(12, 1%R)]] /\
  In ((3, 3), Singular) (patchActions (hconf (low true) 0 0)) /\ haddAction (low true) 0 0 ((3, 3), Singular) = Ok [[(11, 1%R); (32, 1%R); (51, 1%R); (64, 1%R)]].
Proof. exact hnonvacuous_pf. Qed.
Print Assumptions C75_nonvacuous.
