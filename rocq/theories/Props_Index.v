(** Properties C07, C08, C09: index helpers and numbering. *)
From Verif Require Import Common TopoModel BaseModel IndexSpec TopoSpec IndexProofs IndexTopoProofs.

(** C07: going [k] steps from a corner along one of its sides and [o] rows inward
    gives a valid function lying at exactly that place. *)
Theorem C07_index_from_corner_is_valid : forall n0 n1 c s k o,
  touches c s -> k < along s n0 n1 -> o < across s n0 n1 ->
  exists i j, i < n0 /\ j < n1 /\ indexFromVert (n0, n1) k c s o = Ok (i + n0 * j)
    /\ rows_inward s n0 n1 i j = o /\ steps_along s c n0 n1 i j = k.
Proof. exact indexFromVert_position. Qed.
Print Assumptions C07_index_from_corner_is_valid.

Example C07_nonvacuous : touches NE North /\ 2 < along North 5 4 /\ 1 < across North 5 4
  /\ indexFromVert (5, 4) 2 NE North 1 = Ok (2 + 5 * 2).
Proof. repeat split; simpl; lia. Qed.

Theorem C07_index_determines_steps : forall n0 n1 c s k o k' o' x,
  touches c s -> k < along s n0 n1 -> o < across s n0 n1 ->
  k' < along s n0 n1 -> o' < across s n0 n1 ->
  indexFromVert (n0, n1) k c s o = Ok x -> indexFromVert (n0, n1) k' c s o' = Ok x ->
  k = k' /\ o = o'.
Proof. exact indexFromVert_inj. Qed.
Print Assumptions C07_index_determines_steps.

(** exchanging the two sides of a corner exchanges steps and rows; with
    (k,o) = (0,0) and (1,1) this is independence of the side. *)
Theorem C07_sides_symmetric : forall n0 n1 c s s' k o,
  touches c s -> touches c s' -> s <> s' ->
  k < along s n0 n1 -> o < across s n0 n1 ->
  indexFromVert (n0, n1) k c s o = indexFromVert (n0, n1) o c s' k.
Proof. exact indexFromVert_swap. Qed.
Print Assumptions C07_sides_symmetric.

Theorem C07_origin_is_corner_function : forall n0 n1 c s,
  0 < n0 -> 0 < n1 ->
  exists i j, i < n0 /\ j < n1 /\ indexFromVert (n0, n1) 0 c s 0 = Ok (i + n0 * j) /\
    forall s', touches c s' -> rows_inward s' n0 n1 i j = 0.
Proof. exact indexFromVert_corner. Qed.
Print Assumptions C07_origin_is_corner_function.

(** the variant of the index helper that counts from two sides *)
Theorem C07_index_from_two_sides : forall n0 n1 s1 s2 k1 k2,
  side_dir s1 <> side_dir s2 ->
  k1 < across s2 n0 n1 -> k2 < across s1 n0 n1 ->
  exists i j, i < n0 /\ j < n1 /\
    indexFromSides (n0, n1) k1 s1 k2 s2 = Ok (i + n0 * j) /\
    rows_inward s2 n0 n1 i j = k1 /\ rows_inward s1 n0 n1 i j = k2.
Proof. exact indexFromSides_position. Qed.
Print Assumptions C07_index_from_two_sides.

(** C08 *)
Theorem C08_foreign_side_rejected : forall b c s k o,
  ~ touches c s -> (k <> 0 \/ o <> 0) -> indexFromVert b k c s o = Err.
Proof. exact indexFromVert_reject. Qed.
Print Assumptions C08_foreign_side_rejected.

Example C08_nonvacuous : ~ touches SW East /\ (1 <> 0 \/ 0 <> 0).
Proof. split; [intros []|left; discriminate]. Qed.

Theorem C08_out_of_range_rejected : forall b c s k o,
  (k <> 0 \/ o <> 0) ->
  (along s (fst b) (snd b) <= k \/ across s (fst b) (snd b) <= o) ->
  indexFromVert b k c s o = Err.
Proof. exact indexFromVert_range_reject. Qed.
Print Assumptions C08_out_of_range_rejected.

Theorem C08_origin_accepted_on_any_side : forall b c s,
  indexFromVert b 0 c s 0 = Ok (functionAtCorner b c).
Proof. exact indexFromVert_any_side. Qed.
Print Assumptions C08_origin_accepted_on_any_side.

(** C09 *)
Theorem C09_side_numbers_injective : forall a b, sideIndex a = sideIndex b -> a = b.
Proof. exact sideIndex_inj. Qed.
Print Assumptions C09_side_numbers_injective.

Theorem C09_corner_numbers_injective : forall a b, vertIndex a = vertIndex b -> a = b.
Proof. exact vertIndex_inj. Qed.
Print Assumptions C09_corner_numbers_injective.

Theorem C09_side_numbers_in_range : forall n ps, fst ps < n <-> sideIndex ps < 4 * n.
Proof. exact sideIndex_lt. Qed.
Print Assumptions C09_side_numbers_in_range.

Theorem C09_side_numbers_onto : forall n i, i < 4 * n -> exists ps, fst ps < n /\ sideIndex ps = i.
Proof. exact sideIndex_onto. Qed.
Print Assumptions C09_side_numbers_onto.

Theorem C09_corner_numbers_in_range : forall n ps, fst ps < n <-> vertIndex ps < 4 * n.
Proof. exact vertIndex_lt. Qed.
Print Assumptions C09_corner_numbers_in_range.

Theorem C09_corner_numbers_onto : forall n i, i < 4 * n -> exists ps, fst ps < n /\ vertIndex ps = i.
Proof. exact vertIndex_onto. Qed.
Print Assumptions C09_corner_numbers_onto.

Theorem C09_side_array_has_right_length : forall I,
  sides_partitioned (itopo I) -> nSides I = 4 * tnp (itopo I).
Proof. exact side_array_length. Qed.
Print Assumptions C09_side_array_has_right_length.

Theorem C09_marks_are_independent : forall n ps ps' (l l' : list bool) v,
  length l = 4 * n -> fst ps < n -> fst ps' < n ->
  vset l (sideIndex ps) v = Ok l' ->
  vget l' (sideIndex ps') = if ps_eqb ps ps' then Ok v else vget l (sideIndex ps').
Proof. exact marks_independent. Qed.
Print Assumptions C09_marks_are_independent.

(** Two patches glued east to west. *)
Example C09_nonvacuous : sides_partitioned
  (mkT 2 [mkI (0, East) (1, West) false]
         [(0, West); (0, South); (0, North); (1, East); (1, South); (1, North)]).
Proof.
  unfold sides_partitioned, iface_sides, all_sides; simpl.
  apply NoDup_Permutation;
    [repeat (constructor; [simpl; intuition congruence|]); constructor
    |repeat (constructor; [simpl; intuition congruence|]); constructor
    |intros x; simpl; intuition].
Qed.
