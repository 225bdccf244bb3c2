(** Lemmas about index helpers and numbering of sides and corners. *)
From Verif Require Import Common TopoModel BaseModel IndexSpec.
From Coq Require Import ZifyBool Permutation.

(** ** Positions relative to a corner *)

Definition cpt (b : tbasis) (c : corner) (a e : nat) : nat :=
  tindex b (if cpar0 c then fst b - 1 - a else a) (if cpar1 c then snd b - 1 - e else e).

Definition alongb (b : tbasis) (s : side) : nat := along s (fst b) (snd b).
Definition acrossb (b : tbasis) (s : side) : nat := across s (fst b) (snd b).

Lemma ifv_cpt b c s k o :
  on_side c s = true -> k < alongb b s -> o < acrossb b s ->
  indexFromVert b k c s o =
    Ok (match side_dir s with 0 => cpt b c o k | _ => cpt b c k o end).
Proof.
  intros Hc Hk Ho. unfold indexFromVert.
  destruct ((k =? 0) && (o =? 0)) eqn:E.
  - apply andb_prop in E. destruct E as [E1 E2].
    apply Nat.eqb_eq in E1, E2. subst.
    unfold functionAtCorner, cpt.
    destruct s; simpl; rewrite !Nat.sub_0_r; reflexivity.
  - unfold alongb, acrossb in *.
    destruct s, c; simpl in Hc; try discriminate Hc; simpl in Hk, Ho;
      unfold indexFromVert_impl, bind, ensure, cpt, cpar0, cpar1; simpl;
      (rewrite (proj2 (Nat.ltb_lt _ _) Hk), (proj2 (Nat.ltb_lt _ _) Ho); reflexivity).
Qed.

Lemma tindex_lt b i j : i < fst b -> j < snd b -> tindex b i j < tsize b.
Proof. unfold tindex, tsize. intros. nia. Qed.

Lemma tindex_inj b i j i' j' :
  i < fst b -> i' < fst b -> tindex b i j = tindex b i' j' -> i = i' /\ j = j'.
Proof. unfold tindex. intros Hi Hi' E. assert (j = j') by nia. subst. lia. Qed.

Lemma touches_on c s : touches c s <-> on_side c s = true.
Proof. destruct c, s; simpl; intuition discriminate. Qed.

Lemma indexFromVert_position n0 n1 c s k o :
  touches c s -> k < along s n0 n1 -> o < across s n0 n1 ->
  exists i j, i < n0 /\ j < n1 /\ indexFromVert (n0, n1) k c s o = Ok (i + n0 * j)
    /\ rows_inward s n0 n1 i j = o /\ steps_along s c n0 n1 i j = k.
Proof.
  intros Ht Hk Ho. apply touches_on in Ht.
  rewrite ifv_cpt by assumption.
  destruct s, c; simpl in Ht; try discriminate Ht; simpl in Hk, Ho; unfold cpt, tindex; cbn [side_dir cpar0 cpar1 fst snd];
    eexists; eexists; (split; [|split; [|split; [reflexivity|]]]); simpl; lia.
Qed.

Lemma indexFromVert_inj n0 n1 c s k o k' o' x :
  touches c s -> k < along s n0 n1 -> o < across s n0 n1 ->
  k' < along s n0 n1 -> o' < across s n0 n1 ->
  indexFromVert (n0, n1) k c s o = Ok x -> indexFromVert (n0, n1) k' c s o' = Ok x ->
  k = k' /\ o = o'.
Proof.
  intros Ht Hk Ho Hk' Ho' E E'.
  destruct (indexFromVert_position n0 n1 c s k o Ht Hk Ho) as (i & j & Hi & Hj & F & <- & <-).
  destruct (indexFromVert_position n0 n1 c s k' o' Ht Hk' Ho') as (i' & j' & Hi' & Hj' & F' & <- & <-).
  rewrite E in F. rewrite E' in F'. injection F; injection F'; intros; subst.
  destruct (tindex_inj (n0, n1) i j i' j'); simpl; unfold tindex; simpl; try lia. subst. auto.
Qed.

Lemma indexFromVert_swap n0 n1 c s s' k o :
  touches c s -> touches c s' -> s <> s' ->
  k < along s n0 n1 -> o < across s n0 n1 ->
  indexFromVert (n0, n1) k c s o = indexFromVert (n0, n1) o c s' k.
Proof.
  intros Ht Ht' Hn Hk Ho.
  destruct s, s', c; simpl in Ht, Ht'; try contradiction; try (exfalso; apply Hn; reflexivity);
    rewrite !ifv_cpt; simpl; auto.
Qed.

Lemma indexFromVert_corner n0 n1 c s :
  0 < n0 -> 0 < n1 ->
  exists i j, i < n0 /\ j < n1 /\ indexFromVert (n0, n1) 0 c s 0 = Ok (i + n0 * j) /\
    forall s', touches c s' -> rows_inward s' n0 n1 i j = 0.
Proof.
  intros. unfold indexFromVert, functionAtCorner, tindex; simpl.
  destruct c; eexists; eexists; (split; [|split; [|split; [reflexivity|]]]); simpl; try lia;
    intros []; simpl; try contradiction; lia.
Qed.

(** C08 *)
Lemma indexFromVert_reject b c s k o :
  ~ touches c s -> (k <> 0 \/ o <> 0) -> indexFromVert b k c s o = Err.
Proof.
  intros Ht H. unfold indexFromVert.
  replace ((k =? 0) && (o =? 0)) with false by (destruct H; lia).
  destruct s, c; simpl in Ht; try (exfalso; apply Ht; exact I);
    unfold indexFromVert_impl, bind, ensure;
    repeat match goal with |- context[if ?x then _ else _] => destruct x end; reflexivity.
Qed.

Lemma indexFromVert_range_reject b c s k o :
  (k <> 0 \/ o <> 0) ->
  (along s (fst b) (snd b) <= k \/ across s (fst b) (snd b) <= o) ->
  indexFromVert b k c s o = Err.
Proof.
  intros H H2. unfold indexFromVert.
  replace ((k =? 0) && (o =? 0)) with false by (destruct H; lia).
  destruct s; simpl in H2; unfold indexFromVert_impl, bind, ensure;
    match goal with |- context[?x <? ?y] => destruct (x <? y) eqn:E1 end; try reflexivity;
    match goal with |- context[?x <? ?y] => destruct (x <? y) eqn:E2 end; try reflexivity;
    destruct H2; lia.
Qed.

Lemma indexFromVert_any_side b c s :
  indexFromVert b 0 c s 0 = Ok (functionAtCorner b c).
Proof. reflexivity. Qed.

(** C07 for _indexFromSides: position given by distances to two sides. *)
Lemma nth_error_map_seq {A} (f : nat -> A) n i :
  i < n -> nth_error (map f (seq 0 n)) i = Some (f i).
Proof.
  intros. rewrite nth_error_map.
  rewrite (nth_error_nth' _ 0) by (rewrite seq_length; lia).
  rewrite seq_nth by lia. reflexivity.
Qed.

Lemma indexFromSides_position n0 n1 s1 s2 k1 k2 :
  side_dir s1 <> side_dir s2 ->
  k1 < across s2 n0 n1 -> k2 < across s1 n0 n1 ->
  exists i j, i < n0 /\ j < n1 /\
    indexFromSides (n0, n1) k1 s1 k2 s2 = Ok (i + n0 * j) /\
    rows_inward s2 n0 n1 i j = k1 /\ rows_inward s1 n0 n1 i j = k2.
Proof.
  intros Hd H1 H2.
  destruct s1, s2; simpl in Hd; try (exfalso; apply Hd; reflexivity); simpl in H1, H2;
    unfold indexFromSides, bind, ensure, vget, boundaryOffset, side_dir, side_par, tindex; simpl;
    rewrite ?map_length, ?seq_length, ?(proj2 (Nat.ltb_lt _ _) H1), ?nth_error_map_seq by lia;
    eexists; eexists; (split; [|split; [|split; [reflexivity|]]]); simpl; lia.
Qed.

(** ** Numbering of sides and corners *)

Lemma side_eqb_eq a b : side_eqb a b = true <-> a = b.
Proof. destruct a, b; simpl; split; congruence. Qed.
Lemma corner_eqb_eq a b : corner_eqb a b = true <-> a = b.
Proof. destruct a, b; simpl; split; congruence. Qed.
Lemma ps_eqb_eq a b : ps_eqb a b = true <-> a = b.
Proof.
  destruct a as [p s], b as [p' s']. unfold ps_eqb; simpl.
  rewrite andb_true_iff, Nat.eqb_eq, side_eqb_eq. split; [intros []; congruence | intros [= -> ->]; auto].
Qed.
Lemma pc_eqb_eq a b : pc_eqb a b = true <-> a = b.
Proof.
  destruct a as [p s], b as [p' s']. unfold pc_eqb; simpl.
  rewrite andb_true_iff, Nat.eqb_eq, corner_eqb_eq. split; [intros []; congruence | intros [= -> ->]; auto].
Qed.
Lemma dof_eqb_eq a b : dof_eqb a b = true <-> a = b.
Proof.
  destruct a as [p s], b as [p' s']. unfold dof_eqb; simpl.
  rewrite andb_true_iff, !Nat.eqb_eq. split; [intros []; congruence | intros [= -> ->]; auto].
Qed.

Lemma sideIndex_inj a b : sideIndex a = sideIndex b -> a = b.
Proof.
  destruct a as [p s], b as [p' s']; unfold sideIndex; simpl; intros E.
  assert (p = p') by (destruct s, s'; simpl in E; lia). subst.
  f_equal. destruct s, s'; simpl in E; auto; lia.
Qed.
Lemma vertIndex_inj a b : vertIndex a = vertIndex b -> a = b.
Proof.
  destruct a as [p s], b as [p' s']; unfold vertIndex; simpl; intros E.
  assert (p = p') by (destruct s, s'; simpl in E; lia). subst.
  f_equal. destruct s, s'; simpl in E; auto; lia.
Qed.

Lemma sideIndex_lt n ps : fst ps < n <-> sideIndex ps < 4 * n.
Proof. destruct ps as [p s]; unfold sideIndex; destruct s; simpl; lia. Qed.
Lemma vertIndex_lt n ps : fst ps < n <-> vertIndex ps < 4 * n.
Proof. destruct ps as [p s]; unfold vertIndex; destruct s; simpl; lia. Qed.

Lemma in_all_sides n ps : In ps (all_sides n) <-> fst ps < n.
Proof.
  unfold all_sides. rewrite in_flat_map. destruct ps as [p s]. split.
  - intros (q & Hq & Hi). apply in_seq in Hq. simpl in Hi.
    repeat destruct Hi as [Hi|Hi]; try contradiction; injection Hi; intros; subst; simpl; lia.
  - simpl. intros. exists p. split; [apply in_seq; lia|]. destruct s; simpl; auto.
Qed.
Lemma in_all_corners n ps : In ps (all_corners n) <-> fst ps < n.
Proof.
  unfold all_corners. rewrite in_flat_map. destruct ps as [p s]. split.
  - intros (q & Hq & Hi). apply in_seq in Hq. simpl in Hi.
    repeat destruct Hi as [Hi|Hi]; try contradiction; injection Hi; intros; subst; simpl; lia.
  - simpl. intros. exists p. split; [apply in_seq; lia|]. destruct s; simpl; auto.
Qed.

Lemma map_sideIndex_from a n :
  map sideIndex (flat_map (fun p => map (fun s => (p, s)) [West; East; South; North]) (seq a n))
  = seq (4 * a) (4 * n).
Proof.
  revert a. induction n; intros a; [rewrite Nat.mul_0_r; reflexivity|].
  replace (4 * S n) with (S (S (S (S (4 * n))))) by lia.
  cbn [flat_map seq]. rewrite map_app, IHn.
  unfold sideIndex. cbn [map fst snd side_ix seq app]. repeat (f_equal; [lia|]). f_equal. lia.
Qed.
Lemma map_vertIndex_from a n :
  map vertIndex (flat_map (fun p => map (fun s => (p, s)) [SW; SE; NW; NE]) (seq a n))
  = seq (4 * a) (4 * n).
Proof.
  revert a. induction n; intros a; [rewrite Nat.mul_0_r; reflexivity|].
  replace (4 * S n) with (S (S (S (S (4 * n))))) by lia.
  cbn [flat_map seq]. rewrite map_app, IHn.
  unfold vertIndex. cbn [map fst snd corner_ix seq app]. repeat (f_equal; [lia|]). f_equal. lia.
Qed.

Lemma map_sideIndex n : map sideIndex (all_sides n) = seq 0 (4 * n).
Proof. exact (map_sideIndex_from 0 n). Qed.
Lemma map_vertIndex n : map vertIndex (all_corners n) = seq 0 (4 * n).
Proof. exact (map_vertIndex_from 0 n). Qed.

Lemma all_sides_length n : length (all_sides n) = 4 * n.
Proof. rewrite <- (map_length sideIndex), map_sideIndex. apply seq_length. Qed.
Lemma all_corners_length n : length (all_corners n) = 4 * n.
Proof. rewrite <- (map_length vertIndex), map_vertIndex. apply seq_length. Qed.
Lemma all_sides_nodup n : NoDup (all_sides n).
Proof. apply (NoDup_map_inv sideIndex). rewrite map_sideIndex. apply seq_NoDup. Qed.
Lemma all_corners_nodup n : NoDup (all_corners n).
Proof. apply (NoDup_map_inv vertIndex). rewrite map_vertIndex. apply seq_NoDup. Qed.

Lemma sideIndex_onto n i : i < 4 * n -> exists ps, fst ps < n /\ sideIndex ps = i.
Proof.
  intros H. assert (In i (seq 0 (4 * n))) as Hi by (apply in_seq; lia).
  rewrite <- map_sideIndex in Hi. apply in_map_iff in Hi. destruct Hi as (ps & <- & Hp).
  exists ps. rewrite in_all_sides in Hp. auto.
Qed.
Lemma vertIndex_onto n i : i < 4 * n -> exists ps, fst ps < n /\ vertIndex ps = i.
Proof.
  intros H. assert (In i (seq 0 (4 * n))) as Hi by (apply in_seq; lia).
  rewrite <- map_vertIndex in Hi. apply in_map_iff in Hi. destruct Hi as (ps & <- & Hp).
  exists ps. rewrite in_all_corners in Hp. auto.
Qed.
