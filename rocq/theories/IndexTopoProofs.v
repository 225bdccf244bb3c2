(** Length of the array of side marks. *)
From Verif Require Import Common TopoModel BaseModel IndexSpec TopoSpec IndexProofs.

Lemma iface_sides_length t : length (iface_sides t) = 2 * length (tif t).
Proof.
  unfold iface_sides. induction (tif t) as [|f l IH]; [reflexivity|].
  simpl flat_map. cbn [app length]. rewrite IH. lia.
Qed.

Lemma side_array_length I :
  sides_partitioned (itopo I) -> nSides I = 4 * tnp (itopo I).
Proof.
  intros H. apply Permutation_length in H.
  rewrite app_length, iface_sides_length, all_sides_length in H. exact H.
Qed.

Lemma marks_independent n ps ps' (l l' : list bool) v :
  length l = 4 * n -> fst ps < n -> fst ps' < n ->
  vset l (sideIndex ps) v = Ok l' ->
  vget l' (sideIndex ps') = if ps_eqb ps ps' then Ok v else vget l (sideIndex ps').
Proof.
  intros Hl Hp Hp' E. unfold vset in E.
  destruct (sideIndex ps <? length l) eqn:Hlt; [|discriminate]. injection E as <-.
  apply Nat.ltb_lt in Hlt.
  assert (forall (l : list bool) i j, i < length l ->
    vget (upd l i v) j = if i =? j then Ok v else vget l j) as U.
  { clear. induction l as [|a l IH]; intros i j Hi; simpl in Hi; [lia|].
    destruct i, j; simpl; try reflexivity.
    unfold vget in *. simpl. rewrite <- IH by lia. reflexivity. }
  rewrite U by exact Hlt.
  destruct (ps_eqb ps ps') eqn:Ee.
  - apply ps_eqb_eq in Ee. subst. rewrite Nat.eqb_refl. reflexivity.
  - destruct (sideIndex ps =? sideIndex ps') eqn:E2; [|reflexivity].
    apply Nat.eqb_eq, sideIndex_inj, ps_eqb_eq in E2. congruence.
Qed.

Lemma side_array_fits I ps :
  sides_partitioned (itopo I) -> fst ps < tnp (itopo I) <-> sideIndex ps < nSides I.
Proof. intros H. rewrite side_array_length by exact H. apply sideIndex_lt. Qed.
