(** Proofs about re-parameterised patches. *)
From Verif Require Import Common TopoModel ListLemmas ReparamModel ReparamSpec.
From Coq Require Import ZifyBool.

Section Gather.
Context {A : Type}.

Lemma zget_ok (l : list A) r : (0 <= r < Z.of_nat (length l))%Z ->
  exists a, zget l r = Ok a /\ nth_error l (Z.to_nat r) = Some a.
Proof.
  intros H. unfold zget. destruct (r <? 0)%Z eqn:E; [lia|].
  destruct (nth_error l (Z.to_nat r)) eqn:E2.
  - exists a. unfold vget. rewrite E2. auto.
  - apply nth_error_None in E2. lia.
Qed.

Lemma vget_nth {B} (l : list B) i a : vget l i = Ok a <-> nth_error l i = Some a.
Proof. unfold vget. destruct (nth_error l i); split; congruence. Qed.

Lemma gather_fold (src : list A) moves : forall m,
  NoDup (map fst moves) ->
  (forall w r, In (w, r) moves -> w < length m /\ (0 <= r < Z.of_nat (length src))%Z) ->
  exists m', foldM (fun m (wr : nat * Z) => do a <- zget src (snd wr); vset m (fst wr) (Some a)) moves m = Ok m' /\
    length m' = length m /\
    (forall w r, In (w, r) moves -> exists a, nth_error src (Z.to_nat r) = Some a /\ nth_error m' w = Some (Some a)) /\
    (forall w, ~ In w (map fst moves) -> nth_error m' w = nth_error m w).
Proof.
  induction moves as [|[w r] moves IH]; intros m HN Hr.
  - exists m. simpl. split; auto. split; auto. split; [contradiction|auto].
  - simpl in HN. apply NoDup_cons_iff in HN. destruct HN as [HN1 HN2].
    destruct (Hr w r ltac:(left; auto)) as [Hw Hz]. destruct (zget_ok src r Hz) as (a & Ea & Na).
    simpl. rewrite Ea. simpl. rewrite vset_ok by auto. simpl.
    destruct (IH (upd m w (Some a)) HN2) as (m' & E & L & H1 & H2).
    { intros w' r' H. rewrite upd_length. apply Hr. right; auto. }
    exists m'. rewrite E. split; auto. split; [rewrite L; apply upd_length|]. split.
    + intros w' r' [[= <- <-]|H]; [|eapply H1; eauto]. exists a. split; auto. rewrite H2 by auto.
      apply vget_nth. rewrite vget_upd by lia. rewrite Nat.eqb_refl. reflexivity.
    + intros w' H. simpl in H. rewrite H2 by tauto.
      destruct (lt_dec w' (length m)) as [Lt|Ge].
      * destruct (vget_lt m w' Lt) as (x & Ex). rewrite (proj1 (vget_nth _ _ _) Ex). apply vget_nth.
        rewrite vget_upd by lia. destruct (w =? w') eqn:Q; [|exact Ex].
        apply Nat.eqb_eq in Q. subst. tauto.
      * rewrite !(proj2 (nth_error_None _ _)); auto; rewrite ?upd_length; lia.
Qed.

Lemma mapM_some (m : list (option A)) : (forall k, k < length m -> exists a, nth_error m k = Some (Some a)) ->
  exists l, mapM (fun o => match o with Some a => Ok a | None => Err end) m = Ok l /\ length l = length m /\
   forall k a, nth_error m k = Some (Some a) -> nth_error l k = Some a.
Proof.
  induction m as [|o m IH]; intros H.
  - exists []. simpl. split; auto. split; auto. intros [|k]; simpl; discriminate.
  - destruct (H 0 ltac:(simpl; lia)) as (a & [= ->]).
    destruct IH as (l & E & L & P). { intros k Hk. apply (H (S k)). simpl; lia. }
    exists (a :: l). simpl. rewrite E. simpl. split; auto. split; [lia|].
    intros [|k] x; simpl; [congruence|]. apply P.
Qed.

Lemma gather_ok n (src : list A) moves : NoDup (map fst moves) -> length moves = n ->
  (forall w r, In (w, r) moves -> w < n /\ (0 <= r < Z.of_nat (length src))%Z) ->
  exists l, gather n src moves = Ok l /\ length l = n /\
    forall w r, In (w, r) moves -> nth_error l w = nth_error src (Z.to_nat r).
Proof.
  intros HN HL Hr.
  destruct (gather_fold src moves (repeat None n) HN) as (m & E & L & H1 & H2).
  { rewrite repeat_length. exact Hr. }
  rewrite repeat_length in L.
  assert (forall k, k < n -> In k (map fst moves)) as Cov.
  { intros k Hk. assert (incl (seq 0 n) (map fst moves)) as HI; [|apply HI, in_seq; lia].
    apply NoDup_length_incl; auto.
    - rewrite seq_length, map_length. lia.
    - intros x Hx. apply in_map_iff in Hx. destruct Hx as ([w r] & <- & Hx). apply in_seq. simpl. apply Hr in Hx. lia. }
  destruct (mapM_some m) as (l & E2 & L2 & P).
  { intros k Hk. rewrite L in Hk. specialize (Cov k Hk). apply in_map_iff in Cov.
    destruct Cov as ([w r] & Hw & HIn). simpl in Hw. subst w. destruct (H1 _ _ HIn) as (a & _ & Ha). eauto. }
  exists l. unfold gather. rewrite E. simpl. rewrite E2. split; auto. split; [lia|].
  intros w r HIn. destruct (H1 _ _ HIn) as (a & Ha & Hm). rewrite Ha. apply P. exact Hm.
Qed.

End Gather.

Lemma nth_error_ext {A} (l l' : list A) : (forall k, nth_error l k = nth_error l' k) -> l = l'.
Proof.
  revert l'. induction l as [|a l IH]; intros [|b l'] H; auto.
  - specialize (H 0). discriminate.
  - specialize (H 0). discriminate.
  - f_equal; [specialize (H 0); simpl in H; congruence|]. apply IH. intros k. apply (H (S k)).
Qed.

(** index arithmetic *)
Lemma grid_in n m j i : In (j, i) (grid n m) <-> j < n /\ i < m.
Proof.
  unfold grid. rewrite in_flat_map. split.
  - intros (x & Hx & H). apply in_map_iff in H. destruct H as (y & [= <- <-] & Hy). apply in_seq in Hx, Hy. lia.
  - intros [H1 H2]. exists j. split; [apply in_seq; lia|]. apply in_map_iff. exists i. split; auto. apply in_seq; lia.
Qed.
Lemma grid_down_in n m j i : In (j, i) (grid_down n m) <-> j < n /\ i < m.
Proof.
  unfold grid_down. rewrite in_flat_map. split.
  - intros (x & Hx & H). apply in_map_iff in H. destruct H as (y & [= <- <-] & Hy). rewrite <- in_rev in Hx. apply in_seq in Hx, Hy. lia.
  - intros [H1 H2]. exists j. split; [rewrite <- in_rev; apply in_seq; lia|]. apply in_map_iff. exists i. split; auto. apply in_seq; lia.
Qed.

Lemma flat_grid_nodup l m : NoDup l -> NoDup (flat_map (fun j : nat => map (fun i => (j, i)) (seq 0 m)) l).
Proof.
  induction l as [|a l IH]; simpl; intros H; [constructor|]. apply NoDup_cons_iff in H. destruct H as [H1 H2].
  apply NoDup_app_iff. split; [|split].
  - apply FinFun.Injective_map_NoDup; [|apply seq_NoDup]. intros x y [= ->]; auto.
  - apply IH; auto.
  - intros [j i] Hx Hy. apply in_map_iff in Hx. destruct Hx as (x & [= <- <-] & _).
    apply in_flat_map in Hy. destruct Hy as (z & Hz & Hy). apply in_map_iff in Hy. destruct Hy as (y & [= -> _] & _). auto.
Qed.
Lemma grid_nodup n m : NoDup (grid n m).
Proof. apply flat_grid_nodup, seq_NoDup. Qed.
Lemma grid_down_nodup n m : NoDup (grid_down n m).
Proof. apply flat_grid_nodup, NoDup_rev, seq_NoDup. Qed.
Lemma flat_grid_length l m : length (flat_map (fun j : nat => map (fun i : nat => (j, i)) (seq 0 m)) l) = length l * m.
Proof. induction l; simpl; auto. rewrite app_length, map_length, seq_length, IHl. reflexivity. Qed.
Lemma grid_length n m : length (grid n m) = n * m.
Proof. unfold grid. rewrite flat_grid_length, seq_length. reflexivity. Qed.
Lemma grid_down_length n m : length (grid_down n m) = n * m.
Proof. unfold grid_down. rewrite flat_grid_length, rev_length, seq_length. reflexivity. Qed.

Lemma pair_ix n i j i' j' : i < n -> i' < n -> i + j * n = i' + j' * n -> i = i' /\ j = j'.
Proof. intros. assert (j = j') by nia. subst. split; lia. Qed.

Lemma NoDup_map_on {A B} (f : A -> B) l : NoDup l -> (forall x y, In x l -> In y l -> f x = f y -> x = y) -> NoDup (map f l).
Proof.
  induction l as [|a l IH]; simpl; intros HN HI; [constructor|]. apply NoDup_cons_iff in HN. destruct HN as [H1 H2].
  constructor.
  - intros H. apply in_map_iff in H. destruct H as (x & E & Hx). apply HI in E; auto. subst; auto.
  - apply IH; auto.
Qed.

Section Ops.
Context {A : Type}.

Lemma gather_grid (g : list (nat * nat)) n m (src : list A) (w : nat * nat -> nat) (r : nat * nat -> Z) :
  NoDup g -> length g = n * m -> length src = n * m ->
  (forall x y, In x g -> In y g -> w x = w y -> x = y) ->
  (forall x, In x g -> w x < n * m /\ (0 <= r x < Z.of_nat (n * m))%Z) ->
  exists l, gather (n * m) src (map (fun x => (w x, r x)) g) = Ok l /\ length l = n * m /\
    forall x, In x g -> nth_error l (w x) = nth_error src (Z.to_nat (r x)).
Proof.
  intros HN HL HS HI HB.
  destruct (gather_ok (n * m) src (map (fun x => (w x, r x)) g)) as (l & E & L & H).
  - rewrite map_map. apply NoDup_map_on; auto.
  - rewrite map_length. exact HL.
  - intros a b Hab. apply in_map_iff in Hab. destruct Hab as (x & [= <- <-] & Hx). rewrite HS. auto.
  - exists l. split; auto. split; auto. intros x Hx. apply H. apply in_map_iff. eauto.
Qed.

Lemma swapC_ok n m (c : list A) : length c = n * m -> exists l, swapC n m c = Ok l /\ length l = n * m /\
  forall i j, j < n -> i < m -> nth_error l (i + m * j) = nth_error c (j + n * i).
Proof.
  intros Hc. unfold swapC.
  destruct (gather_grid (grid n m) n m c (fun x => snd x + fst x * m) (fun x => Z.of_nat (fst x + n * snd x))) as (l & E & L & H);
    auto using grid_nodup, grid_length.
  - intros [j i] [j' i'] H1 H2. apply grid_in in H1, H2. simpl. intros E. apply pair_ix in E; try lia. destruct E; congruence.
  - intros [j i] H1. apply grid_in in H1. simpl. nia.
  - exists l. rewrite <- E. split; [f_equal; apply map_ext; intros [? ?]; reflexivity|]. split; auto.
    intros i j Hj Hi. specialize (H (j, i)). simpl in H. rewrite Nat2Z.id in H. rewrite (Nat.mul_comm m j). apply H. apply grid_in; auto.
Qed.

Lemma antiC_ok n m (c : list A) : length c = n * m -> exists l, antiC n m c = Ok l /\ length l = n * m /\
  forall i j, j < n -> i < m -> nth_error l (i + m * j) = nth_error c ((n - 1 - j) + n * i).
Proof.
  intros Hc. unfold antiC.
  destruct (gather_grid (grid n m) n m c (fun x => snd x + fst x * m)
     (fun x => (Z.of_nat n - 1 - Z.of_nat (fst x) + Z.of_nat (n * snd x))%Z)) as (l & E & L & H);
    auto using grid_nodup, grid_length.
  - intros [j i] [j' i'] H1 H2. apply grid_in in H1, H2. simpl. intros E. apply pair_ix in E; try lia. destruct E; congruence.
  - intros [j i] H1. apply grid_in in H1. simpl. nia.
  - exists l. rewrite <- E. split; [f_equal; apply map_ext; intros [? ?]; reflexivity|]. split; auto.
    intros i j Hj Hi. specialize (H (j, i)). simpl in H. rewrite (Nat.mul_comm m j). rewrite H by (apply grid_in; auto). f_equal. lia.
Qed.

Lemma clockC_ok n m (c : list A) : length c = n * m -> exists l, clockC n m c = Ok l /\ length l = n * m /\
  forall i j, j < n -> i < m -> nth_error l (i + m * j) = nth_error c (j + n * (m - 1 - i)).
Proof.
  intros Hc. unfold clockC.
  destruct (gather_grid (grid_down n m) n m c (fun x => snd x + (n - fst x - 1) * m)
     (fun x => (Z.of_nat (m * n) - 1 - Z.of_nat (fst x) - Z.of_nat (n * snd x))%Z)) as (l & E & L & H);
    auto using grid_down_nodup, grid_down_length.
  - intros [j i] [j' i'] H1 H2. apply grid_down_in in H1, H2. simpl. intros E. apply pair_ix in E; try lia. destruct E. f_equal; lia.
  - intros [j i] H1. apply grid_down_in in H1. simpl. nia.
  - exists l. rewrite <- E. split; [f_equal; apply map_ext; intros [? ?]; reflexivity|]. split; auto.
    intros i j Hj Hi. specialize (H (n - 1 - j, i)). simpl in H.
    replace (n - (n - 1 - j) - 1) with j in H by lia. rewrite (Nat.mul_comm m j). rewrite H by (apply grid_down_in; lia). f_equal. nia.
Qed.

Lemma twiceC_ok n m (c : list A) : length c = n * m -> exists l, twiceC n m c = Ok l /\ length l = n * m /\
  forall i j, i < n -> j < m -> nth_error l (i + n * j) = nth_error c ((n - 1 - i) + n * (m - 1 - j)).
Proof.
  intros Hc. unfold twiceC.
  destruct (gather_ok (n * m) c (map (fun i => (i, (Z.of_nat (n * m) - 1 - Z.of_nat i)%Z)) (seq 0 (n * m)))) as (l & E & L & H).
  - rewrite map_map. rewrite map_id. apply seq_NoDup.
  - rewrite map_length, seq_length. reflexivity.
  - intros w r Hw. apply in_map_iff in Hw. destruct Hw as (x & [= <- <-] & Hx). apply in_seq in Hx. lia.
  - exists l. split; auto. split; auto. intros i j Hi Hj.
    rewrite (H (i + n * j) (Z.of_nat (n * m) - 1 - Z.of_nat (i + n * j))%Z).
    + f_equal. nia.
    + apply in_map_iff. exists (i + n * j). split; auto. apply in_seq. nia.
Qed.

(** grid position from which operation [o] takes the new point (u,v), for old sizes n, m *)
Definition from (o : op) (n m u v : nat) : nat * nat :=
  match o with
  | OSwap => (v, u)
  | OAnti => (n - 1 - v, u)
  | OClock => (v, m - 1 - u)
  | OTwice => (n - 1 - u, m - 1 - v)
  end.
Definition sizes (o : op) (n m : nat) : nat * nat := match o with OTwice => (n, m) | _ => (m, n) end.

Lemma opC_ok o n m (c : list A) : length c = n * m -> exists l, opC o n m c = Ok l /\ length l = n * m /\
  forall u v, u < fst (sizes o n m) -> v < snd (sizes o n m) ->
    nth_error l (u + fst (sizes o n m) * v) = nth_error c (fst (from o n m u v) + n * snd (from o n m u v)).
Proof.
  intros Hc. destruct o; simpl.
  - destruct (swapC_ok n m c Hc) as (l & E & L & H). exists l. auto.
  - destruct (antiC_ok n m c Hc) as (l & E & L & H). exists l. auto.
  - destruct (clockC_ok n m c Hc) as (l & E & L & H). exists l. auto.
  - destruct (twiceC_ok n m c Hc) as (l & E & L & H). exists l. auto.
Qed.

Definition keeps_size (K : op -> comp -> comp -> comp * comp) : Prop := forall o a b,
  (csize (fst (K o a b)), csize (snd (K o a b))) = sizes o (csize a) (csize b).
Lemma geoK_size : keeps_size geoK.
Proof. intros [] a b; reflexivity. Qed.
Lemma basK_size : keeps_size basK.
Proof. intros [] a b; reflexivity. Qed.

Lemma op_patch_ok K o (p : patch A) : keeps_size K -> full p ->
  exists q, op_patch (K o) o p = Ok q /\ full q /\ (pU q, pV q) = K o (pU p) (pV p) /\
    (csize (pU q), csize (pV q)) = sizes o (csize (pU p)) (csize (pV p)) /\
    forall u v, u < csize (pU q) -> v < csize (pV q) ->
      at_ q u v = at_ p (fst (from o (csize (pU p)) (csize (pV p)) u v)) (snd (from o (csize (pU p)) (csize (pV p)) u v)).
Proof.
  intros HK Hf. destruct (opC_ok o _ _ _ Hf) as (l & E & L & H).
  unfold op_patch. rewrite E. simpl. specialize (HK o (pU p) (pV p)). eexists. split; [reflexivity|]. simpl.
  assert (csize (fst (K o (pU p) (pV p))) = fst (sizes o (csize (pU p)) (csize (pV p)))) as S1 by (rewrite <- HK; reflexivity).
  assert (csize (snd (K o (pU p) (pV p))) = snd (sizes o (csize (pU p)) (csize (pV p)))) as S2 by (rewrite <- HK; reflexivity).
  split; [|split; [|split]].
  - unfold full. simpl. rewrite S1, S2, L. destruct o; simpl; lia.
  - destruct (K o (pU p) (pV p)); reflexivity.
  - exact HK.
  - intros u v Hu Hv. unfold at_. simpl.
    rewrite S1 in *. rewrite S2 in *. rewrite H by auto.
    replace (u <? fst (sizes o (csize (pU p)) (csize (pV p)))) with true by (symmetry; apply Nat.ltb_lt; auto).
    replace (v <? snd (sizes o (csize (pU p)) (csize (pV p)))) with true by (symmetry; apply Nat.ltb_lt; auto). simpl.
    destruct o; simpl in *; destruct (_ <? csize (pU p)) eqn:Q1, (_ <? csize (pV p)) eqn:Q2; simpl; auto; lia.
Qed.

Lemma at_some (p : patch A) u v : full p -> u < csize (pU p) -> v < csize (pV p) -> exists a, at_ p u v = Some a.
Proof.
  intros Hf Hu Hv. unfold at_. replace (u <? csize (pU p)) with true by lia. replace (v <? csize (pV p)) with true by lia. simpl.
  destruct (nth_error (pC p) (u + csize (pU p) * v)) eqn:E; eauto. apply nth_error_None in E. unfold full in Hf. nia.
Qed.

Lemma patch_ext (p q : patch A) : full p -> full q -> csize (pU p) = csize (pU q) -> csize (pV p) = csize (pV q) ->
  (forall u v, u < csize (pU p) -> v < csize (pV p) -> at_ p u v = at_ q u v) -> pC p = pC q.
Proof.
  intros Hp Hq E1 E2 H. apply nth_error_ext. intros k.
  destruct (lt_dec k (length (pC p))) as [L|G].
  - unfold full in *. set (n := csize (pU p)) in *. assert (0 < n) by (destruct n; lia).
    specialize (H (k mod n) (k / n)). unfold at_ in H. fold n in H. rewrite <- E1, <- E2 in H. fold n in H.
    assert (k mod n < n) by (apply Nat.mod_upper_bound; lia).
    assert (k / n < csize (pV p)) by (apply Nat.div_lt_upper_bound; lia).
    replace (k mod n <? n) with true in H by (symmetry; apply Nat.ltb_lt; auto).
    replace (k / n <? csize (pV p)) with true in H by (symmetry; apply Nat.ltb_lt; auto). simpl in H.
    replace (k mod n + n * (k / n)) with k in H by (rewrite Nat.add_comm; apply Nat.div_mod; lia). auto.
  - rewrite !(proj2 (nth_error_None _ _)); auto; unfold full in *; rewrite <- ?E1, <- ?E2 in *; lia.
Qed.

End Ops.
