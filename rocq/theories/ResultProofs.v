(** The result of gsSmoothInterfaces::compute(): statements C02-C06. *)
From Verif Require Import Common TopoModel BaseModel IndexSpec TopoSpec SmoothSpec SmoothSpec2
  IndexProofs IndexTopoProofs ListLemmas TopoProofs PointProofs MapperProofs CountProofs MatrixProofs HandlerProofs.
From Coq Require Import ZifyBool.

Lemma pos_in_app_l x l l' : In x l -> pos_in x (l ++ l') = pos_in x l.
Proof.
  induction l as [|a l IH]; simpl; intros H; [contradiction|]. destruct (dof_eqb x a) eqn:E; auto.
  rewrite IH; auto. destruct H as [->|]; auto. rewrite (proj2 (dof_eqb_eq x x) eq_refl) in E. discriminate.
Qed.
Lemma pos_in_app_r x l l' : ~ In x l -> pos_in x (l ++ l') = length l + pos_in x l'.
Proof.
  induction l as [|a l IH]; simpl; intros H; auto. destruct (dof_eqb x a) eqn:E.
  - apply dof_eqb_eq in E. subst. tauto.
  - rewrite IH; auto.
Qed.
Lemma pos_in_patch p k a n : a <= k < a + n -> pos_in (p, k) (map (fun k => (p, k)) (seq a n)) = k - a.
Proof.
  revert a. induction n as [|n IH]; intros a H; [lia|]. simpl. destruct (dof_eqb (p, k) (p, a)) eqn:E.
  - apply dof_eqb_eq in E. injection E as <-. lia.
  - assert (k <> a). { intros ->. rewrite (proj2 (dof_eqb_eq (p, a) (p, a)) eq_refl) in E. discriminate. }
    rewrite IH by lia. lia.
Qed.
Lemma pos_in_dofs sizes : forall a p k, a <= p -> p - a < length sizes -> k < nth (p - a) sizes 0 ->
  pos_in (p, k) (dofs_from a sizes) = sumN (firstn (p - a) sizes) + k.
Proof.
  induction sizes as [|n r IH]; intros a p k Ha Hl Hk; [simpl in Hl; lia|]. cbn [dofs_from].
  destruct (p - a) as [|q] eqn:E.
  - assert (p = a) as -> by lia. simpl in Hk. rewrite pos_in_app_l.
    + rewrite pos_in_patch by lia. simpl. lia.
    + apply in_map. apply in_seq. lia.
  - rewrite pos_in_app_r.
    + rewrite map_length, seq_length, IH; replace (p - S a) with q by lia; try lia.
      * simpl. lia.
      * simpl in Hl. lia.
      * simpl in Hk. exact Hk.
    + intros H. apply in_map_iff in H. destruct H as (k' & [= <- _] & _). lia.
Qed.

Lemma sumQ_support (f : nat -> Q) K : forall L, NoDup L -> NoDup K -> incl K L ->
  (forall r, In r L -> ~ In r K -> (f r == 0)%Q) -> (sumQ (map f L) == sumQ (map f K))%Q.
Proof.
  induction K as [|k K IH]; intros L HL HK Hi Hz.
  - simpl. apply sumQ_map_zero. intros; apply Hz; auto.
  - apply NoDup_cons_iff in HK. destruct HK as [Hk HK].
    assert (In k L) as HkL by (apply Hi; left; auto).
    apply in_split in HkL. destruct HkL as (L1 & L2 & ->).
    assert (Permutation (L1 ++ k :: L2) (k :: L1 ++ L2)) as P by (symmetry; apply Permutation_middle).
    rewrite (sumQ_perm _ _ (Permutation_map f P)). cbn [map sumQ].
    assert (NoDup (k :: L1 ++ L2)) as N by (eapply Permutation_NoDup; eauto).
    apply NoDup_cons_iff in N. destruct N as [N1 N2].
    rewrite (IH (L1 ++ L2)); auto; try reflexivity.
    + intros x Hx. assert (In x (k :: L1 ++ L2)) as G by (eapply Permutation_in; [exact P|apply Hi; right; auto]).
      destruct G as [->|]; auto. contradiction.
    + intros r Hr Hn. apply Hz.
      * eapply Permutation_in; [symmetry; exact P|right; auto].
      * intros [->|]; auto.
Qed.

Section R.
Variable I : input.
Hypothesis WF : well_formed I.
Notation t := (itopo I).
Notation bs := (ibases I).
Notation np := (length (ibases I)).
Notation bas := (bas bs).
Notation loc := (loc bs).
Notation pvalid := (pvalid bs).
Notation decode := (decode bs).
Notation elim := (elim I).
Notation rule := (rule I).
Notation c0 := (c0 I).
Notation valence := (valence t).
Notation inner := (inner t).
Notation ifl := (ifl t).
Notation parents := (parents I).
Notation cidx := (cidx I).
Let Hcons : consistent t := Hcons I WF.
Let Hnp : tnp t = np := Hnp I WF.
Let Hbig : big bs := Hbig I WF.

Lemma cidx_column x : pvalid x -> cidx x = sumN (map tsize (firstn (fst (loc x)) bs)) + snd (loc x).
Proof.
  intros H. pose proof (loc_valid bs Hbig x H) as [L1 L2]. unfold HandlerProofs.cidx.
  rewrite <- (loc_eta I). unfold all_dofs. simpl msizes.
  rewrite pos_in_dofs; rewrite ?Nat.sub_0_r, ?map_length; try lia; auto.
  - rewrite firstn_map. reflexivity.
  - rewrite (nth_indep _ 0 (tsize (0, 0))) by (rewrite map_length; exact L1). rewrite map_nth. exact L2.
Qed.

Lemma cidx_grid x p i j : pvalid x -> loc x = (p, tindex (bas p) i j) -> cidx x = column bs p i j.
Proof.
  intros H E. rewrite (cidx_column x H), E. unfold column, tindex, tsize, PointProofs.bas. simpl. reflexivity.
Qed.

Definition is_result (m : mapper) (R : result) : Prop :=
  rRows R = freeSize m /\ rCols R = freeSize (mapper_of bs) /\ rMap R = m /\
  (forall x, pvalid x -> elim x = false -> ridx I m x < rRows R) /\
  (forall r, r < rRows R -> exists x, pvalid x /\ elim x = false /\ ridx I m x = r) /\
  (forall x y, pvalid x -> pvalid y -> elim x = false -> elim y = false -> ridx I m x = ridx I m y -> x = y) /\
  (forall x, pvalid x -> cidx x < rCols R) /\
  (forall c, c < rCols R -> exists x, pvalid x /\ cidx x = c) /\
  (forall x y w, pvalid y -> In (x, w) (parents y) -> entry_of R (ridx I m x) (cidx y) = w) /\
  (forall x y, pvalid x -> pvalid y -> elim x = false -> (forall w, ~ In (x, w) (parents y)) -> entry_of R (ridx I m x) (cidx y) = 0%Q) /\
  (forall x, pvalid x -> is_free_dof m (loc x) = negb (elim x)) /\
  (forall x, pvalid x -> elim x = false -> mindex m (snd (loc x)) (fst (loc x)) = Ok (ridx I m x)).

Lemma compute_ok : exists m R, computeMapper I = Ok m /\ compute I = Ok R /\ is_result m R.
Proof.
  destruct (computeMapper_ok I WF) as (m & Em & Hs & Hm).
  pose proof (free_iff I WF m Hs Hm) as Hf. pose proof (countDoFs_ok I WF m Hs Hf) as Ec.
  destruct (smoothMatrix_ok I WF m Hs Hf) as (W & EW & W1 & W2).
  exists m, (mkR (freeSize m) (freeSize (mapper_of bs)) m W). split; auto. split.
  - unfold compute. rewrite Ec. cbn [bind]. rewrite Em. cbn [bind]. rewrite Z.eqb_refl. cbn [ensure bind].
    rewrite Nat2Z.id. fold (C I m). rewrite EW. reflexivity.
  - unfold is_result, entry_of. cbn [rRows rCols rMap rMat].
    repeat match goal with |- _ /\ _ => split end; auto.
    + intros x. apply (ridx_lt I WF m Hs Hf).
    + intros r. apply (ridx_onto I WF m Hs Hf).
    + intros x y. apply (ridx_inj I WF m Hs Hf).
    + intros x. apply (cidx_lt I WF m).
    + intros c. apply (cidx_onto I WF m).
    + intros x Vx Fx. apply (row_ok I WF m Hs Hf x (fst (loc x)) Vx Fx eq_refl).
Qed.

Section M.
Variable m : mapper.
Variable R : result.
Hypothesis HR : is_result m R.
Notation ridx := (ridx I m).

Definition psum (f : pt -> Q) (y : pt) : Q := sumQ (map (fun xw => (snd xw * f (fst xw))%Q) (parents y)).

Lemma control_spec coef y : pvalid y -> (control R coef (cidx y) == psum (fun x => coef (ridx x)) y)%Q.
Proof.
  intros Vy. destruct HR as (R1 & R2 & R3 & Rlt & Ronto & Rinj & Clt & Conto & E1 & E2 & _).
  unfold control.
  rewrite (sumQ_support _ (map (fun xw => ridx (fst xw)) (parents y))).
  - rewrite map_map. unfold psum. apply sumQ_map_ext. intros [x w] Hx. cbn [fst snd].
    rewrite (E1 x y w Vy Hx). reflexivity.
  - apply seq_NoDup.
  - pose proof (parents_nodup I WF y Vy) as N. rewrite <- map_map.
    assert (forall x, In x (map fst (parents y)) -> pvalid x /\ elim x = false) as V.
    { intros x Hx. apply in_map_iff in Hx. destruct Hx as ([x' w] & <- & Hx). eapply (parents_ok I WF y); eauto. }
    revert N V. generalize (map fst (parents y)) as l. induction l as [|x l IH]; intros N V; [constructor|].
    apply NoDup_cons_iff in N. destruct N as [N1 N2]. simpl. constructor.
    + intros Hin. apply in_map_iff in Hin. destruct Hin as (x' & E & Hx').
      destruct (V x) as [V1 V2]; [left; auto|]. destruct (V x') as [V3 V4]; [right; auto|].
      apply Rinj in E; auto. congruence.
    + apply IH; auto. intros; apply V; right; auto.
  - intros r Hr. apply in_map_iff in Hr. destruct Hr as ([x w] & <- & Hx). cbn [fst].
    destruct (parents_ok I WF y x w Vy Hx) as [V1 V2]. apply in_seq. specialize (Rlt x V1 V2). lia.
  - intros r Hr Hn. apply in_seq in Hr. destruct (Ronto r ltac:(lia)) as (x & Vx & Fx & <-).
    rewrite E2; auto; [ring|]. intros w Hw. apply Hn. apply in_map_iff. exists (x, w). auto.
Qed.

Lemma column_sum c : c < rCols R -> (colSum R c == 1)%Q.
Proof.
  intros Hc. pose proof HR as (_ & _ & _ & _ & _ & _ & _ & Conto & _). destruct (Conto c Hc) as (y & Vy & <-).
  transitivity (control R (fun _ => 1%Q) (cidx y)).
  - unfold colSum, control, entry_of. apply sumQ_map_ext. intros r _. ring.
  - rewrite control_spec by auto. unfold psum. rewrite <- (parents_sum I WF y Vy).
    apply sumQ_map_ext. intros [x w] _. simpl. ring.
Qed.

Lemma in_parents_dec x y : (exists w, In (x, w) (parents y)) \/ (forall w, ~ In (x, w) (parents y)).
Proof.
  assert (forall a b : pt, {a = b} + {a <> b}) as D by (repeat decide equality).
  destruct (in_dec D x (map fst (parents y))) as [H|H].
  - left. apply in_map_iff in H. destruct H as ([x' w] & <- & H). eauto.
  - right. intros w Hw. apply H. apply in_map_iff. exists (x, w). auto.
Qed.

Lemma entry_range r c : r < rRows R -> c < rCols R -> (0 <= entry_of R r c <= 1)%Q.
Proof.
  intros Hr Hc. pose proof HR as (R1 & R2 & R3 & Rlt & Ronto & Rinj & Clt & Conto & E1 & E2 & _).
  destruct (Ronto r Hr) as (x & Vx & Fx & <-). destruct (Conto c Hc) as (y & Vy & <-).
  destruct (in_parents_dec x y) as [(w & Hw)|H].
  - rewrite (E1 x y w) by auto. apply (parents_weight I WF y x w); auto.
  - rewrite E2 by auto. split; discriminate.
Qed.

Lemma control_free coef x : pvalid x -> elim x = false -> (control R coef (cidx x) == coef (ridx x))%Q.
Proof. intros V F. rewrite control_spec by auto. unfold psum. rewrite parents_free by auto. simpl. ring. Qed.

Lemma rows_independent coef : (forall c, c < rCols R -> (control R coef c == 0)%Q) ->
  forall r, r < rRows R -> (coef r == 0)%Q.
Proof.
  intros H r Hr. pose proof HR as (R1 & R2 & R3 & Rlt & Ronto & Rinj & Clt & Conto & E1 & E2 & _).
  destruct (Ronto r Hr) as (x & Vx & Fx & <-). rewrite <- (control_free coef x) by auto. auto.
Qed.

Lemma own_column p k : p < np -> k < tsize (bas p) -> is_free m k p = true ->
  exists r, mindex m k p = Ok r /\ r < rRows R /\
   forall r', r' < rRows R -> entry_of R r' (sumN (map tsize (firstn p bs)) + k) = if r' =? r then 1%Q else 0%Q.
Proof.
  intros Hp Hk Hf. pose proof HR as (R1 & R2 & R3 & Rlt & Ronto & Rinj & Clt & Conto & E1 & E2 & Hfr & Hix).
  destruct (decode_ok bs Hbig (p, k)) as [Vx Lx]; [split; auto|].
  set (x := decode (p, k)) in *.
  assert (elim x = false) as Fx.
  { unfold is_free in Hf. rewrite <- Lx, Hfr in Hf by auto. destruct (elim x); auto; discriminate. }
  exists (ridx x). split; [rewrite <- (Hix x Vx Fx), Lx; reflexivity|]. split; [auto|].
  assert (sumN (map tsize (firstn p bs)) + k = cidx x) as -> by (rewrite (cidx_column x Vx), Lx; reflexivity).
  intros r' Hr'. destruct (r' =? ridx x) eqn:E.
  - apply Nat.eqb_eq in E. subst r'. apply E1; auto. rewrite parents_free by auto. left; auto.
  - destruct (Ronto r' Hr') as (x' & Vx' & Fx' & <-). apply E2; auto.
    intros w Hw. rewrite parents_free in Hw by auto. destruct Hw as [[= -> _]|[]]. rewrite Nat.eqb_refl in E. discriminate.
Qed.

Lemma rows_nonempty r : r < rRows R -> exists c, c < rCols R /\ entry_of R r c = 1%Q.
Proof.
  intros Hr. pose proof HR as (R1 & R2 & R3 & Rlt & Ronto & Rinj & Clt & Conto & E1 & E2 & _).
  destruct (Ronto r Hr) as (x & Vx & Fx & <-). exists (cidx x). split; auto. apply E1; auto.
  rewrite parents_free by auto. left; auto.
Qed.

End M.
End R.
