(** The size predicted by _countDoFs equals the number of free functions. *)
From Verif Require Import Common TopoModel BaseModel IndexSpec TopoSpec SmoothSpec
  IndexProofs IndexTopoProofs ListLemmas TopoProofs PointProofs MapperProofs.
From Coq Require Import ZifyBool.

Lemma u64_u64_l a b : u64 (u64 a + b) = u64 (a + b).
Proof. unfold u64. apply Z.add_mod_idemp_l. discriminate. Qed.
Lemma u64_u64_r a b : u64 (a + u64 b) = u64 (a + b).
Proof. unfold u64. apply Z.add_mod_idemp_r. discriminate. Qed.
Lemma u64_sub_l a b : u64 (u64 a - b) = u64 (a - b).
Proof. unfold u64. apply Zminus_mod_idemp_l. Qed.
Lemma u64_sub_l2 a b c : u64 (u64 a - b - c) = u64 (a - b - c).
Proof. rewrite <- !Z.sub_add_distr. apply u64_sub_l. Qed.
Lemma u64_small a : (0 <= a < 2 ^ 64)%Z -> u64 a = a.
Proof. intros. apply Z.mod_small. assumption. Qed.

Lemma dofs_from_flat a sizes :
  dofs_from a sizes = flat_map (fun p => map (fun k => (p, k)) (seq 0 (nth (p - a) sizes 0))) (seq a (length sizes)).
Proof.
  revert a. induction sizes as [|n r IH]; intros a; [reflexivity|].
  cbn [dofs_from length seq flat_map]. rewrite Nat.sub_diag. cbn [nth]. f_equal. rewrite IH.
  rewrite !flat_map_concat_map. f_equal. apply map_ext_in. intros p Hp. apply in_seq in Hp.
  replace (p - a) with (S (p - S a)) by lia. reflexivity.
Qed.

Lemma dofs_from_length a sizes : length (dofs_from a sizes) = sumN sizes.
Proof.
  revert a. induction sizes as [|n r IH]; intros a; [reflexivity|].
  cbn [dofs_from sumN]. rewrite app_length, map_length, seq_length, IH. reflexivity.
Qed.

Section C.
Variable I : input.
Hypothesis WF : well_formed I.
Let t := itopo I.
Let bs := ibases I.
Let np := length bs.
Notation bas := (bas bs).
Notation loc := (loc bs).
Notation pvalid := (pvalid bs).
Notation decode := (decode bs).
Notation elim := (elim I).
Notation valence := (valence t).
Notation inner := (inner t).
Notation ifl := (ifl t).
Notation c0 := (c0 I).
Notation rule := (rule I).
Let Hcons : consistent t := Hcons I WF.
Let Hnp : tnp t = np := Hnp I WF.
Let Hbig : big bs := Hbig I WF.

Lemma sum_all_dofs (g : dof -> nat) m : msizes m = map tsize bs ->
  sumN (map g (all_dofs m)) =
  sumN (map (fun p => sumN (map (fun k => g (p, k)) (seq 0 (tsize (bas p))))) (seq 0 np)).
Proof.
  intros E. unfold all_dofs. rewrite E, dofs_from_flat, sumN_flat_map, map_length.
  fold np. apply sumN_map_ext. intros p Hp. apply in_seq in Hp.
  rewrite map_map, Nat.sub_0_r.
  rewrite (nth_indep _ 0 (tsize (0, 0))) by (rewrite map_length; fold np; lia).
  rewrite map_nth. reflexivity.
Qed.

Lemma in_all_dofs m y : msizes m = map tsize bs -> In y (all_dofs m) <-> dvalid bs y.
Proof.
  intros E. unfold all_dofs. rewrite E, dofs_from_flat, map_length. fold np. rewrite in_flat_map.
  destruct y as [p k]. unfold dvalid. simpl.
  assert (forall q, q < np -> nth (q - 0) (map tsize bs) 0 = tsize (bas q)) as N.
  { intros q Hq. rewrite Nat.sub_0_r, (nth_indep _ 0 (tsize (0, 0))) by (rewrite map_length; exact Hq).
    apply map_nth. }
  split.
  - intros (q & Hq & H). apply in_seq in Hq. apply in_map_iff in H. destruct H as (k' & [= <- <-] & Hk).
    apply in_seq in Hk. rewrite N in Hk by lia. fold np. lia.
  - intros [H1 H2]. fold np in H1. exists p. split; [apply in_seq; lia|]. rewrite N by exact H1.
    apply in_map. apply in_seq. lia.
Qed.

Lemma all_dofs_nodup m : msizes m = map tsize bs -> NoDup (all_dofs m).
Proof.
  intros E. unfold all_dofs. rewrite E. generalize 0. clear. induction (map tsize bs) as [|n r IH]; intros a; simpl; [constructor|].
  apply NoDup_app_iff. split; [|split; [apply IH|]].
  - apply FinFun.Injective_map_NoDup; [|apply seq_NoDup]. intros x y [= ->]. reflexivity.
  - intros [p k] H1 H2. apply in_map_iff in H1. destruct H1 as (k' & [= <- <-] & _).
    rewrite dofs_from_flat in H2. apply in_flat_map in H2. destruct H2 as (q & Hq & H).
    apply in_seq in Hq. apply in_map_iff in H. destruct H as (k'' & [= <- <-] & _). lia.
Qed.

Definition gc (pc : pcorner) : nat :=
  sumN (map (fun a => sumN (map (fun e => b2n (negb (elim (PC pc a e)))) [0; 1])) [0; 1]).
Definition side_w (ps : pside) : nat :=
  (alongb (bas (fst ps)) (snd ps) - 4) * (1 + b2n (negb (isInterface t ps))).

Lemma free_count m : msizes m = map tsize bs ->
  (forall x, pvalid x -> is_free_dof m (loc x) = negb (elim x)) ->
  freeSize m = sumN (map (fun b => (fst b - 4) * (snd b - 4)) bs)
             + sumN (map side_w (all_sides np)) + sumN (map gc (all_corners np)).
Proof.
  intros Hs Hf. unfold freeSize, free_list. rewrite filter_length_sum, sum_all_dofs by exact Hs.
  assert (sumN (map (fun b => (fst b - 4) * (snd b - 4)) bs) =
          sumN (map (fun p => (fst (bas p) - 4) * (snd (bas p) - 4)) (seq 0 np))) as E1.
  { unfold np, PointProofs.bas. clear. 
    assert (forall a, map (fun b => (fst b - 4) * (snd b - 4)) bs =
      map (fun p => (fst (nth (p - a) bs (0, 0)) - 4) * (snd (nth (p - a) bs (0, 0)) - 4)) (seq a (length bs))) as G.
    { induction bs as [|b r IH]; intros a; [reflexivity|]. cbn [map length seq]. rewrite Nat.sub_diag. cbn [nth].
      f_equal. rewrite (IH (S a)). apply map_ext_in. intros p Hp. apply in_seq in Hp.
      replace (p - a) with (S (p - S a)) by lia. reflexivity. }
    rewrite (G 0). f_equal. apply map_ext. intros p. rewrite Nat.sub_0_r. reflexivity. }
  rewrite E1. unfold all_sides, all_corners. rewrite !sumN_flat_map, <- !sumN_map_add.
  apply sumN_map_ext. intros p Hp. apply in_seq in Hp. assert (p < np) as Hp' by lia.
  rewrite (sumN_map_ext _ (fun k => (fun x => b2n (negb (elim x))) (decode (p, k)))).
  2:{ intros k Hk. apply in_seq in Hk. destruct (decode_ok bs Hbig (p, k)) as [D1 D2].
      - split; simpl; [exact Hp'|lia].
      - rewrite <- D2 at 1. rewrite Hf by exact D1. reflexivity. }
  rewrite (patch_sum bs Hbig (fun x => b2n (negb (elim x))) p Hp').
  apply f_equal2; [apply f_equal2|].
  - cbn [MapperProofs.elim negb b2n]. rewrite (sumN_map_ext _ (fun _ => fst (bas p) - 4)).
    + rewrite sumN_map_const, seq_length. reflexivity.
    + intros. rewrite sumN_map_const, seq_length. lia.
  - rewrite map_map. apply sumN_map_ext. intros s _. unfold side_w. simpl fst; simpl snd.
    cbn [map sumN MapperProofs.elim Nat.eqb andb negb b2n]. fold t.
    rewrite !sumN_map_const, seq_length. lia.
  - rewrite map_map. reflexivity.
Qed.

(** ** the loops of _countDoFs *)
Notation Zn := Z.of_nat.

Lemma zlen_bo p s o : zlen (boundaryOffset (bas p) s o) = Zn (alongb (bas p) s).
Proof. unfold zlen. rewrite boundaryOffset_length. reflexivity. Qed.

Lemma fold_u64 {A} (F : Z -> A -> Z) (g : A -> nat) l z :
  (forall a z, In a l -> F (u64 z) a = u64 (z + Zn (g a))) ->
  fold_left F l (u64 z) = u64 (z + Zn (sumN (map g l))).
Proof.
  revert z. induction l as [|a l IH]; intros z H; cbn [fold_left map sumN]; [f_equal; lia|].
  rewrite H by (left; auto). rewrite IH by (intros; apply H; right; auto). f_equal. lia.
Qed.

Lemma count_interior_ok : count_interior I = u64 (Zn (sumN (map (fun b => (fst b - 4) * (snd b - 4)) bs))).
Proof.
  unfold count_interior. fold bs. change 0%Z with (u64 0) at 1.
  rewrite (fold_u64 _ (fun b => (fst b - 4) * (snd b - 4))); [reflexivity|].
  intros b z Hb. destruct (Hbig b Hb) as [B0 B1]. cbn [fold_left].
  unfold zlen. rewrite !boundaryOffset_length. unfold alongb, along, tsize.
  repeat (rewrite ?u64_sub_l, ?u64_sub_l2, ?u64_u64_l; try rewrite <- !Z.sub_add_distr).
  f_equal. nia.
Qed.

Lemma foldM_u64 {A} (F : Z -> A -> res Z) (g : A -> nat) l z :
  (forall a z, In a l -> F (u64 z) a = Ok (u64 (z + Zn (g a)))) ->
  foldM F l (u64 z) = Ok (u64 (z + Zn (sumN (map g l)))).
Proof.
  revert z. induction l as [|a l IH]; intros z H; cbn [foldM map sumN]; [do 2 f_equal; lia|].
  rewrite H by (left; auto). cbn [bind]. rewrite IH by (intros; apply H; right; auto). do 2 f_equal. lia.
Qed.

Lemma u64_add2 a b c : u64 (u64 a + b + c) = u64 (a + b + c).
Proof. rewrite <- !Z.add_assoc. apply u64_u64_l. Qed.

Lemma count_interfaces_ok : count_interfaces I = Ok (u64 (Zn (sumN (map side_w (iface_sides t))))).
Proof.
  unfold count_interfaces. fold t. change 0%Z with (u64 0) at 1.
  rewrite (foldM_u64 _ (fun f => side_w (if1 f) + side_w (if2 f))).
  - do 2 f_equal. unfold iface_sides. rewrite sumN_flat_map. simpl. f_equal. apply sumN_map_ext. intros; lia.
  - intros f z Hf. destruct (iface_ends_np I WF f Hf) as [P1 P2].
    rewrite !(basisOf_ok I) by assumption. cbn [bind]. fold bs.
    rewrite !zlen_bo, !u64_u64_l, ?u64_add2. do 2 f_equal.
    unfold side_w.
    assert (isInterface t (if1 f) = true) as -> by (apply isInterface_in, in_iface_sides; exists f; auto).
    assert (isInterface t (if2 f) = true) as -> by (apply isInterface_in, in_iface_sides; exists f; auto).
    cbn [negb b2n].
    pose proof (bas_along bs Hbig _ (snd (if1 f)) P1). pose proof (bas_along bs Hbig _ (snd (if2 f)) P2). lia.
Qed.

Lemma count_boundaries_ok : count_boundaries I = Ok (u64 (Zn (sumN (map side_w (tbd t))))).
Proof.
  unfold count_boundaries. fold t. change 0%Z with (u64 0) at 1.
  rewrite (foldM_u64 _ side_w); [reflexivity|].
  intros f z Hf.
  assert (fst f < np) as P1.
  { rewrite <- Hnp. apply (sides_valid t Hcons). right. exact Hf. }
  rewrite !(basisOf_ok I) by assumption. cbn [bind]. fold bs.
  rewrite !zlen_bo, !u64_u64_l, ?u64_add2. do 2 f_equal.
  unfold side_w.
  assert (isInterface t f = false) as -> by (apply (isInterface_bd t Hcons); [rewrite Hnp; exact P1|exact Hf]).
  cbn [negb b2n].
  pose proof (bas_along bs Hbig _ (snd f) P1). lia.
Qed.

(** contribution of one vertex class *)
Lemma gc_cases pc : fst pc < np -> gc pc =
  if inner pc then 1
  else if valence pc =? 1 then 4
  else if valence pc =? 2 then (if c0 pc then 3 else 2)
  else 4 - b2n (ifl pc 0) - b2n (ifl pc 1).
Proof.
  intros Hp. assert (validc t pc) as Hv by (apply validc_np; auto).
  unfold gc. cbn [map sumN MapperProofs.elim Nat.eqb andb orb]. fold t. unfold MapperProofs.rule. fold t.
  destruct (inner pc) eqn:Hin.
  - unfold TopoProofs.ifl. rewrite !(inner_iface t Hcons pc _ Hv Hin). reflexivity.
  - destruct (valence pc =? 1) eqn:E1.
    + rewrite !(val1_boundary t Hcons pc) by (auto; lia). reflexivity.
    + destruct (valence pc =? 2) eqn:E2.
      * pose proof (val2_boundary t Hcons pc Hv Hin ltac:(lia)) as E. rewrite E.
        destruct (ifl pc 1), (c0 pc); reflexivity.
      * destruct (ifl pc 0), (ifl pc 1), (c0 pc); reflexivity.
Qed.

Lemma class_count pc : fst pc < np ->
  count_vertex_class (valence pc) (inner pc) (c0 pc) = Zn (sumN (map gc (cls t pc))).
Proof.
  intros Hp. assert (validc t pc) as Hv by (apply validc_np; auto).
  rewrite (sumN_map_ext gc (fun c => if inner pc then 1
    else if valence pc =? 1 then 4 else if valence pc =? 2 then (if c0 pc then 3 else 2)
    else 4 - b2n (ifl c 0) - b2n (ifl c 1))).
  2:{ intros c Hc. assert (fst c < np) as Hcv by (apply (validc_np I WF), (cls_valid t Hcons pc); auto).
      rewrite gc_cases by exact Hcv.
      rewrite (inner_cls t Hcons pc c), (valence_cls t Hcons pc c), (c0_cls I WF pc c) by auto. reflexivity. }
  assert (1 <= valence pc) as V1.
  { unfold TopoProofs.valence. pose proof (cls_self t Hcons pc Hv). destruct (cls t pc); [contradiction|simpl; lia]. }
  unfold count_vertex_class. destruct (inner pc) eqn:Hin; cbn [negb andb].
  - rewrite sumN_map_const. unfold TopoProofs.valence. lia.
  - destruct (valence pc =? 1) eqn:E1.
    { rewrite sumN_map_const. unfold TopoProofs.valence in *. lia. }
    destruct (valence pc =? 2) eqn:E2; [destruct (c0 pc); cbn [negb andb]|].
    + replace (2 <? valence pc) with false by lia. simpl. rewrite sumN_map_const. unfold TopoProofs.valence in *. lia.
    + rewrite sumN_map_const. unfold TopoProofs.valence in *. lia.
    + replace (2 <? valence pc) with true by lia. cbn [andb].
      pose proof (boundary_idarts t Hcons pc Hv Hin) as H. rewrite idarts_sum in H.
      assert (sumN (map (fun c => 4 - b2n (ifl c 0) - b2n (ifl c 1)) (cls t pc)) +
              sumN (map (fun c => b2n (ifl c 0) + b2n (ifl c 1)) (cls t pc)) = 4 * valence pc) as S.
      { rewrite <- sumN_map_add. unfold TopoProofs.valence.
        rewrite (sumN_map_ext _ (fun _ => 4)); [apply sumN_map_const|].
        intros c _. destruct (ifl c 0), (ifl c 1); reflexivity. }
      destruct (c0 pc); cbn [negb]; lia.
Qed.

Lemma passed_loop l passed P :
  marks I vertIndex (@fst nat corner) passed P -> (forall c, In c l -> fst c < np) ->
  exists passed', foldM (fun ps c => vset ps (vertIndex c) true) l passed = Ok passed' /\
    marks I vertIndex (@fst nat corner) passed' (fun c => P c \/ In c l).
Proof.
  revert passed P. induction l as [|c l IH]; intros passed P Hm Hl; simpl.
  - exists passed. split; auto. revert Hm. apply marks_ext. intuition.
  - destruct (vmarks_set I passed P c Hm (Hl c (or_introl eq_refl))) as (p1 & E1 & H1). rewrite E1. simpl.
    destruct (IH p1 _ H1) as (p2 & E2 & H2); [intros; apply Hl; right; auto|]. rewrite E2.
    exists p2. split; auto. revert H2. apply marks_ext. intros a _.
    split; [intros [[->|?]|?]|intros [?|[<-|?]]]; auto.
Qed.

Lemma count_vertices_ok : count_vertices I = Ok (u64 (Zn (sumN (map gc (all_corners np))))).
Proof.
  unfold count_vertices. fold t.
  match goal with |- bind (foldM ?f ?l ?s) _ = _ =>
    destruct (foldM_inv (fun pre (st : list bool * Z) => exists L,
      marks I vertIndex (@fst nat corner) (fst st) (fun c => In c L) /\
      snd st = u64 (Zn (sumN (map gc L))) /\ NoDup L /\ incl pre L /\
      (forall c, In c L -> fst c < np) /\ (forall c, In c L -> incl (cls t c) L)) f l s) as (s' & E & L & H1 & H2 & H3 & H4 & H5 & H6) end.
  - exists []. simpl. split; [apply vmarks_init|]. split; [reflexivity|]. split; [constructor|].
    split; [intros c []|]. split; intros c [].
  - intros pre pc post [passed tmp] E (L & H1 & H2 & H3 & H4 & H5 & H6). simpl fst in *; simpl snd in *.
    destruct (corner_loop_prefix I pre pc post E) as [Hp _]. fold bs np in Hp.
    destruct (proj2 H1 pc Hp) as (b & Eb & Hb). rewrite Eb. cbn [bind].
    destruct b.
    + eexists. split; [reflexivity|]. exists L. simpl. repeat (split; [solve [auto]|]).
      split; [|split; auto]. intros x Hx. apply in_app_iff in Hx. destruct Hx as [Hx|[<-|[]]]; [auto|]. apply Hb; auto.
    + assert (~ In pc L) as Hn by (intros G; apply Hb in G; discriminate).
      assert (validc t pc) as Hv by (apply validc_np; auto).
      rewrite (cornerList_cls t Hcons pc Hv). cbn [bind].
      assert (forall c, In c (cls t pc) -> fst c < np) as Hcv.
      { intros c Hc. apply (validc_np I WF), (cls_valid t Hcons pc); auto. }
      destruct (passed_loop (cls t pc) passed _ H1 Hcv) as (p' & E' & H'). rewrite E'. cbn [bind].
      rewrite (vertexData_ok I WF pc Hp : vertexData t pc = Ok (valence pc, inner pc)). cbn [bind]. rewrite (c0_vget I WF pc Hp). cbn [bind fst snd].
      eexists. split; [reflexivity|]. exists (L ++ cls t pc). cbn [fst snd].
      split; [|split; [|split; [|split; [|split]]]].
      * revert H'. apply marks_ext. intros a _. rewrite in_app_iff. tauto.
      * rewrite H2, u64_u64_l, class_count by exact Hp. f_equal. rewrite map_app, sumN_app. lia.
      * apply NoDup_app_iff. split; [exact H3|]. split; [apply (cls_nodup t Hcons); exact Hv|].
        intros x Hx Hx'. apply Hn. apply (H6 x Hx).
        apply (in_cls_sym t Hcons); auto.
      * intros x Hx. apply in_app_iff. apply in_app_iff in Hx. destruct Hx as [Hx|[<-|[]]]; [left; auto|].
        right. apply (cls_self t Hcons); auto.
      * intros c Hc. apply in_app_iff in Hc. destruct Hc; auto.
      * intros c Hc x Hx. apply in_app_iff. apply in_app_iff in Hc. destruct Hc as [Hc|Hc]; [left; eapply H6; eauto|].
        right. eapply Permutation_in; [symmetry; apply (cls_perm t Hcons pc c); eauto|exact Hx].
  - rewrite E. cbn [bind]. do 2 f_equal. rewrite H2. do 2 f_equal. apply sumN_perm, Permutation_map.
    apply NoDup_Permutation; [exact H3|apply all_corners_nodup|].
    intros x. rewrite in_all_corners. split; [apply H5|]. intros Hx. apply H4. apply in_all_corners. exact Hx.
Qed.

Lemma countDoFs_ok m : msizes m = map tsize bs ->
  (forall x, pvalid x -> is_free_dof m (loc x) = negb (elim x)) ->
  countDoFs I = Ok (Zn (freeSize m)).
Proof.
  intros Hs Hf. unfold countDoFs. rewrite count_interior_ok, count_interfaces_ok. cbn [bind].
  rewrite count_boundaries_ok. cbn [bind]. rewrite count_vertices_ok. cbn [bind]. f_equal.
  repeat (rewrite ?u64_u64_r, ?u64_u64_l, ?u64_add2).
  assert (sumN (map side_w (all_sides np)) = sumN (map side_w (iface_sides t)) + sumN (map side_w (tbd t))) as E.
  { rewrite <- sumN_app, <- map_app. apply sumN_perm, Permutation_map. rewrite <- Hnp. symmetry. apply Hcons. }
  pose proof (free_count m Hs Hf) as F.
  assert (freeSize m <= sumN (map tsize bs)) as L.
  { unfold freeSize, free_list. rewrite filter_length_sum.
    assert (length (all_dofs m) = sumN (map tsize bs)) as <-.
    { unfold all_dofs. rewrite Hs. apply dofs_from_length. }
    clear. induction (all_dofs m); simpl; [lia|]. destruct (is_free_dof m a); simpl; lia. }
  pose proof (wf_fits I WF) as W. fold bs in W.
  rewrite u64_small; lia.
Qed.

End C.
