(** Proofs for C10-C13. *)
From Verif Require Import Common TopoModel BaseModel BaseModel2 IndexSpec TopoSpec SmoothSpec SmoothSpec2 BaseSpec2
  ListLemmas IndexProofs TopoProofs PointProofs MapperProofs CountProofs GeometryProofs.
From Coq Require Import ZifyBool.

(** ** selection *)
Lemma insert_perm {A} lt (x : A) l : Permutation (insert lt x l) (x :: l).
Proof.
  induction l as [|y l IH]; simpl; auto. destruct (lt y x); auto.
  rewrite IH. apply perm_swap.
Qed.
Lemma sort_perm {A} (lt : A -> A -> bool) l : Permutation (sort lt l) l.
Proof. induction l as [|x l IH]; simpl; auto. rewrite insert_perm. auto. Qed.

Inductive incr {A} (R : A -> A -> Prop) : list A -> Prop :=
| incr_nil : incr R []
| incr_cons a l : (forall b, In b l -> R a b) -> incr R l -> incr R (a :: l).

Lemma insert_incr {A} (lt : A -> A -> bool) (R : A -> A -> Prop) x l :
  (forall a b, lt a b = true <-> R a b) -> (forall a b c, R a b -> R b c -> R a c) ->
  (forall y, In y l -> R x y \/ R y x) -> incr R l -> incr R (insert lt x l).
Proof.
  intros HR HT. induction l as [|y l IH]; intros Hx H; simpl.
  - constructor; [intros ? []|constructor].
  - inversion H as [|? ? H1 H2]; subst. destruct (lt y x) eqn:E.
    + constructor.
      * intros b Hb. apply (Permutation_in _ (insert_perm lt x l)) in Hb. destruct Hb as [<-|Hb]; auto. apply HR; auto.
      * apply IH; auto. intros z Hz. apply Hx. right; auto.
    + assert (R x y) as G. { destruct (Hx y (or_introl eq_refl)) as [G|G]; auto. apply HR in G. congruence. }
      constructor; auto. intros b [<-|Hb]; auto. eapply HT; eauto.
Qed.

Lemma sort_incr {A} (lt : A -> A -> bool) (R : A -> A -> Prop) l :
  (forall a b, lt a b = true <-> R a b) -> (forall a b c, R a b -> R b c -> R a c) ->
  (forall a b, In a l -> In b l -> a <> b -> R a b \/ R b a) -> NoDup l -> incr R (sort lt l).
Proof.
  intros HR HT Htot HN. induction HN as [|x l Hx HN IH]; simpl; [constructor|].
  apply insert_incr; auto.
  - intros y Hy. apply (Permutation_in _ (sort_perm lt l)) in Hy. apply Htot; simpl; auto. intros ->; auto.
  - apply IH. intros a b Ha Hb. apply Htot; right; auto.
Qed.

Lemma incr_unique {A} (R : A -> A -> Prop) l l' : (forall a, ~ R a a) -> (forall a b c, R a b -> R b c -> R a c) ->
  incr R l -> incr R l' -> Permutation l l' -> l = l'.
Proof.
  intros Hi HT H. revert l'. induction H as [|a l H1 H2 IH]; intros l' H' P.
  - apply Permutation_nil in P. auto.
  - destruct H' as [|b l' H1' H2']; [symmetry in P; apply Permutation_nil in P; discriminate|].
    assert (a = b) as ->.
    { assert (In a (b :: l')) as [<-|G1] by (eapply Permutation_in; [exact P|left; auto]); auto.
      assert (In b (a :: l)) as [<-|G2] by (eapply Permutation_in; [symmetry; exact P|left; auto]); auto.
      exfalso. apply (Hi a). eapply HT; [apply H1; exact G2|apply H1'; exact G1]. }
    f_equal. apply IH; auto. eapply Permutation_cons_inv; eauto.
Qed.

Lemma incr_rev {A} (R : A -> A -> Prop) l : incr R l -> incr (fun a b => R b a) (rev l).
Proof.
  assert (forall l a, incr (fun a b => R b a) l -> (forall b, In b l -> R a b) -> incr (fun a b => R b a) (l ++ [a])) as X.
  { clear. induction 1 as [|c l H1 H2 IH]; intros H; simpl.
    - constructor; [intros ? []|constructor].
    - constructor.
      + intros b Hb. apply in_app_iff in Hb. destruct Hb as [Hb|[<-|[]]]; auto. apply H. left; auto.
      + apply IH. intros b Hb. apply H. right; auto. }
  induction 1 as [|a l H1 H2 IH]; simpl; [constructor|]. apply X; auto. intros b Hb. apply H1. apply in_rev; auto.
Qed.

Lemma lower_irrefl a : ~ lower a a.
Proof. unfold lower. lia. Qed.
Lemma lower_trans a b c : lower a b -> lower b c -> lower a c.
Proof. unfold lower. lia. Qed.
Lemma dof_less_iff a b : dof_less a b = true <-> lower a b.
Proof. unfold dof_less, lower. lia. Qed.
Lemma dof_greater_iff a b : dof_greater a b = true <-> lower b a.
Proof. unfold dof_greater, lower. lia. Qed.
Lemma lower_total a b : a <> b -> lower a b \/ lower b a.
Proof.
  intros H. unfold lower. assert (fst a <> fst b \/ snd a <> snd b) as G; [|lia].
  destruct a as [a1 a2], b as [b1 b2]; simpl. destruct (Nat.eq_dec a1 b1); [|auto]. right. intros ->. apply H. congruence.
Qed.

Lemma sort_greater_rev (l : list dof) : NoDup l -> sort dof_greater l = rev (sort dof_less l).
Proof.
  intros HN. apply (incr_unique (fun a b => lower b a)).
  - intros a; apply lower_irrefl.
  - intros a b c H1 H2. eapply lower_trans; eauto.
  - apply sort_incr; auto; try apply dof_greater_iff.
    + intros a b c H1 H2. eapply lower_trans; eauto.
    + intros a b _ _ H. apply lower_total in H. tauto.
  - apply incr_rev, sort_incr; auto; try apply dof_less_iff.
    + intros a b c H1 H2. eapply lower_trans; eauto.
    + intros a b _ _ H. apply lower_total in H. tauto.
  - rewrite sort_perm, <- Permutation_rev, sort_perm. auto.
Qed.

Lemma incr_app {A} (R : A -> A -> Prop) l l' : incr R (l ++ l') -> forall a b, In a l -> In b l' -> R a b.
Proof.
  induction l as [|x l IH]; intros H a b Ha Hb; [destruct Ha|]. inversion H; subst.
  destruct Ha as [<-|Ha]; eauto. apply H2. apply in_app_iff; auto.
Qed.

Lemma incr_increasing l : incr lower l <-> increasing l.
Proof. split; induction 1; constructor; auto. Qed.

Lemma firstn_rev_skipn {A} (l : list A) n : n <= length l -> firstn (length l - n) (rev l) = rev (skipn n l).
Proof.
  intros H. rewrite firstn_rev. f_equal. f_equal. lia.
Qed.

Lemma lowest_split (l : list dof) n : NoDup l -> n <= length l ->
  exists rest, removeLowestIndices l n = Ok rest /\ length (getLowestIndices l n) = n /\
    Permutation (getLowestIndices l n ++ rest) l /\ increasing (getLowestIndices l n) /\
    (forall a b, In a (getLowestIndices l n) -> In b rest -> lower a b).
Proof.
  intros HN Hn. pose proof (sort_perm dof_less l) as P.
  assert (length (sort dof_less l) = length l) as L by (apply Permutation_length; auto).
  assert (getLowestIndices l n = firstn n (sort dof_less l)) as E1.
  { unfold getLowestIndices, resize. unfold dof in *. rewrite L. replace (n - length l) with 0 by lia. apply app_nil_r. }
  assert (removeLowestIndices l n = Ok (rev (skipn n (sort dof_less l)))) as E2.
  { unfold removeLowestIndices, ensure. assert (n <=? length l = true) as -> by lia. cbn [bind]. f_equal.
    unfold resize. assert (length (sort dof_greater l) = length l) as L2 by (apply Permutation_length, sort_perm). unfold dof in *.
    rewrite L2. replace (length l - n - length l) with 0 by lia. cbn [repeat]. rewrite app_nil_r.
    rewrite sort_greater_rev by auto. rewrite <- L. apply firstn_rev_skipn. rewrite L. auto. }
  assert (incr lower (sort dof_less l)) as S.
  { apply sort_incr; auto; try apply dof_less_iff; try apply lower_trans. intros a b _ _. apply lower_total. }
  exists (rev (skipn n (sort dof_less l))). rewrite E1. split; auto. split; [rewrite firstn_length; lia|].
  split; [|split].
  - rewrite <- Permutation_rev, firstn_skipn. auto.
  - apply incr_increasing. rewrite <- (firstn_skipn n (sort dof_less l)) in S. revert S.
    generalize (firstn n (sort dof_less l)) (skipn n (sort dof_less l)). clear.
    induction l as [|a l IH]; intros l' H; [constructor|]. simpl in H. inversion H; subst. constructor; eauto.
    intros b Hb. apply H2. apply in_app_iff; auto.
  - intros a b Ha Hb. rewrite <- in_rev in Hb. rewrite <- (firstn_skipn n (sort dof_less l)) in S.
    eapply incr_app; eauto.
Qed.

Lemma any_sort (l s : list dof) : NoDup l -> Permutation s l -> increasing s -> s = sort dof_less l.
Proof.
  intros HN P S. apply (incr_unique lower); try apply lower_irrefl; try apply lower_trans.
  - apply incr_increasing; auto.
  - apply sort_incr; auto; try apply dof_less_iff; try apply lower_trans. intros a b _ _. apply lower_total.
  - rewrite P, sort_perm. auto.
Qed.

Lemma too_many (l : list dof) n : length l < n -> removeLowestIndices l n = Err.
Proof. intros H. unfold removeLowestIndices, ensure. assert (n <=? length l = false) as -> by lia. reflexivity. Qed.

Lemma padded (l : list dof) n : length l < n -> getLowestIndices l n = sort dof_less l ++ repeat (0, 0) (n - length l).
Proof.
  intros H. unfold getLowestIndices, resize.
  assert (length (sort dof_less l) = length l) as L by (apply Permutation_length, sort_perm). unfold dof in *.
  rewrite L, firstn_all2 by lia. auto.
Qed.

(** corners: complementary when no patch occurs twice *)
Lemma corners_split (l : list pcorner) n : NoDup (map fst l) -> n <= length l ->
  exists low rest, getLowestCorners l n = Ok low /\ removeLowestCorners l n = Ok rest /\ length low = n /\
    Permutation (low ++ rest) l /\ (forall a b, In a low -> In b rest -> fst a < fst b).
Proof.
  intros HN Hn. unfold getLowestCorners, removeLowestCorners, ensure. assert (n <=? length l = true) as -> by lia.
  cbn [bind]. set (lt := fun a b : pcorner => fst a <? fst b). set (gt := fun a b : pcorner => fst b <? fst a).
  set (R := fun a b : pcorner => fst a < fst b).
  assert (NoDup l) as HNl by (eapply NoDup_map_inv; eauto).
  assert (forall a b, In a l -> In b l -> a <> b -> fst a <> fst b) as Hinj.
  { clear - HN. induction l as [|x l IH]; intros a b Ha Hb H; [destruct Ha|].
    simpl in HN. inversion HN as [|? ? H1 H2]; subst. destruct Ha as [<-|Ha], Hb as [<-|Hb]; auto.
    - intros E. apply H1. rewrite E. apply in_map; auto.
    - intros E. apply H1. rewrite <- E. apply in_map; auto. }
  assert (incr R (sort lt l)) as S.
  { apply sort_incr; auto; unfold R, lt; try lia. intros a b Ha Hb H. specialize (Hinj a b Ha Hb H). lia. }
  assert (sort gt l = rev (sort lt l)) as E.
  { apply (incr_unique (fun a b => R b a)); unfold R; try lia.
    - apply sort_incr; auto; unfold gt; try lia. intros a b Ha Hb H. specialize (Hinj a b Ha Hb H). lia.
    - apply (incr_rev R). auto.
    - rewrite sort_perm, <- Permutation_rev, sort_perm. auto. }
  assert (length (sort lt l) = length l) as L by (apply Permutation_length, sort_perm).
  exists (firstn n (sort lt l)), (rev (skipn n (sort lt l))). split; [reflexivity|].
  split; [change (Ok (firstn (length l - n) (sort gt l)) = Ok (rev (skipn n (sort lt l)))); rewrite E; f_equal; rewrite <- L; apply firstn_rev_skipn; lia|]. split; [rewrite firstn_length; lia|]. split.
  - rewrite <- Permutation_rev, firstn_skipn. apply sort_perm.
  - intros a b Ha Hb. rewrite <- in_rev in Hb. rewrite <- (firstn_skipn n (sort lt l)) in S. apply (incr_app _ _ _ S); auto.
Qed.

Lemma corners_overlap : exists (l : list pcorner) n low rest, NoDup l /\ n <= length l /\
  getLowestCorners l n = Ok low /\ removeLowestCorners l n = Ok rest /\ exists c, In c low /\ In c rest.
Proof.
  exists [(0, SW); (0, NE)], 1. eexists. eexists. split.
  { constructor; [simpl; intuition discriminate|]. constructor; [intros []|constructor]. }
  split; [simpl; lia|]. split; [reflexivity|]. split; [reflexivity|]. exists (0, SW). vm_compute. auto.
Qed.

(** ** sharp corners *)
Lemma scalar_dot a b : (dot a b == scalar a b)%Q.
Proof.
  unfold dot. revert b. induction a as [|x a IH]; intros [|y b]; simpl; try reflexivity.
  rewrite IH. reflexivity.
Qed.
Lemma scalar_sym a b : (scalar a b == scalar b a)%Q.
Proof. revert b. induction a as [|x a IH]; intros [|y b]; simpl; try reflexivity. rewrite IH. ring. Qed.
Lemma Qabs_gt_iff x tol : Qabs_gt x tol = true <-> exceeds x tol.
Proof.
  unfold Qabs_gt, exceeds.
  assert (forall y, negb (Qle_bool y tol) = true <-> (tol < y)%Q) as X.
  { intros y. rewrite negb_true_iff. split; intros H.
    - apply Qnot_le_lt. intros G. apply Qle_bool_iff in G. congruence.
    - destruct (Qle_bool y tol) eqn:E; auto. apply Qle_bool_iff in E. apply Qlt_not_le in H. contradiction. }
  rewrite orb_true_iff, !X. tauto.
Qed.
Lemma exceeds_eq x y tol : (x == y)%Q -> exceeds x tol <-> exceeds y tol.
Proof. intros E. unfold exceeds. rewrite E. tauto. Qed.

Section Sharp.
Variable t : topo.
Variable Hc : consistent t.
Variable nrm : normals.
Variable tol : Q.

Let I0 : input := mkIn t (repeat (4, 4) (tnp t)) [].
Let np := tnp t.
Notation vmarks := (marks I0 vertIndex (@fst nat corner)).
Lemma np_I0 : length (ibases I0) = np.
Proof. apply repeat_length. Qed.

Lemma boundary_pairs_perm l l' : Permutation l l' -> Permutation (boundary_pairs t l) (boundary_pairs t l').
Proof. intros P. unfold boundary_pairs. apply Permutation_flat_map. exact P. Qed.

Lemma boundary_pairs_length l : length (boundary_pairs t l) + length (idarts t l) = 2 * length l.
Proof.
  rewrite idarts_sum. induction l as [|c l IH]; [reflexivity|].
  change (boundary_pairs t (c :: l)) with (map (fun s => (c, s)) (filter (fun s => negb (isInterface t (fst c, s))) (containing_sides (snd c))) ++ boundary_pairs t l).
  rewrite app_length, map_length. cbn [map sumN length]. unfold containing_sides. cbn [filter].
  unfold ifl in *. destruct (isInterface t (fst c, cside (snd c) 0)), (isInterface t (fst c, cside (snd c) 1)); cbn [negb length b2n]; lia.
Qed.

Lemma in_boundary_pairs l x : In x (boundary_pairs t l) <-> In (fst x) l /\ on_side (snd (fst x)) (snd x) = true /\ isInterface t (fst (fst x), snd x) = false.
Proof.
  destruct x as [c s]. unfold boundary_pairs. rewrite in_flat_map. simpl fst; simpl snd. split.
  - intros (c' & H & G). apply in_map_iff in G. destruct G as (s' & E & G). injection E as -> ->.
    apply filter_In in G. destruct G as [G1 G2]. split; auto. split; [|destruct (isInterface _ _); auto; discriminate].
    apply on_side_iff_cside. destruct G1 as [<-|[<-|[]]]; auto.
  - intros (H & G1 & G2). exists c. split; auto. apply in_map_iff. exists s. split; auto. apply filter_In.
    split; [|rewrite G2; reflexivity]. apply on_side_iff_cside in G1. destruct G1 as [->| ->]; simpl; auto.
Qed.

Lemma boundary_pairs_nodup l : NoDup l -> NoDup (boundary_pairs t l).
Proof.
  induction 1 as [|c l Hn _ IH]; [constructor|].
  change (boundary_pairs t (c :: l)) with (map (fun s => (c, s)) (filter (fun s => negb (isInterface t (fst c, s))) (containing_sides (snd c))) ++ boundary_pairs t l).
  apply NoDup_app_iff. split; [|split; auto].
  - apply FinFun.Injective_map_NoDup; [congruence|]. apply NoDup_filter. unfold containing_sides.
    destruct c as [p []]; simpl; constructor; try (simpl; intuition discriminate); constructor; auto; constructor.
  - intros x Hx Hx'. apply in_boundary_pairs in Hx'. apply in_map_iff in Hx. destruct Hx as (s & <- & _). simpl in Hx'. tauto.
Qed.

Lemma boundary_pairs_two c : validc t c -> inner t c = false -> exists x y, boundary_pairs t (cls t c) = [x; y].
Proof.
  intros Hv Hi. pose proof (boundary_pairs_length (cls t c)) as L. rewrite (boundary_idarts t Hc c Hv Hi) in L.
  unfold valence in L. assert (1 <= length (cls t c)). { pose proof (cls_self t Hc c Hv). destruct (cls t c); [contradiction|simpl; lia]. }
  assert (length (boundary_pairs t (cls t c)) = 2) as E by lia.
  destruct (boundary_pairs t (cls t c)) as [|x [|y [|]]]; try discriminate. eauto.
Qed.
Lemma boundary_pairs_none c : validc t c -> inner t c = true -> boundary_pairs t (cls t c) = [].
Proof.
  intros Hv Hi. pose proof (boundary_pairs_length (cls t c)) as L. unfold inner in Hi.
  apply (vertex_inner_darts t) in Hi. rewrite Hi in L. destruct (boundary_pairs t (cls t c)); auto. simpl in L. lia.
Qed.

(** sharpness of a vertex *)
Definition isharp (c : pcorner) : bool :=
  match boundary_pairs t (cls t c) with
  | [(c1, s1); (c2, s2)] => Qabs_gt (dot (nrm c1 s1) (nrm c2 s2) - 1) tol
  | _ => false
  end.

Lemma isharp_cls c c' : validc t c -> In c' (cls t c) -> isharp c' = isharp c.
Proof.
  intros Hv H. pose proof (boundary_pairs_perm _ _ (cls_perm t Hc c c' Hv H)) as P.
  assert (validc t c') as Hv' by (eapply cls_valid; eauto).
  unfold isharp. destruct (inner t c) eqn:Hi.
  - rewrite (boundary_pairs_none c Hv Hi) in *. apply Permutation_nil in P. rewrite P. reflexivity.
  - destruct (boundary_pairs_two c Hv Hi) as ([c1 s1] & [c2 s2] & E). rewrite E in *.
    apply Permutation_length_2_inv in P. destruct P as [-> | ->]; auto.
    assert (forall a b : bool, (a = true <-> b = true) -> a = b) as X by (intros [] []; intuition congruence).
    apply X. rewrite !Qabs_gt_iff. apply exceeds_eq. rewrite !scalar_dot, scalar_sym. reflexivity.
Qed.

Lemma vmarks_np l P : vmarks l P <-> length l = 4 * np /\ forall a, fst a < np -> exists b, vget l (vertIndex a) = Ok b /\ (b = true <-> P a).
Proof. unfold marks. rewrite np_I0. tauto. Qed.

Lemma sharp_loop : exists fl, getSharpCorners t np true nrm tol = Ok fl /\ vmarks fl (fun c => isharp c = true).
Proof.
  unfold getSharpCorners. cbn [negb].
  match goal with |- context [foldM ?f ?l ?s] =>
  destruct (foldM_inv (fun pre (st : list bool * list bool) => exists L,
    vmarks (fst st) (fun c => In c L) /\ vmarks (snd st) (fun c => In c L /\ isharp c = true) /\
    incl pre L /\ (forall c, In c L -> fst c < np) /\ (forall c, In c L -> incl (cls t c) L)) f l s)
    as (s' & E & L & H1 & H2 & H3 & H4 & H5) end.
  - exists []. simpl.
    assert (vmarks (repeat false (4 * np)) (fun _ => False)) as X by (rewrite <- np_I0; apply vmarks_init).
    split; [exact X|]. split; [revert X; apply marks_ext; tauto|].
    split; [intros c []|]. split; intros c [].
  - intros pre pc post [vc rs] E (L & H1 & H2 & H3 & H4 & H5). simpl fst in *; simpl snd in *.
    assert (fst pc < np) as Hp. { apply in_all_corners. rewrite E. apply in_elt. }
    unfold sharp_step.
    destruct (proj2 (proj1 (vmarks_np vc _) H1) pc Hp) as (b & Eb & Hb). rewrite Eb. cbn [bind].
    destruct b.
    + eexists. split; [reflexivity|]. exists L. simpl. split; auto. split; auto. split; auto.
      intros x Hx. apply in_app_iff in Hx. destruct Hx as [Hx|[<-|[]]]; [auto|]. apply Hb; auto.
    + assert (validc t pc) as Hv by exact Hp.
      rewrite (cornerList_cls t Hc pc Hv). cbn [bind].
      assert (forall c, In c (cls t pc) -> fst c < length (ibases I0)) as Hcv.
      { intros c Hx. rewrite np_I0. apply (cls_valid t Hc pc) in Hx; auto. }
      destruct (passed_loop I0 (cls t pc) vc _ H1 Hcv) as (vc' & E' & H'). rewrite E'. cbn [bind].
      assert (forall rs', vmarks rs' (fun c => (In c L \/ In c (cls t pc)) /\ isharp c = true) ->
         exists s', Ok (vc', rs') = Ok s' /\ exists L, vmarks (fst s') (fun c => In c L) /\ vmarks (snd s') (fun c => In c L /\ isharp c = true) /\
           incl (pre ++ [pc]) L /\ (forall c, In c L -> fst c < np) /\ (forall c, In c L -> incl (cls t c) L)) as Fin.
      { intros rs' Hrs. eexists. split; [reflexivity|]. exists (L ++ cls t pc). cbn [fst snd]. split; [|split; [|split; [|split]]].
        - revert H'. apply marks_ext. intros a _. rewrite in_app_iff. tauto.
        - revert Hrs. apply marks_ext. intros a _. rewrite in_app_iff. tauto.
        - intros x Hx. apply in_app_iff. apply in_app_iff in Hx. destruct Hx as [Hx|[<-|[]]]; [left; auto|].
          right. apply (cls_self t Hc); auto.
        - intros c Hx. apply in_app_iff in Hx. destruct Hx as [Hx|Hx]; auto. apply (cls_valid t Hc pc) in Hx; auto.
        - intros c Hx x Hy. apply in_app_iff. apply in_app_iff in Hx. destruct Hx as [Hx|Hx]; [left; eapply H5; eauto|].
          right. eapply Permutation_in; [symmetry; apply (cls_perm t Hc pc c); eauto|exact Hy]. }
      assert (forall c, In c (cls t pc) -> isharp c = isharp pc) as Hsh by (intros; apply isharp_cls; auto).
      unfold isharp in Hsh at 2.
      destruct (inner t pc) eqn:Hi.
      * rewrite (boundary_pairs_none pc Hv Hi) in *. apply Fin. revert H2. apply marks_ext. intros a _. split; [tauto|].
        intros [[?|G] S]; auto. rewrite (Hsh a G) in S. discriminate.
      * destruct (boundary_pairs_two pc Hv Hi) as ([c1 s1] & [c2 s2] & Ep). rewrite Ep in *.
        destruct (Qabs_gt _ _) eqn:Eq.
        -- destruct (passed_loop I0 (cls t pc) rs _ H2 Hcv) as (rs' & E2 & H2'). rewrite E2. cbn [bind].
           apply Fin. revert H2'. apply marks_ext. intros a _. split; [intros [?|?]|]; [tauto| |tauto].
           split; auto.
        -- apply Fin. revert H2. apply marks_ext. intros a _. split; [tauto|].
           intros [[?|G] S]; auto. rewrite (Hsh a G) in S. discriminate.
  - fold np. rewrite E. cbn [bind]. eexists. split; [reflexivity|]. revert H2. apply marks_ext. intros a Ha.
    rewrite np_I0 in Ha. split; [tauto|]. intros S. split; auto. apply H3. apply in_all_corners. auto.
Qed.

Lemma sharp_corners : exists fl, getSharpCorners t (tnp t) true nrm tol = Ok fl /\ length fl = 4 * tnp t /\
  forall a, fst a < tnp t ->
    (interior_vertex t a -> nth_error fl (vertIndex a) = Some false) /\
    (forall b, same_vertex t a b -> nth_error fl (vertIndex b) = nth_error fl (vertIndex a)) /\
    (~ interior_vertex t a -> exists x y, x <> y /\ (forall z, boundary_at t a z <-> z = x \/ z = y) /\
       (nth_error fl (vertIndex a) = Some true <-> exceeds (scalar (nrm (fst x) (snd x)) (nrm (fst y) (snd y)) - 1) tol) /\
       (nth_error fl (vertIndex a) = Some false <-> ~ exceeds (scalar (nrm (fst x) (snd x)) (nrm (fst y) (snd y)) - 1) tol)).
Proof.
  destruct sharp_loop as (fl & E & H). exists fl. split; auto. apply vmarks_np in H. destruct H as [L H]. split; auto.
  assert (forall a, fst a < np -> nth_error fl (vertIndex a) = Some (isharp a)) as G.
  { intros a Ha. destruct (H a Ha) as (b & Eb & Hb). unfold vget in Eb. destruct (nth_error fl (vertIndex a)); [|discriminate].
    injection Eb as ->. f_equal. destruct b, (isharp a); intuition congruence. }
  intros a Ha. assert (validc t a) as Hv by exact Ha. split; [|split].
  - intros Hi. apply (interior_vertex_iff t Hc a Hv) in Hi. rewrite G by auto. unfold isharp. rewrite boundary_pairs_none; auto.
  - intros b Hb. apply (same_vertex_cls t Hc a b Hv) in Hb. rewrite !G; auto.
    + f_equal. apply isharp_cls; auto.
    + apply (cls_valid t Hc a) in Hb; auto.
  - intros Hi. destruct (inner t a) eqn:Ei; [exfalso; apply Hi, (interior_vertex_iff t Hc a Hv); auto|].
    destruct (boundary_pairs_two a Hv Ei) as (x & y & Ep). exists x, y.
    pose proof (boundary_pairs_nodup (cls t a) (cls_nodup t Hc a Hv)) as ND. rewrite Ep in ND.
    split; [|split].
    + intros <-. inversion ND; subst. apply H2. left; auto.
    + intros z. pose proof (in_boundary_pairs (cls t a) z) as X. rewrite Ep in X. simpl in X.
      unfold boundary_at. rewrite (same_vertex_cls t Hc a (fst z) Hv), touches_on.
      split.
      * intros (P1 & P2 & P3). assert (x = z \/ y = z \/ False) as Y; [|intuition congruence].
        apply X. split; auto. split; auto. apply (isInterface_bd t Hc); auto. simpl. apply (cls_valid t Hc a) in P1; auto.
      * intros Y. assert (x = z \/ y = z \/ False) as Y' by intuition congruence. apply X in Y'. destruct Y' as (P1 & P2 & P3).
        split; auto. split; auto. apply (isInterface_bd t Hc) in P3; auto. simpl. apply (cls_valid t Hc a) in P1; auto.
    + assert (isharp a = true <-> exceeds (scalar (nrm (fst x) (snd x)) (nrm (fst y) (snd y)) - 1) tol) as K.
      { unfold isharp. rewrite Ep. destruct x as [c1 s1], y as [c2 s2]. simpl fst; simpl snd. rewrite Qabs_gt_iff. apply exceeds_eq. rewrite scalar_dot. reflexivity. }
      rewrite G by auto. destruct (isharp a); intuition congruence.
Qed.

End Sharp.

Lemma flags_admissible t nrm tol : consistent t -> exists fl, getSharpCorners t (tnp t) true nrm tol = Ok fl /\
  length fl = 4 * tnp t /\ forall a b, glued_corners t a b -> nth_error fl (vertIndex a) = nth_error fl (vertIndex b).
Proof.
  intros Hc. destruct (sharp_corners t Hc nrm tol) as (fl & E & L & H). exists fl. split; auto. split; auto.
  intros a b G. symmetry. apply H.
  - destruct G as (f & u & Hf & -> & _). simpl.
    pose proof (sides_valid t Hc (if1 f)) as [X _]. apply X. left. apply in_iface_sides; eauto.
  - apply same_vertex_glued; auto.
Qed.

(** ** export *)
Lemma skipn_skipn' {A} n m (l : list A) : skipn n (skipn m l) = skipn (m + n) l.
Proof. revert l. induction m as [|m IH]; intros [|x l]; simpl; auto. destruct n; auto. Qed.

Lemma patchBlock_ok {A} sizes p (coefs : list A) n : nth_error sizes p = Some n -> length coefs = sumN sizes ->
  patchBlock sizes p coefs = Ok (firstn n (skipn (sumN (firstn p sizes)) coefs)).
Proof.
  intros Hn Hl. unfold patchBlock, vget. rewrite Hn. cbn [bind].
  assert (sumN (firstn p sizes) + n <= length coefs) as H.
  { rewrite Hl. clear Hl. revert p Hn. induction sizes as [|m s IH]; intros [|p] Hn; simpl in *; try discriminate.
    - injection Hn as ->. lia.
    - apply IH in Hn. lia. }
  unfold ensure. assert (sumN (firstn p sizes) + n <=? length coefs = true) as -> by lia. reflexivity.
Qed.

Lemma blocks_tile {A} sizes : forall (coefs : list A), length coefs = sumN sizes ->
  exists bl, mapM (fun p => patchBlock sizes p coefs) (seq 0 (length sizes)) = Ok bl /\
    concat bl = coefs /\ map (@length A) bl = sizes.
Proof.
  intros coefs Hl.
  exists (map (fun p => firstn (nth p sizes 0) (skipn (sumN (firstn p sizes)) coefs)) (seq 0 (length sizes))).
  split.
  - apply mapM_ok. intros p Hp. apply in_seq in Hp. apply patchBlock_ok; auto. apply nth_error_nth'. lia.
  - revert coefs Hl. induction sizes as [|n s IH]; intros coefs Hl; simpl in *.
    + destruct coefs; [auto|discriminate].
    + assert (length (skipn n coefs) = sumN s) as L by (rewrite skipn_length; lia).
      destruct (IH (skipn n coefs) L) as [I1 I2]. rewrite <- seq_shift, map_map.
      assert (forall (f g : nat -> list A), (forall p, f p = g p) -> map f (seq 0 (length s)) = map g (seq 0 (length s))) as E by (intros; apply map_ext; auto).
      rewrite (E _ (fun p => firstn (nth p s 0) (skipn (sumN (firstn p s)) (skipn n coefs)))).
      2: { intros p. simpl. rewrite skipn_skipn'. reflexivity. }
      rewrite I1, I2. rewrite firstn_skipn. split; auto. f_equal. rewrite firstn_length. lia.
Qed.

Lemma dofs_from_pos sizes : forall p0 p k, nth_error sizes (p - p0) <> None -> p0 <= p -> k < nth (p - p0) sizes 0 ->
  pos_in (p, k) (dofs_from p0 sizes) = sumN (firstn (p - p0) sizes) + k.
Proof.
  assert (forall p q k n m (r : list dof), q <> p -> pos_in (p, k) (map (fun k => (q, k)) (seq m n) ++ r) = n + pos_in (p, k) r) as X1.
  { intros p q k n m r Hq. revert m. induction n as [|n IH]; intros m; simpl; auto. unfold dof_eqb. simpl.
    assert (p =? q = false) as -> by lia. simpl. rewrite IH. auto. }
  assert (forall p k n m (r : list dof), m <= k < m + n -> pos_in (p, k) (map (fun k => (p, k)) (seq m n) ++ r) = k - m) as X2.
  { intros p k n m r. revert m. induction n as [|n IH]; intros m Hk; simpl; [lia|]. unfold dof_eqb. simpl.
    rewrite Nat.eqb_refl. simpl. destruct (k =? m) eqn:E; [lia|]. rewrite IH by lia. lia. }
  induction sizes as [|n s IH]; intros p0 p k H1 H2 H3.
  - destruct (p - p0); simpl in H1; congruence.
  - simpl dofs_from. destruct (p - p0) as [|d] eqn:Ed.
    + assert (p = p0) as -> by lia. simpl in H3. rewrite X2 by lia. simpl. lia.
    + rewrite X1 by lia. simpl in H1, H3. rewrite (IH (S p0) p k); [|replace (p - S p0) with d by lia; auto|lia|replace (p - S p0) with d by lia; auto].
      replace (p - S p0) with d by lia. simpl. lia.
Qed.

Lemma orig_index sizes p k n : nth_error sizes p = Some n -> k < n -> mindex (mkM sizes []) k p = Ok (sumN (firstn p sizes) + k).
Proof.
  intros Hn Hk. unfold mindex, valid_dof. simpl fst. simpl snd. cbn [msizes]. rewrite Hn.
  assert (k <? n = true) as -> by lia. unfold is_free, is_free_dof. simpl. f_equal.
  unfold free_list. rewrite filter_all by reflexivity. unfold all_dofs. cbn [msizes].
  rewrite dofs_from_pos; replace (p - 0) with p by lia; auto; try lia; [congruence|].
  erewrite nth_error_nth; eauto.
Qed.

Lemma block_reads_own_row {A} sizes p (coefs : list A) n k : nth_error sizes p = Some n -> k < n -> length coefs = sumN sizes ->
  exists b r, patchBlock sizes p coefs = Ok b /\ mindex (mkM sizes []) k p = Ok r /\ nth_error b k = nth_error coefs r /\ r < length coefs.
Proof.
  intros Hn Hk Hl. eexists. exists (sumN (firstn p sizes) + k). split; [apply patchBlock_ok; eauto|]. split; [eapply orig_index; eauto|].
  split.
  - assert (forall m (l : list A) k, k < m -> nth_error (firstn m l) k = nth_error l k) as F.
    { clear. induction m as [|m IH]; intros [|x l] [|k] H; simpl; auto; try lia. apply IH. lia. }
    assert (forall m (l : list A) k, nth_error (skipn m l) k = nth_error l (m + k)) as G.
    { clear. induction m as [|m IH]; intros [|x l] k; simpl; auto. destruct k; auto. }
    rewrite F, G by auto. auto.
  - rewrite Hl. clear Hl. revert p Hn. induction sizes as [|m s IH]; intros [|p] Hn; simpl in *; try discriminate.
    + injection Hn as ->. lia.
    + apply IH in Hn. lia.
Qed.

(** ** cache *)
Lemma export_true {A} fresh sizes p (c : cache A) : exportPatch fresh sizes p true c = exportPatch fresh sizes p true None.
Proof. destruct c as [[|]|]; reflexivity. Qed.
Lemma export_empty {A} fresh sizes p (b : bool) : exportPatch fresh sizes p b (None : cache A) = exportPatch fresh sizes p true None.
Proof. reflexivity. Qed.

Lemma export_all {A} fresh sizes (g : list A) c : g <> [] -> length g = sumN sizes ->
  exists bl, exportToPatches fresh (Ok g) sizes c = Ok (bl, Some g) /\ concat bl = g /\ map (@length A) bl = sizes.
Proof.
  intros Hne Hl. destruct (blocks_tile sizes g Hl) as (bl & E & C & L).
  exists bl. split; [|auto]. unfold exportToPatches. cbn [bind].
  assert (forall ps bl acc, mapM (fun p => patchBlock sizes p g) ps = Ok bl ->
    foldM (fun (st : list (list A) * cache A) p => do x <- exportPatch fresh sizes p false (snd st); Ok (fst st ++ [fst x], snd x)) ps (acc, Some g)
    = Ok (acc ++ bl, Some g)) as X.
  { clear - Hne. induction ps as [|p ps IH]; intros bl acc H; simpl in H.
    - injection H as <-. rewrite app_nil_r. reflexivity.
    - destruct (patchBlock sizes p g) as [b|] eqn:Eb; [|discriminate]. cbn [bind] in H.
      destruct (mapM _ ps) as [bs|] eqn:Eb2; [|discriminate]. cbn [bind] in H. injection H as <-.
      assert (exportPatch fresh sizes p false (Some g) = Ok (b, Some g)) as Es.
      { unfold exportPatch. destruct g as [|x g]; [congruence|]. cbn [bind]. rewrite Eb. reflexivity. }
      specialize (IH bs (acc ++ [b]) eq_refl). rewrite <- app_assoc in IH. simpl app in IH. rewrite <- IH.
      simpl foldM at 1. rewrite Es. reflexivity. }
  rewrite (X _ _ [] E). reflexivity.
Qed.

Lemma export_history {A} (g : list A) sizes : length g = sumN sizes -> forall calls c,
  (forall p b, In (p, b) calls -> p < length sizes) -> c = None \/ c = Some g ->
  forall out, run_calls (exportPatch (Ok g) sizes) calls c out ->
  Forall2 (fun call b => patchBlock sizes (fst call) g = Ok b) calls out.
Proof.
  intros Hl calls c Hp Hc out H. revert Hp Hc. induction H as [c|p b rest c o c' out H1 H2 IH]; intros Hp Hc; [constructor|].
  assert (o = o /\ patchBlock sizes p g = Ok o /\ c' = Some g) as (_ & G1 & G2).
  { unfold exportPatch in H1. destruct Hc as [-> | ->].
    - cbn [bind] in H1. destruct (patchBlock sizes p g); [|discriminate]. injection H1 as <- <-. auto.
    - destruct g as [|x g]; [|destruct b]; cbn [bind] in H1;
      (destruct (patchBlock sizes p _); [|discriminate]); injection H1 as <- <-; auto. }
  constructor; auto. apply IH; auto. intros q b' Hq. apply (Hp q b'). right; auto.
Qed.
Lemma export_history_runs {A} (g : list A) sizes : length g = sumN sizes -> forall calls c,
  (forall p b, In (p, b) calls -> p < length sizes) -> c = None \/ c = Some g ->
  exists out, run_calls (exportPatch (Ok g) sizes) calls c out.
Proof.
  intros Hl. induction calls as [|[p b] calls IH]; intros c Hp Hc; [eexists; constructor|].
  destruct (nth_error sizes p) as [n|] eqn:En; [|apply nth_error_None in En; specialize (Hp p b (or_introl eq_refl)); lia].
  pose proof (patchBlock_ok sizes p g n En Hl) as E.
  destruct (IH (Some g)) as [out Ho]; [intros q b' Hq; apply (Hp q b'); right; auto|auto|].
  exists (firstn n (skipn (sumN (firstn p sizes)) g) :: out). econstructor; [|exact Ho].
  unfold exportPatch. destruct Hc as [-> | ->].
  - cbn [bind]. rewrite E. reflexivity.
  - destruct g as [|x g]; [|destruct b]; cbn [bind]; rewrite E; reflexivity.
Qed.

Lemma stale_cache : exists (sizes : list nat) (fresh g : list nat) bl c b c', length fresh = sumN sizes /\ length g = sumN sizes /\
  exportToPatches (Ok fresh) (Ok g) sizes None = Ok (bl, c) /\
  exportPatch (Ok fresh) sizes 0 false c = Ok (b, c') /\
  patchBlock sizes 0 fresh <> Ok b.
Proof.
  exists [1], [7], [8]. do 4 eexists. split; [reflexivity|]. split; [reflexivity|]. split; [reflexivity|]. split; [reflexivity|].
  vm_compute. discriminate.
Qed.

(** ** compute twice *)
Lemma compute_members_twice t Bb sharp s s1 : compute_members t Bb sharp s = Ok s1 ->
  compute_members t Bb sharp s1 = Ok s1.
Proof.
  unfold compute_members. destruct sharp as [c0|]; [|discriminate]. cbn [bind initBases mB mC0 mB0 mSize mMap mOrig mMat mRows mCols mDone].
  destruct (countDoFs _) as [size|]; [|discriminate]. cbn [bind mB mC0 mB0 mSize mMap mOrig mMat mRows mCols mDone].
  destruct (computeMapper _) as [m|]; [|discriminate]. cbn [bind mB mC0 mB0 mSize mMap mOrig mMat mRows mCols mDone].
  destruct (ensure _); [|discriminate]. cbn [bind].
  destruct (computeSmoothMatrix _) as [w|]; [|discriminate]. cbn [bind].
  intros E. injection E as <-. reflexivity.
Qed.

Lemma compute_members_result t Bb c0 s R : compute (mkIn t Bb c0) = Ok R ->
  exists s1, compute_members t Bb (Ok c0) s = Ok s1 /\ mB s1 = Bb /\ mMap s1 = rMap R /\ mMat s1 = rMat R /\ mRows s1 = rRows R.
Proof.
  unfold compute, compute_members. cbn [bind initBases mB mC0 mB0 mSize mMap mOrig mMat mRows mCols mDone ibases].
  destruct (countDoFs _) as [size|]; [|discriminate]. cbn [bind mB mC0 mB0 mSize mMap mOrig mMat mRows mCols mDone].
  destruct (computeMapper _) as [m|]; [|discriminate]. cbn [bind mB mC0 mB0 mSize mMap mOrig mMat mRows mCols mDone].
  destruct (ensure _); [|discriminate]. cbn [bind].
  destruct (computeSmoothMatrix _) as [w|]; [|discriminate]. cbn [bind].
  intros E. injection E as <-. eexists. split; [reflexivity|]. simpl. rewrite app_nil_r. auto.
Qed.

Lemma appended_twice v raise Bb s : v = BaseTHB \/ v = DPatch -> Bb <> [] ->
  mB (initBases v raise Bb (initBases v raise Bb s)) <> mB (initBases v raise Bb s).
Proof.
  intros Hv Hb E. apply (f_equal (@length tbasis)) in E. destruct Bb as [|b Bb]; [congruence|].
  destruct Hv as [-> | ->]; simpl in E; rewrite ?app_length in E; simpl in E; rewrite ?map_length in E; lia.
Qed.
