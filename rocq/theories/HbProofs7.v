(** C74: what the boxes of _innerBoxesAreSuitable refine, and the list of patches to be checked. *)
From Coq Require Import Lia ZifyBool.
From Verif Require Import Common ListLemmas TopoModel TopoSpec HbModel HbSpec TopoProofs HbProofs HbProofs2 HbProofs3 HbProofs4 HbProofs6.

(** ** the inner boxes *)
Definition lists (l0 M x y : nat) (bs : list hbox) : Prop := exists b, In b bs /\ l0 <= bl b /\ in_box M b x y.

Lemma lists_app l0 M x y a b : lists l0 M x y (a ++ b) <-> lists l0 M x y a \/ lists l0 M x y b.
Proof. unfold lists. split; [intros (c & C & Q); apply in_app_iff in C; destruct C; [left|right]; exists c; auto|intros [(c & C & Q)|(c & C & Q)]; exists c; (split; [apply in_app_iff; auto|exact Q])]. Qed.
Lemma refined_lists h l0 M x y : refined h l0 M x y <-> lists l0 M x y (hboxes h). Proof. reflexivity. Qed.
Lemma addBox1_sound h b l0 M x y : lists l0 M x y (addBox1 h b) -> l0 <= bl b /\ in_box M b x y.
Proof. unfold addBox1. destruct (_ && _); [|intros (c & [] & _)]. intros (c & [<-|[]] & Q). exact Q. Qed.
Lemma addBox1_cover h b l0 M x y : 1 <= bl b -> below h M -> l0 <= bl b -> in_box M b x y -> refined h l0 M x y \/ lists l0 M x y (addBox1 h b).
Proof.
  intros L B L0 Q. destruct (addBox1 h b) eqn:E.
  - left. apply addBox1_nil in E; [|exact L]. destruct (E M x y B Q) as (c & C & Lc & I). exists c. split; [exact C|]. split; [lia|exact I].
  - right. unfold addBox1 in E. destruct (_ && _); [|discriminate E]. injection E as <- <-. exists b. split; [left; reflexivity|auto].
Qed.

Lemma innerBoxes_exact t incr p h : 1 <= hpu h -> 1 <= hpv h -> 2 * Nat.min (hpu h) (incr + 1) <= 2 * hnu h -> 2 * Nat.min (hpv h) (incr + 1) <= 2 * hnv h ->
  forall l0 M x y, below h M -> refined (refineElements h (innerBoxes h incr t p)) l0 M x y <-> refined h l0 M x y \/ inner_cover h incr t p l0 M x y.
Proof.
  intros PU PV NU NV l0 M x y B.
  assert (P2 : forall l, 1 <= l -> 2 <= 2 ^ l). { intros l Hl. destruct l as [|l]; [lia|]. pose proof (pow2_pos l). cbn [Nat.pow]. lia. }
  rewrite (refined_lists (refineElements _ _)). cbn [refineElements hboxes]. rewrite lists_app, <- refined_lists, innerBoxes_flat.
  assert (Dims : forall l, 1 <= l -> 2 <= depth h incr West <= hnu h * 2 ^ l /\ 2 <= depth h incr South <= hnv h * 2 ^ l). { intros l L. specialize (P2 l L). cbn [depth]. unfold depth. split; (split; [lia|]); nia. }
  assert (Cell : forall l s k, k < elem_count h l s -> 1 <= l -> leaf_at h l s k -> exists i j, (match s with West => i = 0 /\ j = k | East => i + 1 = hnu h * 2 ^ l /\ j = k | South => i = k /\ j = 0 | North => i = k /\ j + 1 = hnv h * 2 ^ l end) /\ l <= maxLevel h /\ In (i, j) (leaves h l)).
  { intros l s k K L (AR & NR).
    assert (Lm : l <= maxLevel h).
    { assert (B' : below h (Nat.max l (maxLevel h))) by (apply below_maxLevel; lia). set (M' := Nat.max l (maxLevel h)) in *. pose proof (pow2_pos (M' - l)).
      assert (Q : exists x y, in_box M' (side_elem h l s k 0) x y).
      { specialize (P2 l L). assert (1 <= hnu h * 2 ^ l) by nia. assert (1 <= hnv h * 2 ^ l) by nia. exists (bu0 (side_elem h l s k 0) * 2 ^ (M' - l)), (bv0 (side_elem h l s k 0) * 2 ^ (M' - l)). unfold in_box. destruct s; cbn [side_elem bl bu0 bv0 bu1 bv1]; rewrite !Nat.div_mul by lia; lia. }
      destruct Q as (x' & y' & Q). destruct (AR M' x' y' B' Q) as (b & Hb & Lb & _). pose proof (maxLevel_below h b Hb). lia. }
    specialize (Dims l L). destruct s; cbn [side_elem elem_count] in AR, NR, K.
    - exists 0, k. split; [auto|]. split; [exact Lm|]. apply in_leaves; [lia|]. split; [lia|]. split; [exact K|]. split; assumption.
    - exists (hnu h * 2 ^ l - 1), k. split; [lia|]. split; [exact Lm|]. apply in_leaves; [lia|]. split; [lia|]. split; [exact K|]. rewrite !Nat.sub_0_r in AR, NR. assert (E : mkBox l (hnu h * 2 ^ l - 1) k (hnu h * 2 ^ l) (k + 1) = cell l (hnu h * 2 ^ l - 1) k) by (unfold cell; f_equal; lia). rewrite E in AR, NR. split; assumption.
    - exists k, 0. split; [auto|]. split; [exact Lm|]. apply in_leaves; [lia|]. split; [exact K|]. split; [lia|]. split; assumption.
    - exists k, (hnv h * 2 ^ l - 1). split; [lia|]. split; [exact Lm|]. apply in_leaves; [lia|]. split; [exact K|]. split; [lia|]. rewrite !Nat.sub_0_r in AR, NR. assert (E : mkBox l k (hnv h * 2 ^ l - 1) (k + 1) (hnv h * 2 ^ l) = cell l k (hnv h * 2 ^ l - 1)) by (unfold cell; f_equal; lia). rewrite E in AR, NR. split; assumption. }
  split; (intros [Q|Q]; [left; exact Q|]).
  - destruct Q as (b & Hb & L0 & I). apply in_flat_map in Hb. destruct Hb as (l & Hl & Hb). apply in_seq in Hl. apply in_flat_map in Hb. destruct Hb as ((i, j) & Hc & Hb). apply in_leaves in Hc; [|lia]. destruct Hc as (Hi & Hj & Ex). right.
    destruct (Dims l ltac:(lia)) as (D1 & D2). unfold innerBox1 in Hb. cbv zeta in Hb. cbn [fst snd] in Hb. rewrite !in_app_iff in Hb.
    assert (Ad : forall c, In b (addBox1 h c) -> l0 <= bl c /\ in_box M c x y) by (intros c Hc; apply (addBox1_sound h c); exists b; auto).
    change (hdist (hpu h) incr) with (depth h incr West) in Hb. change (hdist (hpv h) incr) with (depth h incr South) in Hb. unfold elems in Hb.
    destruct Hb as [Hb|[Hb|[Hb|Hb]]].
    + destruct (isInterface t (p, West) && (i =? 0) && (i + 1 <? depth h incr West)) eqn:C in Hb; [|destruct Hb]. rewrite !Bool.andb_true_iff, Nat.eqb_eq in C. destruct C as ((If & ->) & _). apply Ad in Hb. destruct Hb as (Ll & J). cbn [bl] in Ll.
      destruct J as (J0 & J1 & J2). cbn [bl bu0 bu1 bv0 bv1] in *. exists West, l, j, (x / 2 ^ (M - l)). do 5 (split; [first [assumption|cbn [elem_count]; lia]|]). split; [exact Ex|]. split; cbn [side_elem bl bu0 bu1 bv0 bv1]; lia.
    + destruct (isInterface t (p, East) && _ && _ && _) eqn:C in Hb; [|destruct Hb]. rewrite !Bool.andb_true_iff, Nat.eqb_eq in C. destruct C as (((If & Ei) & _) & _). apply Ad in Hb. destruct Hb as (Ll & J). cbn [bl] in Ll.
      destruct J as (J0 & J1 & J2). cbn [bl bu0 bu1 bv0 bv1] in *. exists East, l, j, (i - x / 2 ^ (M - l)). change (depth h incr East) with (depth h incr West). do 5 (split; [first [assumption|cbn [elem_count]; lia]|]). split; [|split; cbn [side_elem bl bu0 bu1 bv0 bv1]; lia].
      unfold leaf_at. assert (E : side_elem h l East j 0 = cell l i j) by (unfold side_elem, cell; f_equal; lia). rewrite E. exact Ex.
    + destruct (isInterface t (p, South) && (j =? 0) && _) eqn:C in Hb; [|destruct Hb]. rewrite !Bool.andb_true_iff, Nat.eqb_eq in C. destruct C as ((If & ->) & _). apply Ad in Hb. destruct Hb as (Ll & J). cbn [bl] in Ll.
      destruct J as (J0 & J1 & J2). cbn [bl bu0 bu1 bv0 bv1] in *. exists South, l, i, (y / 2 ^ (M - l)). do 5 (split; [first [assumption|cbn [elem_count]; lia]|]). split; [exact Ex|]. split; cbn [side_elem bl bu0 bu1 bv0 bv1]; lia.
    + destruct (isInterface t (p, North) && _ && _ && _) eqn:C in Hb; [|destruct Hb]. rewrite !Bool.andb_true_iff, Nat.eqb_eq in C. destruct C as (((If & Ei) & _) & _). apply Ad in Hb. destruct Hb as (Ll & J). cbn [bl] in Ll.
      destruct J as (J0 & J1 & J2). cbn [bl bu0 bu1 bv0 bv1] in *. exists North, l, i, (j - y / 2 ^ (M - l)). change (depth h incr North) with (depth h incr South). do 5 (split; [first [assumption|cbn [elem_count]; lia]|]). split; [|split; cbn [side_elem bl bu0 bu1 bv0 bv1]; lia].
      unfold leaf_at. assert (E : side_elem h l North i 0 = cell l i j) by (unfold side_elem, cell; f_equal; lia). rewrite E. exact Ex.
  - destruct Q as (s & l & k & d & If & L & L0 & K & D & Lf & I). destruct (Dims l L) as (D1 & D2). destruct (Cell l s k K L Lf) as (i & j & Eij & Lm & Hc).
    assert (Up : forall c, 1 <= bl c -> l0 <= bl c -> in_box M c x y -> incl (addBox1 h c) (innerBox1 h incr t p l (i, j)) -> refined h l0 M x y \/ lists l0 M x y (flat_map (fun l => flat_map (innerBox1 h incr t p l) (leaves h l)) (seq 1 (maxLevel h)))).
    { intros c Lc L0c Ic Inc. destruct (addBox1_cover h c l0 M x y Lc B L0c Ic) as [Q|(b & Hb & Q)]; [left; exact Q|right]. exists b. split; [|exact Q]. apply in_flat_map. exists l. split; [apply in_seq; lia|]. apply in_flat_map. exists (i, j). split; [exact Hc|]. apply Inc, Hb. }
    destruct I as (J0 & J1 & J2). unfold innerBox1 in Up. cbv zeta in Up. cbn [fst snd] in Up. change (hdist (hpu h) incr) with (depth h incr West) in Up. change (hdist (hpv h) incr) with (depth h incr South) in Up. unfold elems in Up.
    destruct s; cbn [side_elem bl bu0 bu1 bv0 bv1] in J0, J1, J2; cbn [elem_count] in K.
    + destruct Eij as (-> & ->). apply (Up (mkBox l 0 k (depth h incr West) (k + 1))); [exact L|exact L0|split; cbn [bl bu0 bu1 bv0 bv1]; lia|]. intros b Hb. rewrite !in_app_iff. left. rewrite If. cbn [andb Nat.eqb]. replace (0 + 1 <? depth h incr West) with true by (symmetry; apply Nat.ltb_lt; lia). exact Hb.
    + destruct Eij as (Ei & ->). change (depth h incr East) with (depth h incr West) in D. apply (Up (mkBox l (hnu h * 2 ^ l - depth h incr West) k (i + 1) (k + 1))); [exact L|exact L0|split; cbn [bl bu0 bu1 bv0 bv1]; lia|]. intros b Hb. rewrite !in_app_iff. right. left. rewrite If. cbn [andb]. rewrite (proj2 (Nat.eqb_eq _ _) Ei). replace (hnu h * 2 ^ l <? i + depth h incr West) with true by (symmetry; apply Nat.ltb_lt; lia). replace (depth h incr West <=? hnu h * 2 ^ l) with true by (symmetry; apply Nat.leb_le; lia). exact Hb.
    + destruct Eij as (-> & ->). apply (Up (mkBox l k 0 (k + 1) (depth h incr South))); [exact L|exact L0|split; cbn [bl bu0 bu1 bv0 bv1]; lia|]. intros b Hb. rewrite !in_app_iff. right. right. left. rewrite If. cbn [andb Nat.eqb]. replace (0 + 1 <? depth h incr South) with true by (symmetry; apply Nat.ltb_lt; lia). exact Hb.
    + destruct Eij as (-> & Ei). change (depth h incr North) with (depth h incr South) in D. apply (Up (mkBox l k (hnv h * 2 ^ l - depth h incr South) (k + 1) (j + 1))); [exact L|exact L0|split; cbn [bl bu0 bu1 bv0 bv1]; lia|]. intros b Hb. rewrite !in_app_iff. right. right. right. rewrite If. cbn [andb]. rewrite (proj2 (Nat.eqb_eq _ _) Ei). replace (hnv h * 2 ^ l <? j + depth h incr South) with true by (symmetry; apply Nat.ltb_lt; lia). replace (depth h incr South <=? hnv h * 2 ^ l) with true by (symmetry; apply Nat.leb_le; lia). exact Hb.
Qed.

(** ** the list of patches to be checked *)
Lemma push_spec l q : exists e, push l q = l ++ e /\ NoDup e /\ forall z, In z e <-> z = q /\ ~ In z l.
Proof.
  unfold push. destruct (existsb (Nat.eqb q) l) eqn:E.
  - apply existsb_exists in E. destruct E as (z & Z & E). apply Nat.eqb_eq in E. subst z. exists []. rewrite app_nil_r. split; [reflexivity|]. split; [constructor|]. intros z. split; [intros []|intros (-> & N); contradiction].
  - exists [q]. split; [reflexivity|]. split; [constructor; [intros []|constructor]|]. intros z. split.
    + intros [<-|[]]. split; [reflexivity|]. intros Q. enough (existsb (Nat.eqb q) l = true) by congruence. apply existsb_exists. exists q. split; [exact Q|apply Nat.eqb_refl].
    + intros (-> & _). left. reflexivity.
Qed.
Lemma pushes_spec qs l : exists e, fold_left push qs l = l ++ e /\ NoDup e /\ forall z, In z e <-> In z qs /\ ~ In z l.
Proof.
  revert l. induction qs as [|q qs IH]; intros l; cbn [fold_left].
  - exists []. rewrite app_nil_r. split; [reflexivity|]. split; [constructor|]. intros z. cbn. tauto.
  - destruct (push_spec l q) as (e1 & E1 & N1 & M1). destruct (IH (push l q)) as (e2 & E2 & N2 & M2). exists (e1 ++ e2). rewrite E2, E1, app_assoc. split; [reflexivity|]. split.
    + clear - N1 N2 M2 E1. induction N1 as [|a e1 Ha N1 IH]; [exact N2|]. cbn [app]. assert (G : forall z, In z e2 -> In z (a :: e1) -> False). { intros z Z1 Z2. apply M2 in Z1. apply Z1. rewrite E1. apply in_or_app. auto. }
      assert (K : forall u, NoDup u -> (forall z, In z e2 -> In z u -> False) -> NoDup (u ++ e2)). { clear - N2. intros u Nu. induction Nu as [|b u Hb Nu IH]; intros D; [exact N2|]. cbn [app]. constructor; [|apply IH; intros z Z1 Z2; apply (D z Z1); right; exact Z2]. rewrite in_app_iff. intros [Q|Q]; [contradiction|]. apply (D b Q). left. reflexivity. }
      apply (K (a :: e1)); [constructor; assumption|exact G].
    + intros z. rewrite in_app_iff, M1, M2, E1, in_app_iff, M1. cbn [In]. destruct (In_dec Nat.eq_dec z l) as [Q|Q]; [tauto|]. destruct (Nat.eq_dec z q) as [->|D]; [tauto|]. assert (q <> z) by congruence. tauto.
Qed.

(** ** no round fails *)
Lemma foldM_total {A B} (f : B -> A -> res B) l : (forall s x, In x l -> exists s', f s x = Ok s') -> forall s, exists s', foldM f l s = Ok s'.
Proof. induction l as [|a l IH]; intros H s; cbn [foldM]; [exists s; reflexivity|]. destruct (H s a (or_introl eq_refl)) as (s1 & ->). cbn [bind]. apply IH. intros s2 x Hx. apply H. right. exact Hx. Qed.
Lemma mapM_total {A B} (f : A -> res B) l : (forall x, In x l -> exists y, f x = Ok y) -> exists ys, mapM f l = Ok ys.
Proof. induction l as [|a l IH]; intros H; cbn [mapM]; [eexists; reflexivity|]. destruct (H a (or_introl eq_refl)) as (y & ->). cbn [bind]. destruct IH as (ys & ->); [intros x Hx; apply H; right; exact Hx|]. cbn [bind]. eexists. reflexivity. Qed.
Lemma addBoundaryBox_total h incr s a b l x : 1 <= hpu h -> 1 <= hpv h -> 2 * Nat.min (hpu h) (incr + 1) <= 2 * hnu h -> 2 * Nat.min (hpv h) (incr + 1) <= 2 * hnv h -> 1 <= l ->
  a <= b < side_count h l s -> exists x', addBoundaryBox h incr s a b l x = Ok x'.
Proof.
  intros PU PV NU NV L AB. assert (P2 : 2 <= 2 ^ l) by (destruct l as [|l]; [lia|]; pose proof (pow2_pos l); cbn [Nat.pow]; lia).
  assert (U : hdist (hpu h) incr <= hnu h * 2 ^ l) by (unfold hdist; nia). assert (V : hdist (hpv h) incr <= hnv h * 2 ^ l) by (unfold hdist; nia). assert (U1 : 2 <= hdist (hpu h) incr) by (unfold hdist; lia). assert (V1 : 2 <= hdist (hpv h) incr) by (unfold hdist; lia).
  unfold addBoundaryBox. cbv zeta. destruct x as (bs, chk). unfold addFunBox. cbv zeta. unfold funs, elems.
  set (du := hdist (hpu h) incr) in *. set (dv := hdist (hpv h) incr) in *. set (nu := hnu h * 2 ^ l) in *. set (nv := hnv h * 2 ^ l) in *.
  destruct s; cbn [side_count] in AB; fold nu in AB; fold nv in AB; cbn [side_dir].
  - replace ((0 <? nu + hpu h) && (a <? nv + hpv h) && (du - 1 <? nu + hpu h) && (b <? nv + hpv h)) with true by lia. cbn [ensure bind]. eexists. reflexivity.
  - replace (du - 1 <=? nu + hpu h - 1) with true by lia. cbn [ensure bind]. replace ((nu + hpu h - 1 - (du - 1) <? nu + hpu h) && (a <? nv + hpv h) && (nu + hpu h - 1 <? nu + hpu h) && (b <? nv + hpv h)) with true by lia. cbn [ensure bind]. eexists. reflexivity.
  - replace ((a <? nu + hpu h) && (0 <? nv + hpv h) && (b <? nu + hpu h) && (dv - 1 <? nv + hpv h)) with true by lia. cbn [ensure bind]. eexists. reflexivity.
  - replace (dv - 1 <=? nv + hpv h - 1) with true by lia. cbn [ensure bind]. replace ((a <? nu + hpu h) && (nv + hpv h - 1 - (dv - 1) <? nv + hpv h) && (b <? nu + hpu h) && (nv + hpv h - 1 <? nv + hpv h)) with true by lia. cbn [ensure bind]. eexists. reflexivity.
Qed.
Lemma matchLevel_total h n incr s sn fl x l : 1 <= hpu h -> 1 <= hpv h -> 2 * Nat.min (hpu h) (incr + 1) <= 2 * hnu h -> 2 * Nat.min (hpv h) (incr + 1) <= 2 * hnv h -> 1 <= l ->
  side_count h l s = side_count n l sn -> exists x', matchLevel h n incr s sn fl x l = Ok x'.
Proof.
  intros PU PV NU NV L C. unfold matchLevel. cbv zeta. assert (Ln : length (if fl then rev (activeBoundary n l sn) else activeBoundary n l sn) = side_count h l s) by (destruct fl; rewrite ?rev_length, activeBoundary_length; lia).
  rewrite activeBoundary_length, Ln, Nat.leb_refl. cbn [ensure bind]. set (r := map _ (seq 0 (side_count h l s))).
  assert (Lr : length r = side_count h l s) by (unfold r; rewrite map_length, seq_length; reflexivity).
  assert (NE : r <> []). { intros Q. rewrite Q in Lr. destruct s; cbn [side_count length] in Lr; lia. }
  destruct (scan_ok r NE) as (R & (HR & _) & Sc). rewrite Sc. apply foldM_total. intros u (a, b) Hab. apply HR in Hab. cbn [fst snd]. apply addBoundaryBox_total; auto. destruct Hab as (Q & _). lia.
Qed.

Section ROUND.
Context (t : topo) (incr : nat) (bs : list hbasis).
Hypothesis IN : hb_input t incr bs.
Lemma matchNeighbours_total p h : vget bs p = Ok h -> exists x, matchNeighbours t bs incr p = Ok x.
Proof.
  intros Gp. destruct (vget_nth_hb bs p h Gp) as (Lp & Np). assert (Hin : In h bs) by (rewrite <- Np; apply nth_In; exact Lp). destruct (hi_degree _ _ _ IN h Hin) as (PU & PV). destruct (hi_size _ _ _ IN h Hin) as (NU & NV).
  assert (Gs : forall s f, getInterface t (p, s) = Some f -> exists q s' n, iother f (p, s) = Ok (q, s') /\ vget bs q = Ok n /\ (forall l, side_count h l s = side_count n l s')).
  { intros s f G. apply getInterface_joins in G. destruct G as (F & q & s' & Io & J). assert (Lq : q < length bs). { rewrite <- (hi_np _ _ _ IN). change q with (fst (q, s')). apply (pside_lt t (q, s') f (hi_topo _ _ _ IN) F). destruct J as [(_ & J)|(_ & J)]; auto. }
    destruct (vget_lt bs q Lq) as (n & Vn). destruct (vget_nth_hb bs q n Vn) as (_ & Nn). pose proof (fun l => joins_count t incr bs IN f p s q s' l F J) as C. rewrite Np, Nn in C. exists q, s', n. auto. }
  unfold matchNeighbours. rewrite Gp. cbn [bind]. destruct (foldM_total (fun x s => match getInterface t (p, s) with None => Ok x | Some f => do ps <- iother f (p, s); do n <- vget bs (fst ps); foldM (matchLevel h n incr s (snd ps) (ifflip f)) (seq 1 (Nat.max (maxLevel h) (maxLevel n))) x end) [West; East; South; North]) with (s := (@nil hbox, repeat false 4)) as (y & ->).
  - intros u s _. destruct (getInterface t (p, s)) as [f|] eqn:G; [|exists u; reflexivity]. destruct (Gs s f G) as (q & s' & n & -> & Vn & C). cbn [bind fst snd]. rewrite Vn. cbn [bind]. apply foldM_total. intros v l Hl. apply in_seq in Hl. apply matchLevel_total; auto. lia.
  - cbn [bind]. destruct (mapM_total (fun s => match getInterface t (p, s) with None => Ok None | Some f => do ps <- iother f (p, s); Ok (Some (fst ps)) end) [West; East; South; North]) as (nb & ->).
    + intros s _. destruct (getInterface t (p, s)) as [f|] eqn:G; [|eexists; reflexivity]. destruct (Gs s f G) as (q & s' & n & -> & _). cbn [bind]. eexists. reflexivity.
    + cbn [bind]. eexists. reflexivity.
Qed.

Lemma repairRound_exact p todo h : vget bs p = Ok h -> exists h' e, repairRound t incr bs p todo = Ok (upd bs p h', todo ++ e) /\ NoDup e /\
  (~ suitable t incr p h -> e = [p] /\ forall l0 M i j, below h M -> refined h' l0 M i j <-> refined h l0 M i j \/ inner_cover h incr t p l0 M i j) /\
  (suitable t incr p h -> (forall q, In q e <-> ~ In q todo /\ exists z f sq, In f (tif t) /\ joins f p z q sq /\ all_flag t incr bs p h z) /\
     forall l0 M i j, refined h' l0 M i j <-> refined h l0 M i j \/ all_cover t incr bs p h l0 M i j).
Proof.
  intros Gp. destruct (vget_nth_hb bs p h Gp) as (Lp & Np). assert (Hin : In h bs) by (rewrite <- Np; apply nth_In; exact Lp). destruct (hi_degree _ _ _ IN h Hin) as (PU & PV). destruct (hi_size _ _ _ IN h Hin) as (NU & NV).
  pose proof (innerBoxes_suitable t incr p h PU PV NU NV) as Su. unfold repairRound. rewrite Gp. cbn [bind]. destruct (innerBoxes h incr t p) as [|b0 add] eqn:Ei.
  - destruct (matchNeighbours_total p h Gp) as ((boxes & chk) & Em). rewrite Em. cbn [bind fst snd]. rewrite vset_ok by exact Lp. cbn [bind]. destruct (matchNeighbours_exact t incr bs IN p h boxes chk Gp Em) as (Ex & Ck). destruct (pushes_spec chk todo) as (e & Ee & Ne & Me). exists (refineElements h boxes), e. rewrite Ee.
    split; [reflexivity|]. split; [exact Ne|]. split; [intros N; exfalso; apply N, Su; reflexivity|]. intros _. split.
    + intros q. rewrite Me, Ck. tauto.
    + intros l0 M i j. rewrite <- Ex. rewrite (refined_lists (refineElements _ _)). cbn [refineElements hboxes]. rewrite lists_app. reflexivity.
  - rewrite vset_ok by exact Lp. cbn [bind]. exists (refineElements h (b0 :: add)), [p]. split; [reflexivity|]. split; [constructor; [intros []|constructor]|]. split; [|intros Q; apply Su in Q; discriminate Q]. intros _. split; [reflexivity|]. intros l0 M i j B. rewrite <- Ei. apply innerBoxes_exact; assumption.
Qed.
End ROUND.
