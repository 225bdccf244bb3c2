(** Proofs for C74: the loop over the patches. *)
From Coq Require Import Sorting.Sorted ZifyBool.
From Verif Require Import Common ListLemmas TopoModel TopoSpec IndexProofs TopoProofs HbModel HbSpec HbProofs HbProofs2.

Lemma nth_upd_hb (bs : list hbasis) p q v : p < length bs -> nth q (upd bs p v) nobasis = if p =? q then v else nth q bs nobasis.
Proof.
  revert p q. induction bs as [|a bs IH]; intros p q L; cbn [length] in L; [lia|]. destruct p, q; cbn [upd nth Nat.eqb]; try reflexivity. apply IH. lia.
Qed.
Lemma in_upd_hb (bs : list hbasis) p v x : In x (upd bs p v) -> x = v \/ In x bs.
Proof. revert p. induction bs as [|a bs IH]; intros p H; destruct p; cbn in *; intuition. destruct (IH _ H0); auto. Qed.

Lemma side_count_grown h h' l s : grown h h' -> side_count h' l s = side_count h l s.
Proof. intros (bs & ->). destruct s; reflexivity. Qed.

Lemma hb_input_upd t incr bs p h' : hb_input t incr bs -> p < length bs -> grown (nth p bs nobasis) h' -> hb_input t incr (upd bs p h').
Proof.
  intros [T N D Sz M] L G. assert (Gi : In (nth p bs nobasis) bs) by (apply nth_In; exact L). split.
  - exact T.
  - rewrite upd_length. exact N.
  - intros x Hx. apply in_upd_hb in Hx. destruct Hx as [->|Hx]; [|auto]. destruct G as (b & ->). exact (D _ Gi).
  - intros x Hx. apply in_upd_hb in Hx. destruct Hx as [->|Hx]; [|auto]. destruct G as (b & ->). exact (Sz _ Gi).
  - intros f F. specialize (M f F). unfold at_iface in *. rewrite !nth_upd_hb by exact L. intros l. specialize (M l).
    destruct (Nat.eqb_spec p (fst (if1 f))) as [E1|_], (Nat.eqb_spec p (fst (if2 f))) as [E2|_].
    + rewrite <- E1, <- E2 in M. rewrite !(side_count_grown _ _ _ _ G). exact M.
    + rewrite <- E1 in M. rewrite (side_count_grown _ _ _ _ G). exact M.
    + rewrite <- E2 in M. rewrite (side_count_grown _ _ _ _ G). exact M.
    + exact M.
Qed.

Definition grown_all (bs bs' : list hbasis) : Prop := length bs' = length bs /\ forall p, p < length bs -> grown (nth p bs nobasis) (nth p bs' nobasis).
Lemma grown_all_refl bs : grown_all bs bs. Proof. split; [reflexivity|]. intros p _. apply grown_refl. Qed.
Lemma grown_all_trans a b c : grown_all a b -> grown_all b c -> grown_all a c.
Proof. intros (L1 & G1) (L2 & G2). split; [congruence|]. intros p L. eapply grown_trans; [apply G1; exact L|apply G2; congruence]. Qed.
Lemma grown_all_upd bs p h : p < length bs -> grown (nth p bs nobasis) h -> grown_all bs (upd bs p h).
Proof. intros L G. split; [apply upd_length|]. intros q Q. rewrite nth_upd_hb by exact L. destruct (Nat.eqb_spec p q) as [<-|]; [exact G|apply grown_refl]. Qed.

Lemma push_incl l p q : In q l -> In q (push l p).
Proof. intros H. unfold push. destruct (existsb _ _); [exact H|apply in_or_app; auto]. Qed.
Lemma fold_push_incl ps : forall l q, In q l -> In q (fold_left push ps l).
Proof. induction ps as [|a ps IH]; intros l q H; [exact H|]. cbn [fold_left]. apply IH, push_incl, H. Qed.

(** one round of the loop *)
Lemma repairLoop_round fuel t incr bs p todo : repairLoop (S fuel) t incr bs (p :: todo) =
  do y <- repairRound t incr bs p todo; match snd y with [] => Ok (fst y) | _ => repairLoop fuel t incr (fst y) (snd y) end.
Proof. cbn [repairLoop]. destruct (repairRound t incr bs p todo) as [(a, b)|]; reflexivity. Qed.

Lemma round_spec t incr bs p todo bs' todo' : repairRound t incr bs p todo = Ok (bs', todo') ->
  p < length bs /\ incl todo todo' /\
  ((exists b add, innerBoxes (nth p bs nobasis) incr t p = b :: add /\ bs' = upd bs p (refineElements (nth p bs nobasis) (b :: add)) /\ In p todo') \/
   (exists x, matchNeighbours t bs incr p = Ok x /\ bs' = upd bs p (refineElements (nth p bs nobasis) (fst x)) /\ vget bs p = Ok (nth p bs nobasis))).
Proof.
  unfold repairRound. intros H. destruct (vget bs p) as [h|] eqn:V; [|discriminate H]. cbn [bind] in H. destruct (vget_nth_hb bs p h V) as (L & N). rewrite <- N in *. split; [exact L|].
  destruct (innerBoxes _ incr t p) as [|b add] eqn:I.
  - destruct (matchNeighbours t bs incr p) as [x|] eqn:E; [|discriminate H]. cbn [bind] in H. rewrite vset_ok in H by exact L. cbn [bind] in H. injection H as <- <-. split; [intros q Q; apply fold_push_incl, Q|]. right. exists x. auto.
  - rewrite vset_ok in H by exact L. cbn [bind] in H. injection H as <- <-. split; [intros q Q; apply in_or_app; auto|]. left. exists b, add. split; [reflexivity|]. split; [reflexivity|]. apply in_or_app. right. left. reflexivity.
Qed.

Lemma repairLoop_grows fuel t incr : forall bs todo bs', repairLoop fuel t incr bs todo = Ok bs' -> grown_all bs bs'.
Proof.
  induction fuel as [|fuel IH]; intros bs todo bs' H; [discriminate H|]. destruct todo as [|p todo]; [discriminate H|]. rewrite repairLoop_round in H. destruct (repairRound t incr bs p todo) as [(bs1, todo1)|] eqn:R; [|discriminate H]. cbn [bind fst snd] in H.
  apply round_spec in R. destruct R as (L & _ & R). assert (G : grown_all bs bs1). { destruct R as [(b & add & _ & -> & _)|(x & _ & -> & _)]; apply grown_all_upd; try exact L; eexists; reflexivity. }
  destruct todo1 as [|q todo1]; [injection H as <-; exact G|]. eapply grown_all_trans; [exact G|]. eapply IH. exact H.
Qed.

(** the order at interfaces *)
Definition Inv (t : topo) (bs : list hbasis) (todo : list nat) : Prop :=
  forall f, In f (tif t) -> fst (if1 f) <> fst (if2 f) -> In (fst (if1 f)) todo \/ In (fst (if2 f)) todo \/ at_iface ordered bs f.

Lemma within_shape h s h' s' fl h2 : h2 = h -> within h s h' s' fl -> within h2 s h' s' fl. Proof. intros ->. auto. Qed.

Lemma round_inv t incr bs p todo bs' todo' : hb_input t incr bs -> Inv t bs (p :: todo) -> repairRound t incr bs p todo = Ok (bs', todo') -> hb_input t incr bs' /\ Inv t bs' todo'.
Proof.
  intros IN I R. apply round_spec in R. destruct R as (L & Inc & R). split.
  - destruct R as [(b & add & _ & -> & _)|(x & _ & -> & _)]; apply hb_input_upd; try assumption; eexists; reflexivity.
  - intros f F D. destruct (Nat.eq_dec (fst (if1 f)) p) as [E1|N1]; [|destruct (Nat.eq_dec (fst (if2 f)) p) as [E2|N2]].
    + destruct R as [(b & add & _ & _ & Q)|(x & E & -> & V)]; [left; rewrite E1; exact Q|]. right. right. right.
      rewrite !nth_upd_hb by exact L. rewrite (proj2 (Nat.eqb_eq p _) (eq_sym E1)). destruct (Nat.eqb_spec p (fst (if2 f))); [congruence|].
      apply (matchNeighbours_within t incr bs IN p _ x f _ _ _ V E F). left. rewrite <- E1. destruct (if1 f), (if2 f). auto.
    + destruct R as [(b & add & _ & _ & Q)|(x & E & -> & V)]; [right; left; rewrite E2; exact Q|]. right. right. left.
      rewrite !nth_upd_hb by exact L. rewrite (proj2 (Nat.eqb_eq p _) (eq_sym E2)). destruct (Nat.eqb_spec p (fst (if1 f))); [congruence|].
      apply (matchNeighbours_within t incr bs IN p _ x f _ _ _ V E F). right. rewrite <- E2. destruct (if1 f), (if2 f). auto.
    + destruct (I f F D) as [[Q|Q]|[[Q|Q]|Q]]; [congruence|left; apply Inc, Q|congruence|right; left; apply Inc, Q|]. right. right. unfold at_iface in *.
      destruct R as [(b & add & _ & -> & _)|(x & _ & -> & _)]; rewrite !nth_upd_hb by exact L; destruct (Nat.eqb_spec p (fst (if1 f))), (Nat.eqb_spec p (fst (if2 f))); try congruence; exact Q.
Qed.
Lemma repairLoop_ordered fuel t incr : forall bs todo bs', hb_input t incr bs -> Inv t bs todo -> repairLoop fuel t incr bs todo = Ok bs' -> hb_input t incr bs' /\ Inv t bs' [].
Proof.
  induction fuel as [|fuel IH]; intros bs todo bs' IN I H; [discriminate H|]. destruct todo as [|p todo]; [discriminate H|]. rewrite repairLoop_round in H. destruct (repairRound t incr bs p todo) as [(bs1, todo1)|] eqn:R; [|discriminate H]. cbn [bind fst snd] in H.
  apply round_inv in R; [|exact IN|exact I]. destruct R as (IN1 & I1). destruct todo1 as [|q todo1]; [injection H as <-; auto|]. eapply IH; eassumption.
Qed.

Lemma repair_ordered fuel t incr bs sf bs' : hb_input t incr bs ->
  (forall p, sf = Some p -> forall f, In f (tif t) -> fst (if1 f) <> p -> fst (if2 f) <> p -> at_iface ordered bs f) ->
  repairPatches fuel t incr bs sf = Ok bs' -> forall f, In f (tif t) -> fst (if1 f) <> fst (if2 f) -> at_iface ordered bs' f.
Proof.
  intros IN S0 H f F D. unfold repairPatches in H. apply repairLoop_ordered in H; [|exact IN|].
  - destruct H as (_ & H). destruct (H f F D) as [[]|[[]|Q]]. exact Q.
  - clear f F D. intros f F D. destruct sf as [p|].
    + destruct (Nat.eq_dec (fst (if1 f)) p) as [->|N1]; [left; left; reflexivity|]. destruct (Nat.eq_dec (fst (if2 f)) p) as [->|N2]; [right; left; left; reflexivity|]. right. right. apply (S0 p); auto.
    + left. apply in_seq. destruct (hi_topo _ _ _ IN) as (P & _). pose proof (hi_np _ _ _ IN) as Np.
      assert (Q : In (if1 f) (all_sides (tnp t))). { apply (Permutation_in _ P). apply in_or_app. left. unfold iface_sides. apply in_flat_map. exists f. cbn; auto. }
      unfold all_sides in Q. apply in_flat_map in Q. destruct Q as (x & X & Q). apply in_seq in X. apply in_map_iff in Q. destruct Q as (y & Q & _). rewrite <- Q. cbn [fst]. lia.
Qed.

(** ** inner boxes *)
Definition addBox1 (h : hbasis) (b : hbox) : list hbox := if (bu0 b <? bu1 b) && (bv0 b <? bv1 b) && negb (atLeast h (bl b) b) then [b] else [].
Lemma addBox_app h b bs : addBox h b bs = bs ++ addBox1 h b.
Proof. unfold addBox, addBox1. destruct (_ && _ && _); [reflexivity|rewrite app_nil_r; reflexivity]. Qed.
Definition innerBox1 (h : hbasis) (incr : nat) (t : topo) (p : nat) (l : nat) (c : nat * nat) : list hbox :=
  let i := fst c in let j := snd c in
  let du := hdist (hpu h) incr in let dv := hdist (hpv h) incr in
  let uM := elems (hnu h) l in let vM := elems (hnv h) l in
  (if isInterface t (p, West) && (i =? 0) && (i + 1 <? du) then addBox1 h (mkBox l i j du (j + 1)) else []) ++
  (if isInterface t (p, East) && (i + 1 =? uM) && (uM <? i + du) && (du <=? uM) then addBox1 h (mkBox l (uM - du) j (i + 1) (j + 1)) else []) ++
  (if isInterface t (p, South) && (j =? 0) && (j + 1 <? dv) then addBox1 h (mkBox l i j (i + 1) dv) else []) ++
  (if isInterface t (p, North) && (j + 1 =? vM) && (vM <? j + dv) && (dv <=? vM) then addBox1 h (mkBox l i (vM - dv) (i + 1) (j + 1)) else []).
Lemma innerBox_app h incr t p l c bs : innerBox h incr t p l c bs = bs ++ innerBox1 h incr t p l c.
Proof.
  unfold innerBox, innerBox1. cbv zeta. rewrite !addBox_app.
  destruct (isInterface t (p, West) && _ && _); destruct (isInterface t (p, East) && _ && _ && _); destruct (isInterface t (p, South) && _ && _); destruct (isInterface t (p, North) && _ && _ && _);
    rewrite ?addBox_app, ?app_nil_r; cbn [app]; rewrite ?app_assoc, ?app_nil_r; reflexivity.
Qed.
Lemma fold_left_app_flat {A B} (f : list B -> A -> list B) (g : A -> list B) l : (forall bs a, f bs a = bs ++ g a) -> forall bs, fold_left f l bs = bs ++ flat_map g l.
Proof. intros H. induction l as [|a l IH]; intros bs; cbn [fold_left flat_map]; [rewrite app_nil_r; reflexivity|]. rewrite IH, H, app_assoc. reflexivity. Qed.
Lemma innerBoxes_flat h incr t p : innerBoxes h incr t p = flat_map (fun l => flat_map (innerBox1 h incr t p l) (leaves h l)) (seq 1 (maxLevel h)).
Proof.
  unfold innerBoxes. rewrite (fold_left_app_flat _ (fun l => flat_map (innerBox1 h incr t p l) (leaves h l))); [reflexivity|]. intros bs l. apply fold_left_app_flat. intros bs' c. apply innerBox_app.
Qed.
Lemma flat_map_nil {A B} (f : A -> list B) l : flat_map f l = [] <-> forall a, In a l -> f a = [].
Proof.
  induction l as [|a l IH]; cbn [flat_map]; [split; [intros _ a []|reflexivity]|]. split.
  - intros H. apply app_eq_nil in H. destruct H as (H1 & H2). intros x [<-|Hx]; [exact H1|]. apply IH; assumption.
  - intros H. rewrite (H a (or_introl eq_refl)). apply IH. intros x Hx. apply H. right. exact Hx.
Qed.

Definition cell (l i j : nat) : hbox := mkBox l i j (i + 1) (j + 1).
Definition exactly (h : hbasis) (l i j : nat) : Prop := all_refined h l (cell l i j) /\ forall M x y, below h M -> in_box M (cell l i j) x y -> ~ refined h (S l) M x y.
Lemma in_leaves h l i j : 1 <= l <= maxLevel h -> In (i, j) (leaves h l) <-> i < hnu h * 2 ^ l /\ j < hnv h * 2 ^ l /\ exactly h l i j.
Proof.
  intros L. unfold leaves. cbv zeta. rewrite filter_In, in_cells by (cbn [bl]; lia). cbn [fst snd]. unfold in_box at 1, elems. cbn [bl bu0 bv0 bu1 bv1]. rewrite Nat.sub_diag, Nat.pow_0_r, !Nat.div_1_r. fold (cell l i j).
  assert (B : below h (maxLevel h)) by apply maxLevel_below.
  assert (E : forallb (fun x => levelAt h (maxLevel h) (fst x) (snd x) =? l) (cellsOf (maxLevel h) (cell l i j)) = true <-> exactly h l i j).
  { rewrite forallb_forall. split.
    - intros H.
      assert (G : forall M x y, below h M -> in_box M (cell l i j) x y -> refined h l M x y /\ ~ refined h (S l) M x y).
      { intros M x y BM I. assert (LM : maxLevel h <= M) by (apply below_maxLevel; exact BM).
        apply (in_box_coarse M (maxLevel h)) in I; [|cbn [cell bl]; lia|exact LM]. rewrite !(refined_coarse h _ M (maxLevel h) x y B LM).
        specialize (H (x / 2 ^ (M - maxLevel h), y / 2 ^ (M - maxLevel h))). rewrite in_cells in H by (cbn [cell bl]; lia). cbn [fst snd] in H. specialize (H I). apply Nat.eqb_eq in H.
        rewrite <- !levelAt_ge by (lia || exact B). lia. }
      split; [intros M x y BM I; apply G; assumption|intros M x y BM I; apply G; assumption].
    - intros (H1 & H2) (x, y) Hc. rewrite in_cells in Hc by (cbn [cell bl]; lia). cbn [fst snd] in *. apply Nat.eqb_eq. specialize (H1 _ _ _ B Hc). specialize (H2 _ _ _ B Hc). rewrite <- levelAt_ge in H1, H2 by (lia || exact B). lia. }
  rewrite E. intuition lia.
Qed.
Lemma addBox1_nil h b : 1 <= bl b -> addBox1 h b = [] <-> all_refined h (bl b) b.
Proof.
  intros L. unfold addBox1. destruct (Nat.ltb_spec (bu0 b) (bu1 b)) as [U|U]; [destruct (Nat.ltb_spec (bv0 b) (bv1 b)) as [V|V]|]; cbn [andb].
  - rewrite <- (atLeast_spec h (bl b) b L). destruct (atLeast h (bl b) b); cbn [negb]; split; congruence.
  - split; [|reflexivity]. intros _ M i j _ (_ & _ & I). lia.
  - split; [|reflexivity]. intros _ M i j _ (_ & I & _). lia.
Qed.

Lemma app_nil4 {A} (a b c d : list A) : a ++ b ++ c ++ d = [] <-> a = [] /\ b = [] /\ c = [] /\ d = [].
Proof. split; [intros H; apply app_eq_nil in H; destruct H as (-> & H); apply app_eq_nil in H; destruct H as (-> & H); apply app_eq_nil in H; destruct H as (-> & ->); auto|intros (-> & -> & -> & ->); reflexivity]. Qed.
Lemma if_nil {A} (b : bool) (l : list A) : (if b then l else []) = [] <-> (b = true -> l = []). Proof. destruct b; split; auto; congruence. Qed.

(** a row of elements is refined when all its elements are *)
Lemma row_refined h l (b : hbox) (e : nat -> hbox) n : bl b = l -> (forall d, bl (e d) = l) ->
  (forall x y, (bu0 b <= x < bu1 b /\ bv0 b <= y < bv1 b) <-> exists d, d < n /\ bu0 (e d) <= x < bu1 (e d) /\ bv0 (e d) <= y < bv1 (e d)) ->
  all_refined h l b <-> forall d, d < n -> all_refined h l (e d).
Proof.
  intros Lb Le C. split.
  - intros H d D M i j B (I0 & I). rewrite Le in I0, I. apply H; [exact B|]. split; [lia|]. rewrite Lb. apply C. exists d. auto.
  - intros H M i j B (I0 & I). rewrite Lb in I0, I. apply C in I. destruct I as (d & D & I). apply (H d D); [exact B|]. split; rewrite Le; auto.
Qed.

Lemma innerBoxes_suitable t incr p h : 1 <= hpu h -> 1 <= hpv h -> 2 * Nat.min (hpu h) (incr + 1) <= 2 * hnu h -> 2 * Nat.min (hpv h) (incr + 1) <= 2 * hnv h ->
  innerBoxes h incr t p = [] <-> suitable t incr p h.
Proof.
  intros PU PV NU NV. rewrite innerBoxes_flat, flat_map_nil.
  assert (P2 : forall l, 1 <= l -> 2 <= 2 ^ l). { intros l Hl. destruct l as [|l]; [lia|]. pose proof (pow2_pos l). cbn [Nat.pow]. lia. }
  assert (Row : forall l i j, 1 <= l -> innerBox1 h incr t p l (i, j) = [] <->
     (isInterface t (p, West) = true -> i = 0 -> forall d, d < depth h incr West -> all_refined h l (side_elem h l West j d)) /\
     (isInterface t (p, East) = true -> i + 1 = hnu h * 2 ^ l -> forall d, d < depth h incr East -> all_refined h l (side_elem h l East j d)) /\
     (isInterface t (p, South) = true -> j = 0 -> forall d, d < depth h incr South -> all_refined h l (side_elem h l South i d)) /\
     (isInterface t (p, North) = true -> j + 1 = hnv h * 2 ^ l -> forall d, d < depth h incr North -> all_refined h l (side_elem h l North i d))).
  { intros l i j L. specialize (P2 l L). unfold innerBox1. cbv zeta. cbn [fst snd]. rewrite app_nil4, !if_nil, !addBox1_nil by exact L. cbn [bl]. unfold elems, hdist, depth.
    assert (DU : 2 * Nat.min (hpu h) (incr + 1) <= hnu h * 2 ^ l) by nia. assert (DV : 2 * Nat.min (hpv h) (incr + 1) <= hnv h * 2 ^ l) by nia.
    set (du := 2 * Nat.min (hpu h) (incr + 1)) in *. set (dv := 2 * Nat.min (hpv h) (incr + 1)) in *. assert (du >= 2) by (unfold du; lia). assert (dv >= 2) by (unfold dv; lia). set (uM := hnu h * 2 ^ l) in *. set (vM := hnv h * 2 ^ l) in *.
    assert (RW : all_refined h l (mkBox l 0 j du (j + 1)) <-> forall d, d < du -> all_refined h l (side_elem h l West j d)).
    { apply row_refined; try reflexivity. intros x y. cbn [side_elem bu0 bu1 bv0 bv1]. split; [intros Q; exists x; lia|intros (d & D & Q); lia]. }
    assert (RE : all_refined h l (mkBox l (uM - du) j uM (j + 1)) <-> forall d, d < du -> all_refined h l (side_elem h l East j d)).
    { apply row_refined; try reflexivity. intros x y. cbn [side_elem bu0 bu1 bv0 bv1]. fold uM. split; [intros Q; exists (uM - 1 - x); lia|intros (d & D & Q); lia]. }
    assert (RS : all_refined h l (mkBox l i 0 (i + 1) dv) <-> forall d, d < dv -> all_refined h l (side_elem h l South i d)).
    { apply row_refined; try reflexivity. intros x y. cbn [side_elem bu0 bu1 bv0 bv1]. split; [intros Q; exists y; lia|intros (d & D & Q); lia]. }
    assert (RN : all_refined h l (mkBox l i (vM - dv) (i + 1) vM) <-> forall d, d < dv -> all_refined h l (side_elem h l North i d)).
    { apply row_refined; try reflexivity. intros x y. cbn [side_elem bu0 bu1 bv0 bv1]. fold vM. split; [intros Q; exists (vM - 1 - y); lia|intros (d & D & Q); lia]. }
    rewrite <- RW, <- RE, <- RS, <- RN. rewrite !Bool.andb_true_iff, !Nat.eqb_eq, !Nat.ltb_lt, !Nat.leb_le.
    split.
    - intros (A1 & A2 & A3 & A4). split; [intros Q ->; apply A1; split; [auto|lia]|]. split; [intros Q E; rewrite <- E in A2 at 3; rewrite <- E in A2 |- *; apply A2; split; [split; [auto|lia]|lia]|]. split; [intros Q ->; apply A3; split; [auto|lia]|]. intros Q E. rewrite E in A4. apply A4. split; [split; [auto|lia]|lia].
    - intros (A1 & A2 & A3 & A4). split; [intros ((Q & ->) & _); apply A1; auto|]. split; [intros (((Q & E) & _) & _); rewrite E; apply A2; auto|]. split; [intros ((Q & ->) & _); apply A3; auto|]. intros (((Q & E) & _) & _). rewrite E. apply A4; auto. }
  split.
  - intros H s l k d IF L K D AR NR.
    assert (Lm : l <= maxLevel h).
    { assert (B : below h (Nat.max l (maxLevel h))) by (apply below_maxLevel; lia). set (M := Nat.max l (maxLevel h)) in *. pose proof (pow2_pos (M - l)).
      assert (Q : exists x y, in_box M (side_elem h l s k 0) x y).
      { specialize (P2 l L). assert (1 <= hnu h * 2 ^ l) by nia. assert (1 <= hnv h * 2 ^ l) by nia. exists (bu0 (side_elem h l s k 0) * 2 ^ (M - l)), (bv0 (side_elem h l s k 0) * 2 ^ (M - l)). unfold in_box. destruct s; cbn [side_elem bl bu0 bv0 bu1 bv1]; rewrite !Nat.div_mul by lia; lia. }
      destruct Q as (x & y & Q). destruct (AR M x y B Q) as (b & Hb & Lb & _). pose proof (maxLevel_below h b Hb). lia. }
    assert (HL : forall i j, i < hnu h * 2 ^ l -> j < hnv h * 2 ^ l -> exactly h l i j -> innerBox1 h incr t p l (i, j) = []).
    { intros i j I J E. specialize (H l ltac:(apply in_seq; lia)). rewrite flat_map_nil in H. apply H. apply in_leaves; [lia|auto]. }
    specialize (P2 l L). assert (1 <= hnu h * 2 ^ l) by nia. assert (1 <= hnv h * 2 ^ l) by nia.
    destruct s; cbn [side_elem elem_count] in AR, NR, K.
    + specialize (HL 0 k ltac:(lia) K (conj AR NR)). rewrite Row in HL by exact L. destruct HL as (Q & _). apply Q; auto.
    + rewrite !Nat.sub_0_r in AR, NR. assert (E : mkBox l (hnu h * 2 ^ l - 1) k (hnu h * 2 ^ l) (k + 1) = cell l (hnu h * 2 ^ l - 1) k) by (unfold cell; f_equal; lia). rewrite E in AR, NR.
      specialize (HL (hnu h * 2 ^ l - 1) k ltac:(lia) K (conj AR NR)). rewrite Row in HL by exact L. destruct HL as (_ & Q & _). apply Q; auto. lia.
    + specialize (HL k 0 K ltac:(lia) (conj AR NR)). rewrite Row in HL by exact L. destruct HL as (_ & _ & Q & _). apply Q; auto.
    + rewrite !Nat.sub_0_r in AR, NR. assert (E : mkBox l k (hnv h * 2 ^ l - 1) (k + 1) (hnv h * 2 ^ l) = cell l k (hnv h * 2 ^ l - 1)) by (unfold cell; f_equal; lia). rewrite E in AR, NR.
      specialize (HL k (hnv h * 2 ^ l - 1) K ltac:(lia) (conj AR NR)). rewrite Row in HL by exact L. destruct HL as (_ & _ & _ & Q). apply Q; auto. lia.
  - intros Su l Hl. apply in_seq in Hl. apply flat_map_nil. intros (i, j) Hc. apply in_leaves in Hc; [|lia]. destruct Hc as (I & J & AR & NR). apply Row; [lia|].
    split; [|split; [|split]].
    + intros Q -> d D. apply (Su West l j d Q); auto. lia.
    + intros Q E d D. assert (E' : side_elem h l East j 0 = cell l i j) by (unfold side_elem, cell; f_equal; lia). apply (Su East l j d Q); auto; [lia|rewrite E'; exact AR|rewrite E'; exact NR].
    + intros Q -> d D. apply (Su South l i d Q); auto. lia.
    + intros Q E d D. assert (E' : side_elem h l North i 0 = cell l i j) by (unfold side_elem, cell; f_equal; lia). apply (Su North l i d Q); auto; [lia|rewrite E'; exact AR|rewrite E'; exact NR].
Qed.
