(** Proofs for C71: the knots that are inserted. *)
From Coq Require Import Sorted ZifyBool.
From Verif Require Import Common TopoModel TopoSpec VertexModel VertexSpec RepairModel RepairSpec ListLemmas VertexProofs VertexProofs2 VertexProofs3 RepairProofs MrefModel MrefSpec.
Open Scope nat_scope.

Lemma span_cons a b r u v : span_of (a :: b :: r) u v <-> (u = a /\ v = b /\ (a < b)%Z) \/ span_of (b :: r) u v.
Proof.
  split.
  - intros (i & A & B & L). destruct i as [|i]; [left; cbn in A, B; injection A as <-; injection B as <-; auto|]. right. exists i. auto.
  - intros [(-> & -> & L)|(i & A & B & L)]; [now exists 0|now exists (S i)].
Qed.
Lemma span_short k u v : length k < 2 -> ~ span_of k u v.
Proof. intros L (i & _ & B & _). assert (S i < length k) by (apply nth_error_Some; congruence). lia. Qed.
Lemma spans_in k u v : In (u, v) (spans k) <-> span_of k u v.
Proof.
  induction k as [|a r IH]; [cbn; split; [intros []|apply span_short; cbn; lia]|]. destruct r as [|b r]; [cbn; split; [intros []|apply span_short; cbn; lia]|].
  rewrite span_cons, <- IH. cbn [spans]. destruct (Z.ltb_spec a b) as [L|L]; cbn [In].
  - split; [intros [E|H]; [injection E as <- <-; left; auto|now right]|intros [(-> & -> & _)|H]; [now left|now right]].
  - split; [intros H; now right|intros [(_ & _ & C)|H]; [lia|exact H]].
Qed.
Lemma asc_sorted l : ascending l -> StronglySorted Z.le l.
Proof.
  induction l as [|a l IH]; intros A; [constructor|]. constructor.
  - apply IH. intros i j x y L X Y. apply (A (S i) (S j) x y); [lia|exact X|exact Y].
  - apply Forall_forall. intros x Hx. apply In_nth_error in Hx. destruct Hx as (i & Hi). apply (A 0 (S i) a x); [lia|reflexivity|exact Hi].
Qed.

Section Fill.
Context (f : Z * Z -> list Z).
Definition fill (k : list Z) : list Z := flat_map f (spans k).
Definition between (k : list Z) : Prop := forall a b x, span_of k a b -> In x (f (a, b)) -> (a < x < b)%Z.

Lemma fill_cons a b r : fill (a :: b :: r) = (if (a <? b)%Z then f (a, b) else []) ++ fill (b :: r).
Proof. unfold fill. cbn [spans]. destruct (a <? b)%Z; reflexivity. Qed.
Lemma fill_in k x : In x (fill k) <-> exists a b, span_of k a b /\ In x (f (a, b)).
Proof.
  unfold fill. rewrite in_flat_map. split; [intros ((a, b) & H & X); exists a, b; now rewrite <- spans_in|intros (a & b & H & X); exists (a, b); now rewrite spans_in].
Qed.
Lemma span_ge k a b lo : StronglySorted Z.le k -> (forall x, In x k -> (lo <= x)%Z) -> span_of k a b -> (lo <= a < b)%Z.
Proof. intros ST H (i & A & _ & L). split; [apply H; eapply nth_error_In; exact A|exact L]. Qed.
Lemma fill_count k : StronglySorted Z.le k -> between k -> forall a b x, span_of k a b -> (a < x < b)%Z -> count_occ Z.eq_dec (fill k) x = count_occ Z.eq_dec (f (a, b)) x.
Proof.
  induction k as [|u r IH]; intros ST BE a b x SP X; [exfalso; revert SP; apply span_short; cbn; lia|]. destruct r as [|v r]; [exfalso; revert SP; apply span_short; cbn; lia|].
  inversion ST as [|? ? ST' F]; subst. assert (BE' : between (v :: r)) by (intros ? ? ? H; apply BE; apply span_cons; now right).
  assert (LO : forall y, In y (v :: r) -> (v <= y)%Z). { inversion ST' as [|? ? _ F']; subst. rewrite Forall_forall in F'. intros y [<-|Hy]; [lia|now apply F']. }
  rewrite fill_cons, count_occ_app. apply span_cons in SP. destruct SP as [(-> & -> & L)|SP].
  - replace (u <? v)%Z with true by lia. rewrite (proj1 (count_occ_not_In Z.eq_dec (fill (v :: r)) x)); [lia|]. intros H. apply fill_in in H. destruct H as (a' & b' & SP' & H). pose proof (BE' _ _ _ SP' H). pose proof (span_ge _ _ _ v ST' LO SP'). lia.
  - rewrite (IH ST' BE' a b x SP X). pose proof (span_ge _ _ _ v ST' LO SP). destruct (Z.ltb_spec u v) as [L|L]; [|reflexivity].
    rewrite (proj1 (count_occ_not_In Z.eq_dec (f (u, v)) x)); [reflexivity|]. intros H'. assert (SU : span_of (u :: v :: r) u v) by (apply span_cons; now left). pose proof (BE _ _ _ SU H'). lia.
Qed.
Lemma span_gap k a b x : StronglySorted Z.le k -> span_of k a b -> (a < x < b)%Z -> ~ In x k.
Proof.
  intros ST (i & A & B & _) X H. apply In_nth_error in H. destruct H as (j & J). pose proof (le_asc _ ST) as AS. destruct (Nat.le_gt_cases j i) as [L|L]; [pose proof (AS _ _ _ _ L J A)|pose proof (AS _ _ _ _ L B J)]; lia.
Qed.
Lemma fill_new k : StronglySorted Z.le k -> between k -> forall x, In x (fill k) -> ~ In x k.
Proof. intros ST BE x H. apply fill_in in H. destruct H as (a & b & SP & H). exact (span_gap k a b x ST SP (BE _ _ _ SP H)). Qed.
Lemma fill_nodup k : StronglySorted Z.le k -> between k -> (forall a b, span_of k a b -> NoDup (f (a, b))) -> NoDup (fill k).
Proof.
  intros ST BE N. apply (NoDup_count_occ Z.eq_dec). intros x. destruct (in_dec Z.eq_dec x (fill k)) as [H|H].
  - apply fill_in in H. destruct H as (a & b & SP & H). rewrite (fill_count k ST BE a b x SP (BE _ _ _ SP H)). now apply NoDup_count_occ, N.
  - apply (count_occ_not_In Z.eq_dec) in H. lia.
Qed.
End Fill.

(** ** Midpoints *)
Definition midF (ranges : list (Z * Z)) (s : Z * Z) : list Z :=
  let '(a, b) := s in let m := (a + (b - a) / 2)%Z in flat_map (fun r => if (fst r <? m)%Z && (m <? snd r)%Z then [m] else []) ranges.
Lemma mid_fill rs k : midKnots rs k = fill (midF rs) k. Proof. reflexivity. Qed.
Lemma midF_in rs a b x : In x (midF rs (a, b)) <-> x = (a + (b - a) / 2)%Z /\ exists r, In r rs /\ (fst r < x < snd r)%Z.
Proof.
  unfold midF. rewrite in_flat_map. split.
  - intros (r & Hr & H). destruct ((fst r <? _)%Z && _) eqn:E; [|destruct H]. destruct H as [<-|[]]. split; [reflexivity|]. exists r. split; [exact Hr|lia].
  - intros (-> & r & Hr & L). exists r. split; [exact Hr|]. replace ((fst r <? _)%Z && (_ <? snd r)%Z) with true by lia. now left.
Qed.
Lemma midF_count rs a b : count_occ Z.eq_dec (midF rs (a, b)) (a + (b - a) / 2)%Z = length (filter (fun r => (fst r <? a + (b - a) / 2)%Z && (a + (b - a) / 2 <? snd r)%Z) rs).
Proof.
  unfold midF. set (m := (a + (b - a) / 2)%Z). induction rs as [|r rs IH]; [reflexivity|]. cbn [flat_map filter]. rewrite count_occ_app, IH. destruct ((fst r <? m)%Z && _); [|reflexivity]. cbn [count_occ length]. destruct (Z.eq_dec m m); [reflexivity|contradiction].
Qed.
Lemma half k a b : divisible 2 k -> span_of k a b -> exists m, (b = 2 * m - a)%Z /\ (a + (b - a) / 2)%Z = m /\ (a < m < b)%Z.
Proof.
  intros DV SP. destruct (DV a b SP) as (q & Q). destruct SP as (_ & _ & _ & L). change (Z.of_nat 2) with 2%Z in Q. exists (a + q)%Z. rewrite Q, Z.div_mul by lia. lia.
Qed.
Lemma mid_between rs k : divisible 2 k -> between (midF rs) k.
Proof. intros DV a b x SP H. apply midF_in in H. destruct H as (-> & _). destruct (half k a b DV SP) as (m & _ & -> & L). exact L. Qed.
Lemma mid_in rs k x : divisible 2 k -> In x (midKnots rs k) <-> midpoint k x /\ exists r, In r rs /\ (fst r < x < snd r)%Z.
Proof.
  intros DV. rewrite mid_fill, fill_in. split.
  - intros (a & b & SP & H). apply midF_in in H. destruct H as (E & R). destruct (half k a b DV SP) as (m & Q & E' & L). split; [|exact R]. exists a, b. split; [exact SP|lia].
  - intros ((a & b & SP & E) & R). exists a, b. split; [exact SP|]. apply midF_in. split; [|exact R]. destruct (half k a b DV SP) as (m & Q & E' & L). lia.
Qed.
Lemma mid_count rs k x : StronglySorted Z.le k -> divisible 2 k -> midpoint k x -> count_occ Z.eq_dec (midKnots rs k) x = length (filter (fun r => (fst r <? x)%Z && (x <? snd r)%Z) rs).
Proof.
  intros ST DV (a & b & SP & E). destruct (half k a b DV SP) as (m & Q & E' & L). assert (X : x = (a + (b - a) / 2)%Z) by lia. rewrite mid_fill, (fill_count _ k ST (mid_between rs k DV) a b x SP) by lia. rewrite X. apply midF_count.
Qed.

(** [rangeOf] *)
Lemma range_in boxes dir x : dir < 2 -> (exists r, In r (map (rangeOf dir) boxes) /\ (fst r < x < snd r)%Z) <-> exists X, In X boxes /\ in_range dir x X.
Proof.
  intros DL. split.
  - intros (r & Hr & H). apply in_map_iff in Hr. destruct Hr as (X & <- & HX). exists X. split; [exact HX|]. destruct dir as [|[|]]; [exact H|exact H|lia].
  - intros (X & HX & H). exists (rangeOf dir X). split; [now apply in_map|]. destruct dir as [|[|]]; [exact H|exact H|lia].
Qed.
Lemma range_count boxes dir x : dir < 2 -> length (filter (fun r => (fst r <? x)%Z && (x <? snd r)%Z) (map (rangeOf dir) boxes)) = length (filter (in_rangeb dir x) boxes).
Proof.
  intros DL. induction boxes as [|X boxes IH]; [reflexivity|]. cbn [map filter]. replace (in_rangeb dir x X) with ((fst (rangeOf dir X) <? x)%Z && (x <? snd (rangeOf dir X))%Z) by (destruct dir as [|[|]]; [reflexivity|reflexivity|lia]).
  destruct ((fst (rangeOf dir X) <? x)%Z && _); cbn [length]; now rewrite IH.
Qed.
Lemma box_knots b boxes dir : dir < 2 -> pick dir (boxToRefineKnots b boxes) = midKnots (map (rangeOf dir) boxes) (knots b dir).
Proof. intros DL. destruct dir as [|[|]]; [reflexivity|reflexivity|lia]. Qed.

Theorem inserted_pf : forall b boxes dir, dir < 2 -> ascending (knots b dir) -> divisible 2 (knots b dir) -> forall x,
  (midpoint (knots b dir) x -> count_occ Z.eq_dec (pick dir (boxToRefineKnots b boxes)) x = length (filter (in_rangeb dir x) boxes)) /\
  (~ midpoint (knots b dir) x -> count_occ Z.eq_dec (pick dir (boxToRefineKnots b boxes)) x = 0).
Proof.
  intros b boxes dir DL AS DV x. rewrite (box_knots b boxes dir DL). apply asc_sorted in AS. split.
  - intros M. rewrite (mid_count _ _ x AS DV M). now apply range_count.
  - intros M. apply count_occ_not_In. intros H. apply (mid_in _ _ x DV) in H. tauto.
Qed.

(** with boxes apart, every knot is inserted once *)
Lemma filter_two {A} (g : A -> bool) l : 2 <= length (filter g l) -> exists i j a b, i < j /\ nth_error l i = Some a /\ nth_error l j = Some b /\ g a = true /\ g b = true.
Proof.
  induction l as [|x l IH]; cbn [filter]; intros H; [cbn in H; lia|]. destruct (g x) eqn:E.
  - cbn [length] in H. destruct (filter g l) as [|y m] eqn:F; [cbn in H; lia|]. assert (Y : In y (filter g l)) by (rewrite F; now left). apply filter_In in Y. destruct Y as (Y & GY). apply In_nth_error in Y. destruct Y as (j & J).
    exists 0, (S j), x, y. repeat split; [lia|exact J|exact E|exact GY].
  - destruct (IH H) as (i & j & a & b & L & I' & J & GA & GB). exists (S i), (S j), a, b. repeat split; [lia|exact I'|exact J|exact GA|exact GB].
Qed.
Lemma in_rangeb_spec dir x X : in_rangeb dir x X = true <-> in_range dir x X.
Proof. destruct dir; cbn; lia. Qed.
Lemma mid_nodup b boxes dir : dir < 2 -> ascending (knots b dir) -> divisible 2 (knots b dir) -> apart b boxes -> NoDup (midKnots (map (rangeOf dir) boxes) (knots b dir)).
Proof.
  intros DL AS DV AP. apply (NoDup_count_occ Z.eq_dec). intros x. destruct (in_dec Z.eq_dec x (midKnots (map (rangeOf dir) boxes) (knots b dir))) as [H|H].
  - pose proof (proj1 (proj1 (mid_in _ _ x DV) H)) as M. rewrite (mid_count _ _ x (asc_sorted _ AS) DV M), range_count by exact DL. destruct (Nat.le_gt_cases (length (filter (in_rangeb dir x) boxes)) 1) as [L|L]; [exact L|].
    destruct (filter_two _ _ L) as (i & j & X & Y & LT & I' & J & GX & GY). apply in_rangeb_spec in GX, GY. pose proof (AP dir x i j X Y DL M I' J GX GY). lia.
  - apply (count_occ_not_In Z.eq_dec) in H. lia.
Qed.

(** ** Uniform refinement *)
Definition uniF (num mul : nat) (s : Z * Z) : list Z :=
  let '(a, b) := s in flat_map (fun j => repeat (a + (b - a) * Z.of_nat j / Z.of_nat (num + 1))%Z mul) (seq 1 num).
Lemma uni_fill num mul k : uniKnots num mul k = fill (uniF num mul) k. Proof. reflexivity. Qed.
Lemma part num k a b j : divisible (num + 1) k -> span_of k a b -> 1 <= j <= num -> exists q, (b = a + q * Z.of_nat (num + 1))%Z /\ (0 < q)%Z /\ (a + (b - a) * Z.of_nat j / Z.of_nat (num + 1) = a + q * Z.of_nat j)%Z.
Proof.
  intros DV SP J. destruct (DV a b SP) as (q & Q). destruct SP as (_ & _ & _ & L). exists q. split; [lia|]. split; [nia|]. rewrite Q. replace (q * Z.of_nat (num + 1) * Z.of_nat j)%Z with (q * Z.of_nat j * Z.of_nat (num + 1))%Z by ring. rewrite Z.div_mul by lia. reflexivity.
Qed.
Lemma uni_between num mul k : divisible (num + 1) k -> between (uniF num mul) k.
Proof.
  intros DV a b x SP H. unfold uniF in H. apply in_flat_map in H. destruct H as (j & J & H). apply in_seq in J. apply repeat_spec in H. destruct (part num k a b j DV SP ltac:(lia)) as (q & Q & P & E). rewrite E in H. subst x. nia.
Qed.
Lemma uni_in num mul k x : divisible (num + 1) k -> 0 < mul -> In x (uniKnots num mul k) <-> division num k x.
Proof.
  intros DV M. rewrite uni_fill, fill_in. split.
  - intros (a & b & SP & H). unfold uniF in H. apply in_flat_map in H. destruct H as (j & J & H). apply in_seq in J. apply repeat_spec in H. destruct (part num k a b j DV SP ltac:(lia)) as (q & Q & P & E). exists a, b, j. split; [exact SP|]. split; [lia|]. rewrite H, E, Q. ring.
  - intros (a & b & j & SP & J & E). exists a, b. split; [exact SP|]. unfold uniF. apply in_flat_map. exists j. split; [apply in_seq; lia|]. destruct (part num k a b j DV SP J) as (q & Q & P & E'). rewrite E'.
    assert (x = a + q * Z.of_nat j)%Z by nia. subst x. destruct mul; [lia|]. now left.
Qed.
Lemma nodup_flat1 {A} (g : A -> Z) l : NoDup (map g l) -> NoDup (flat_map (fun j => repeat (g j) 1) l).
Proof. intros H. replace (flat_map (fun j => repeat (g j) 1) l) with (map g l); [exact H|]. clear H. induction l as [|a l IH]; [reflexivity|]. cbn. now rewrite IH. Qed.
Lemma uni_nodup num k : StronglySorted Z.le k -> divisible (num + 1) k -> NoDup (uniKnots num 1 k).
Proof.
  intros ST DV. rewrite uni_fill. apply fill_nodup; [exact ST|now apply uni_between|]. intros a b SP. unfold uniF. apply (nodup_flat1 (fun j => (a + (b - a) * Z.of_nat j / Z.of_nat (num + 1))%Z)).
  apply NoDup_nth_error. intros i j L E. rewrite map_length, seq_length in L. rewrite !nth_error_map in E. destruct (nth_error (seq 1 num) i) as [u|] eqn:U; [|apply nth_error_None in U; rewrite seq_length in U; lia].
  destruct (nth_error (seq 1 num) j) as [v|] eqn:V; [|discriminate]. cbn [option_map] in E. injection E as E. assert (1 <= u <= num) by (apply nth_error_In, in_seq in U; lia). assert (1 <= v <= num) by (apply nth_error_In, in_seq in V; lia).
  destruct (part num k a b u DV SP) as (q & Q & P & E1); [assumption|]. destruct (part num k a b v DV SP) as (q' & Q' & P' & E2); [assumption|]. rewrite E1, E2 in E. assert (q = q') by nia. subst q'. assert (u = v) by nia. subst v.
  rewrite <- U in V. pose proof (seq_NoDup num 1) as ND. rewrite NoDup_nth_error in ND. apply ND; [now rewrite seq_length|congruence].
Qed.
Lemma uni_zero num k : uniKnots num 0 k = [].
Proof. unfold uniKnots. induction (spans k) as [|(a, b) l IH]; [reflexivity|]. cbn [flat_map]. rewrite IH, app_nil_r. clear IH. induction (seq 1 num) as [|j m IHm]; [reflexivity|]. cbn [flat_map repeat app]. exact IHm. Qed.
