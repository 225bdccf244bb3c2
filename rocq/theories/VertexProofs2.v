(** Proofs for C39, C52, C53. *)
From Coq Require Import Sorted.
From Verif Require Import Common TopoModel TopoSpec IndexSpec SmoothSpec SmoothSpec2 VertexModel VertexSpec ListLemmas TopoProofs GeometryProofs VertexProofs.
Open Scope nat_scope.

(** ** Reversed knots *)
Lemma hd_rev {A} (l : list A) d : hd d (rev l) = last l d.
Proof.
  destruct l as [|a l] using rev_ind; [reflexivity|]. rewrite rev_app_distr, last_last. reflexivity.
Qed.
Lemma last_rev {A} (l : list A) d : last (rev l) d = hd d l.
Proof. rewrite <- hd_rev, rev_involutive. reflexivity. Qed.
Lemma hd_map {A B} (f : A -> B) l d : hd (f d) (map f l) = f (hd d l).
Proof. destruct l; reflexivity. Qed.
Lemma last_map {A B} (f : A -> B) l d : last (map f l) (f d) = f (last l d).
Proof. induction l as [|a l IH]; [reflexivity|]. cbn [map last]. destruct l; [reflexivity|]. exact IH. Qed.

Lemma kreverse_ends k : k <> [] -> hd 0%Z (kreverse k) = hd 0%Z k /\ last (kreverse k) 0%Z = last k 0%Z.
Proof.
  intros N. unfold kreverse. set (s := (hd 0 k + last k 0)%Z). rewrite hd_rev, last_rev.
  assert (A : last (map (fun t => (s - t)%Z) k) 0%Z = (s - last k 0)%Z).
  { clearbody s. destruct k as [|a k]; [contradiction|]. clear. revert a. induction k as [|b k IH]; intros a; [reflexivity|]. exact (IH b). }
  assert (B : hd 0%Z (map (fun t => (s - t)%Z) k) = (s - hd 0 k)%Z) by (destruct k; [contradiction|reflexivity]).
  rewrite A, B. unfold s. lia.
Qed.
Lemma kreverse_invol k : kreverse (kreverse k) = k.
Proof.
  destruct k as [|a k]; [reflexivity|]. destruct (kreverse_ends (a :: k)) as (H & L); [discriminate|].
  unfold kreverse at 1. rewrite H, L. unfold kreverse. rewrite map_rev, rev_involutive, map_map.
  set (s := (hd 0 (a :: k) + last (a :: k) 0)%Z). rewrite <- (map_id (a :: k)) at 2. apply map_ext. intros x. lia.
Qed.
Lemma kreverse_length k : length (kreverse k) = length k.
Proof. unfold kreverse. now rewrite rev_length, map_length. Qed.
Lemma nth_error_rev {A} (l : list A) i : i < length l -> nth_error (rev l) i = nth_error l (length l - 1 - i).
Proof.
  intros H. destruct l as [|a l']; [cbn in H; lia|]. set (l := a :: l') in *.
  rewrite (nth_error_nth' (rev l) a) by (rewrite rev_length; exact H). rewrite rev_nth by exact H.
  rewrite (nth_error_nth' l a) by lia. do 2 f_equal. lia.
Qed.
Lemma kreverse_nth k i : i < length k -> nth_error (kreverse k) i = option_map (fun t => (hd 0 k + last k 0 - t)%Z) (nth_error k (length k - 1 - i)).
Proof.
  intros H. unfold kreverse. rewrite nth_error_rev by (rewrite map_length; exact H). rewrite map_length. rewrite nth_error_map. reflexivity.
Qed.

(** ** Breakpoints *)
Lemma asc_cons x k : ascending (x :: k) -> ascending k /\ forall y, In y k -> (x <= y)%Z.
Proof.
  intros H. split.
  - intros i j a b L A B. exact (H (S i) (S j) a b (le_n_S _ _ L) A B).
  - intros y Hy. apply In_nth_error in Hy. destruct Hy as (n & Hn). exact (H 0 (S n) x y (Nat.le_0_l _) eq_refl Hn).
Qed.
Lemma strict_cons x u : (forall i j a b, i < j -> nth_error (x :: u) i = Some a -> nth_error (x :: u) j = Some b -> (a < b)%Z) <->
  (forall i j a b, i < j -> nth_error u i = Some a -> nth_error u j = Some b -> (a < b)%Z) /\ forall y, In y u -> (x < y)%Z.
Proof.
  split.
  - intros H. split.
    + intros i j a b L A B. exact (H (S i) (S j) a b (proj1 (Nat.succ_lt_mono _ _) L) A B).
    + intros y Hy. apply In_nth_error in Hy. destruct Hy as (n & Hn). exact (H 0 (S n) x y (Nat.lt_0_succ _) eq_refl Hn).
  - intros (H1 & H2) [|i] [|j] a b L A B; try lia.
    + injection A as <-. cbn in B. apply H2. eapply nth_error_In; eassumption.
    + cbn in A, B. apply (H1 i j); [lia|exact A|exact B].
Qed.

Lemma uniques_in k x : In x (uniques k) <-> In x k.
Proof.
  induction k as [|a k IH]; [reflexivity|]. cbn [uniques]. destruct k as [|b k]; [reflexivity|]. destruct (Z.eqb_spec a b) as [->|N].
  - rewrite IH. cbn. tauto.
  - cbn [In] in *. tauto.
Qed.
Lemma uniques_breakpoints k : ascending k -> breakpoints k (uniques k).
Proof.
  intros H. split; [apply uniques_in|]. induction k as [|a k IH]; [intros i j x y _ A; destruct i; discriminate|].
  destruct (asc_cons a k H) as (Hk & Ha). specialize (IH Hk). cbn [uniques]. destruct k as [|b k]; [intros [|i] [|j] x y L A B; try lia; try (destruct j; discriminate); destruct i; discriminate|].
  destruct (Z.eqb_spec a b) as [->|N]; [exact IH|]. apply strict_cons. split; [exact IH|]. intros y Hy. apply (proj1 (uniques_in (b :: k) y)) in Hy.
  pose proof (Ha b (or_introl eq_refl)). destruct (asc_cons b k Hk) as (_ & Hb). destruct Hy as [<-|Hy]; [lia|]. specialize (Hb y Hy). lia.
Qed.
Lemma breakpoints_unique k u u' : breakpoints k u -> breakpoints k u' -> u = u'.
Proof.
  intros (A & B) (A' & B'). assert (E : forall x, In x u <-> In x u') by (intros; now rewrite A, A'). clear A A' k.
  revert u' E B'. induction u as [|x u IH]; intros [|y u'] E B'; [reflexivity|exfalso; apply (E y); now left|exfalso; apply (E x); now left|].
  apply strict_cons in B, B'. destruct B as (B1 & B2), B' as (B1' & B2').
  assert (x = y). { destruct (proj1 (E x) (or_introl eq_refl)) as [->|H]; [reflexivity|]. destruct (proj2 (E y) (or_introl eq_refl)) as [->|H']; [reflexivity|]. specialize (B2 _ H'). specialize (B2' _ H). lia. }
  subst y. f_equal. apply IH; [exact B1| |exact B1']. intros z. split; intros H.
  - destruct (proj1 (E z) (or_intror H)) as [->|K]; [specialize (B2 _ H); lia|exact K].
  - destruct (proj2 (E z) (or_intror H)) as [->|K]; [specialize (B2' _ H); lia|exact K].
Qed.

Lemma kreverse_asc k : ascending k -> ascending (kreverse k).
Proof.
  intros H i j x y L A B. assert (LI : j < length k) by (rewrite <- kreverse_length; apply nth_error_Some; congruence).
  rewrite kreverse_nth in A, B by lia. destruct (nth_error k (length k - 1 - i)) as [a|] eqn:EA; [|discriminate]. destruct (nth_error k (length k - 1 - j)) as [b|] eqn:EB; [|discriminate].
  injection A as <-. injection B as <-. assert (b <= a)%Z by (eapply (H (length k - 1 - j) (length k - 1 - i)); [lia|eassumption|eassumption]). lia.
Qed.
Lemma mirror_breakpoints k u s : breakpoints k u -> breakpoints (rev (map (fun t => (s - t)%Z) k)) (rev (map (fun t => (s - t)%Z) u)).
Proof.
  intros (A & B). split.
  - intros x. rewrite <- !in_rev, !in_map_iff. split; intros (y & E & H); exists y; (split; [exact E|now apply A]).
  - intros i j x y L X Y. assert (LI : j < length u) by (rewrite <- (map_length (fun t => (s - t)%Z)), <- rev_length; apply nth_error_Some; congruence).
    rewrite nth_error_rev in X, Y by (rewrite map_length; lia). rewrite map_length in X, Y. rewrite nth_error_map in X, Y.
    destruct (nth_error u (length u - 1 - i)) as [a|] eqn:EA; [|discriminate]. destruct (nth_error u (length u - 1 - j)) as [b|] eqn:EB; [|discriminate].
    injection X as <-. injection Y as <-. assert (b < a)%Z by (eapply (B (length u - 1 - j) (length u - 1 - i)); [lia|eassumption|eassumption]). lia.
Qed.
Lemma kreverse_breakpoints k u : breakpoints k u -> breakpoints (kreverse k) (rev (map (fun t => (hd 0 k + last k 0 - t)%Z) u)).
Proof. apply mirror_breakpoints. Qed.

(** the n-th breakpoint as read by findParameter *)
Theorem parameter_pf : forall B ps pc b n u, nth_error B (fst ps) = Some b -> let k := knots b (1 - side_dir (snd ps)) in
  ascending k -> breakpoints k u -> 0 < n < length u ->
  if pos_on (snd ps) (snd pc)
  then exists x, nth_error u n = Some x /\ findParameter B ps pc n = Ok x
  else exists x, nth_error u (length u - 1 - n) = Some x /\ findParameter B ps pc n = Ok (hd 0%Z k + last k 0%Z - x)%Z.
Proof.
  intros B ps pc b n u E k A BP N. assert (KF : knotsFrom B ps pc = Ok (if pos_on (snd ps) (snd pc) then k else kreverse k)) by (unfold knotsFrom, vget; rewrite E; reflexivity).
  unfold findParameter. rewrite KF. cbn [bind].
  destruct n as [|m]; [lia|]. set (n := S m) in *. destruct (pos_on (snd ps) (snd pc)).
  - rewrite (breakpoints_unique k (uniques k) u (uniques_breakpoints k A) BP). unfold vget.
    destruct (nth_error u n) as [x|] eqn:X; [exists x; now split|apply nth_error_None in X; lia].
  - rewrite (breakpoints_unique _ _ _ (uniques_breakpoints _ (kreverse_asc k A)) (kreverse_breakpoints k u BP)).
    unfold vget. rewrite nth_error_rev by (rewrite map_length; lia). rewrite map_length, nth_error_map.
    destruct (nth_error u (length u - 1 - n)) as [x|] eqn:X; [exists x; now split|apply nth_error_None in X; lia].
Qed.

(** ** Counting functions *)
Lemma zinsert_in x l y : In y (zinsert x l) <-> x = y \/ In y l.
Proof. induction l as [|a l IH]; [cbn; tauto|]. cbn [zinsert]. destruct (a <? x)%Z; cbn [In]; rewrite ?IH; tauto. Qed.
Lemma countb_cons {A} (f : A -> bool) a l : countb f (a :: l) = (if f a then 1 else 0) + countb f l.
Proof. unfold countb. cbn. destruct (f a); reflexivity. Qed.
Lemma zinsert_count f x l : countb f (zinsert x l) = countb f (x :: l).
Proof.
  induction l as [|a l IH]; [reflexivity|]. cbn [zinsert]. destruct (a <? x)%Z; [|reflexivity]. rewrite countb_cons, IH, !countb_cons. lia.
Qed.
Lemma zsort_count f l : countb f (zsort l) = countb f l.
Proof. induction l as [|a l IH]; [reflexivity|]. cbn [zsort fold_right]. change (fold_right zinsert [] l) with (zsort l). rewrite zinsert_count, !countb_cons, IH. reflexivity. Qed.
Lemma zinsert_sorted x l : StronglySorted Z.le l -> StronglySorted Z.le (zinsert x l).
Proof.
  induction 1 as [|a l S IH F]; [repeat constructor|]. cbn [zinsert]. destruct (Z.ltb_spec a x).
  - constructor; [exact IH|]. apply Forall_forall. intros y Hy. apply zinsert_in in Hy. rewrite Forall_forall in F. destruct Hy as [<-|Hy]; [lia|now apply F].
  - constructor; [now constructor|]. constructor; [assumption|]. eapply Forall_impl; [|exact F]. cbn. intros; lia.
Qed.
Lemma zsort_sorted l : StronglySorted Z.le (zsort l).
Proof. induction l as [|a l IH]; [constructor|]. now apply zinsert_sorted. Qed.
Lemma first_count x l : StronglySorted Z.le l -> firstAtLeast x l = countb (fun y => y <? x)%Z l.
Proof.
  induction 1 as [|a l S IH F]; [reflexivity|]. cbn [firstAtLeast]. rewrite countb_cons. destruct (Z.leb_spec x a).
  - replace (a <? x)%Z with false by (symmetry; apply Z.ltb_ge; lia). symmetry. cbn [plus]. unfold countb. rewrite filter_none; [reflexivity|].
    intros y Hy. rewrite Forall_forall in F. specialize (F y Hy). apply Z.ltb_ge. lia.
  - replace (a <? x)%Z with true by (symmetry; apply Z.ltb_lt; lia). now rewrite IH.
Qed.

Theorem count_pf : forall S pc ps b p, nth_error (vB S) (fst ps) = Some b -> parametricDistance S pc ps = Ok p -> p <> 0%Z ->
  exists k, knotsFrom (vB S) ps pc = Ok k /\
  distanceOfVertex S pc ps = Ok (countb (fun x => x <? p)%Z (skipn (degree b (1 - side_dir (snd ps)) + 1) k) + 1).
Proof.
  intros S pc ps b p E P N. unfold distanceOfVertex. rewrite P. cbn [bind]. apply Z.eqb_neq in N. rewrite N.
  unfold knotsFrom. unfold vget. rewrite E. cbn [bind]. eexists. split; [reflexivity|]. do 2 f_equal. rewrite first_count by apply zsort_sorted. apply zsort_count.
Qed.

(** open knot vectors with simple knots *)
Lemma simple_strict b mid : breakpoints (0%Z :: mid ++ [b]) (0%Z :: mid ++ [b]) ->
  (0 < b)%Z /\ (forall x, In x mid -> (0 < x < b)%Z) /\ forall i j x y, i < j -> nth_error mid i = Some x -> nth_error mid j = Some y -> (x < y)%Z.
Proof.
  intros (_ & H). pose proof (proj1 (strict_cons 0 (mid ++ [b])) H) as (H1 & H2). split; [apply H2, in_app_iff; right; now left|]. split.
  - intros x Hx. split; [apply H2, in_app_iff; now left|]. apply In_nth_error in Hx. destruct Hx as (i & Hi). assert (i < length mid) by (apply nth_error_Some; congruence).
    apply (H1 i (length mid)); [assumption|now rewrite nth_error_app1|]. rewrite nth_error_app2 by lia. now rewrite Nat.sub_diag.
  - intros i j x y L X Y. assert (j < length mid) by (apply nth_error_Some; congruence). apply (H1 i j); [exact L| |]; rewrite nth_error_app1 by lia; assumption.
Qed.
Lemma last_app_repeat (l : list Z) b n d : last (l ++ repeat b (n + 1)) d = b.
Proof.
  rewrite Nat.add_1_r. replace (repeat b (S n)) with (repeat b n ++ [b]) by (clear; induction n; cbn; [reflexivity|now rewrite IHn]). rewrite app_assoc. apply last_last.
Qed.
Lemma rev_repeat' {A} (a : A) n : rev (repeat a n) = repeat a n.
Proof. induction n as [|n IH]; [reflexivity|]. cbn [repeat rev]. rewrite IH. clear. induction n; cbn; [reflexivity|]. now f_equal. Qed.
Lemma map_repeat' {A B} (f : A -> B) a n : map f (repeat a n) = repeat (f a) n.
Proof. induction n; cbn; [reflexivity|]. now f_equal. Qed.

Lemma simple_reverse p b mid k : simple_open p b mid k -> simple_open p b (rev (map (fun t => (b - t)%Z) mid)) (kreverse k).
Proof.
  intros (-> & H). assert (HD : hd 0%Z (repeat 0%Z (p + 1) ++ mid ++ repeat b (p + 1)) = 0%Z) by (rewrite Nat.add_1_r; reflexivity).
  assert (LA : last (repeat 0%Z (p + 1) ++ mid ++ repeat b (p + 1)) 0%Z = b) by (rewrite app_assoc; apply last_app_repeat).
  split.
  - unfold kreverse. rewrite HD, LA. rewrite !map_app, !map_repeat', !rev_app_distr, !rev_repeat'. rewrite <- app_assoc. cbn [Z.add]. rewrite Z.sub_diag, Z.sub_0_r. reflexivity.
  - apply mirror_breakpoints with (s := b) in H. cbn [map rev] in H. rewrite map_app, rev_app_distr in H. cbn [map rev app] in H. rewrite Z.sub_diag, Z.sub_0_r in H. exact H.
Qed.
Lemma simple_asc p b mid k : simple_open p b mid k -> ascending k /\ breakpoints k (0%Z :: mid ++ [b]).
Proof.
  intros (-> & H). destruct (simple_strict b mid H) as (B0 & M & ST). split.
  - assert (G : forall l, StronglySorted Z.le l -> ascending l).
    { induction 1 as [|a l S IH F]; intros [|i] [|j] x y L X Y; try discriminate; try lia.
      - injection X as <-. injection Y as <-. lia.
      - injection X as <-. rewrite Forall_forall in F. apply F. eapply nth_error_In; exact Y.
      - apply (IH i j); [lia|exact X|exact Y]. }
    apply G. assert (SM : StronglySorted Z.le mid).
    { clear - ST. induction mid as [|a mid IH]; [constructor|]. pose proof (proj1 (strict_cons a mid) ST) as (S1 & S2). constructor; [apply IH, S1|]. apply Forall_forall. intros y Hy. specialize (S2 y Hy). lia. }
    assert (SB : StronglySorted Z.le (mid ++ repeat b (p + 1))).
    { clear - SM M. induction SM as [|a l S IH F]; cbn.
      - generalize (p + 1). induction n; [constructor|]. cbn. constructor; [exact IHn|]. apply Forall_forall. intros y Hy. apply repeat_spec in Hy. lia.
      - constructor; [apply IH; intros; apply M; now right|]. apply Forall_app. split; [exact F|]. apply Forall_forall. intros y Hy. apply repeat_spec in Hy. specialize (M a (or_introl eq_refl)). lia. }
    assert (P : forall y, In y (mid ++ repeat b (p + 1)) -> (0 <= y)%Z). { intros y Hy. apply in_app_iff in Hy. destruct Hy as [Hy|Hy]; [specialize (M y Hy); lia|apply repeat_spec in Hy; lia]. }
    generalize (p + 1) at 1. induction n; [exact SB|]. cbn. constructor; [exact IHn|]. apply Forall_forall. intros y Hy. apply in_app_iff in Hy. destruct Hy as [Hy|Hy]; [apply repeat_spec in Hy; lia|now apply P].
  - destruct H as (_ & H). split; [|exact H]. intros x. cbn [In]. rewrite !in_app_iff. cbn [In]. split.
    + intros [<-|[Hx|[<-|[]]]]; [left; rewrite Nat.add_1_r; now left|right; now left|right; right; rewrite Nat.add_1_r; now left].
    + intros [Hx|[Hx|Hx]]; [left; symmetry; now apply repeat_spec in Hx|right; now left|right; right; left; symmetry; now apply repeat_spec in Hx].
Qed.
Lemma count_simple p b mid k n x : simple_open p b mid k -> nth_error (0%Z :: mid ++ [b]) n = Some x -> 0 < n ->
  (0 < x)%Z /\ countb (fun y => y <? x)%Z (skipn (p + 1) k) + 1 = n.
Proof.
  intros SO X N. pose proof (simple_asc _ _ _ _ SO) as (_ & (_ & BP)). destruct SO as (-> & H). destruct (simple_strict b mid H) as (B0 & M & ST).
  split; [exact (BP 0 n 0%Z x N eq_refl X)|].
  replace (p + 1) with (length (repeat 0%Z (p + 1))) at 1 by apply repeat_length. rewrite skipn_app, skipn_all, repeat_length, Nat.sub_diag. cbn [app skipn].
  destruct n as [|n]; [lia|]. cbn [nth_error] in X.
  assert (LB : forall m, countb (fun y => y <? x)%Z (repeat b m) = 0).
  { intros m. unfold countb. rewrite filter_none; [reflexivity|]. intros y Hy. apply repeat_spec in Hy. subst. apply Z.ltb_ge.
    apply nth_error_In, in_app_iff in X. destruct X as [X|[<-|[]]]; [specialize (M x X); lia|lia]. }
  assert (CA : forall l l', countb (fun y => y <? x)%Z (l ++ l') = countb (fun y => y <? x)%Z l + countb (fun y => y <? x)%Z l').
  { intros. unfold countb. now rewrite filter_app, app_length. }
  rewrite CA, LB, Nat.add_0_r, Nat.add_1_r. f_equal.
  clear - X M ST B0. revert n X. induction mid as [|a mid IH]; intros n X.
  - destruct n as [|n]; [reflexivity|]. cbn in X. destruct n; discriminate.
  - pose proof (proj1 (strict_cons a mid) ST) as (S1 & S2). rewrite countb_cons. destruct n as [|n].
    + injection X as <-. rewrite Z.ltb_irrefl. cbn [plus]. unfold countb. rewrite filter_none; [reflexivity|]. intros y Hy. apply Z.ltb_ge. specialize (S2 y Hy). lia.
    + cbn [app nth_error] in X. replace (a <? x)%Z with true.
      * cbn [plus]. f_equal. apply IH; [intros; apply M; now right|exact S1|exact X].
      * symmetry. apply Z.ltb_lt. apply nth_error_In, in_app_iff in X. destruct X as [X|[<-|[]]]; [now apply S2|apply M; now left].
Qed.

(** a parameter found for n functions stands for n functions *)
Theorem round_trip_pf : forall S pc ps b L mid n p, nth_error (vB S) (fst ps) = Some b ->
  simple_open (degree b (1 - side_dir (snd ps))) L mid (knots b (1 - side_dir (snd ps))) -> 0 < n <= length mid + 1 ->
  findParameter (vB S) ps pc n = Ok p -> parametricDistance S pc ps = Ok p -> distanceOfVertex S pc ps = Ok n.
Proof.
  intros S pc ps b L mid n p E SO N F P.
  assert (K : exists mid', simple_open (degree b (1 - side_dir (snd ps))) L mid' (if pos_on (snd ps) (snd pc) then knots b (1 - side_dir (snd ps)) else kreverse (knots b (1 - side_dir (snd ps)))) /\ length mid' = length mid).
  { destruct (pos_on (snd ps) (snd pc)); [now exists mid|]. eexists. split; [apply simple_reverse; exact SO|]. now rewrite rev_length, map_length. }
  destruct K as (mid' & SO' & LM). set (k := if pos_on _ _ then _ else _) in *.
  assert (KF : knotsFrom (vB S) ps pc = Ok k) by (unfold knotsFrom, vget; rewrite E; reflexivity).
  destruct (simple_asc _ _ _ _ SO') as (AK & BK).
  unfold findParameter in F. destruct n as [|m]; [lia|]. rewrite KF in F. cbn [bind] in F.
  rewrite (breakpoints_unique k _ _ (uniques_breakpoints k AK) BK) in F. unfold vget in F. destruct (nth_error (0%Z :: mid' ++ [L]) (Datatypes.S m)) as [x|] eqn:X; [|discriminate]. injection F as ->.
  destruct (count_simple _ _ _ _ _ _ SO' X (Nat.lt_0_succ _)) as (PP & C). destruct (count_pf S pc ps b p E P) as (k' & KF' & D); [lia|]. rewrite KF in KF'. injection KF' as <-. now rewrite D, C.
Qed.
