(** Proofs for C74: levels, supports, active functions. *)
From Coq Require Import Sorting.Sorted ZifyBool.
From Verif Require Import Common ListLemmas TopoModel TopoSpec TopoProofs HbModel HbSpec.

Lemma pow2_pos k : 0 < 2 ^ k. Proof. apply Nat.neq_0_lt_0, Nat.pow_nonzero. lia. Qed.
Lemma le_div lo i k : 0 < k -> lo * k <= i <-> lo <= i / k.
Proof. intros K. split; intros H. - apply Nat.div_le_lower_bound; lia. - pose proof (Nat.mul_div_le i k). nia. Qed.
Lemma div_lt hi i k : 0 < k -> i < hi * k <-> i / k < hi.
Proof. intros K. split; intros H. - apply Nat.div_lt_upper_bound; lia. - pose proof (Nat.mul_succ_div_gt i k). nia. Qed.

Lemma covers_in M b i j : bl b <= M -> covers M b i j = true <-> in_box M b i j.
Proof.
  intros L. unfold covers, in_box. cbv zeta. pose proof (pow2_pos (M - bl b)) as K. rewrite !Bool.andb_true_iff, !Nat.leb_le, !Nat.ltb_lt, !le_div, !div_lt by exact K. lia.
Qed.
Lemma in_box_coarse M M0 b i j : bl b <= M0 -> M0 <= M -> in_box M b i j <-> in_box M0 b (i / 2 ^ (M - M0)) (j / 2 ^ (M - M0)).
Proof.
  intros L L0. unfold in_box. rewrite !Nat.div_div by (apply Nat.pow_nonzero; lia). rewrite <- !Nat.pow_add_r. replace (M - M0 + (M0 - bl b)) with (M - bl b) by lia. intuition lia.
Qed.
Lemma maxLevel_below h : below h (maxLevel h).
Proof.
  intros b Hb. unfold maxLevel. induction (hboxes h) as [|a r IH]; [destruct Hb|]. cbn [map fold_right]. destruct Hb as [->|Hb]; [|specialize (IH Hb)]; lia.
Qed.
Lemma below_maxLevel h M : below h M <-> maxLevel h <= M.
Proof.
  split; [|intros L b Hb; specialize (maxLevel_below h b Hb); lia]. unfold below, maxLevel. induction (hboxes h) as [|a r IH]; cbn [map fold_right]; intros H; [lia|]. pose proof (H a (or_introl eq_refl)). specialize (IH (fun b Hb => H b (or_intror Hb))). lia.
Qed.
Lemma levelAt_ge h M i j l : 1 <= l -> below h M -> l <= levelAt h M i j <-> refined h l M i j.
Proof.
  intros L B. unfold levelAt, refined. assert (G : forall bs, (forall b, In b bs -> bl b <= M) -> l <= fold_right Nat.max 0 (map (fun b => if covers M b i j then bl b else 0) bs) <-> exists b, In b bs /\ l <= bl b /\ in_box M b i j).
  { induction bs as [|a r IH]; intros B'; cbn [map fold_right].
    - split; [lia|intros (b & [] & _)].
    - specialize (IH (fun b Hb => B' b (or_intror Hb))). pose proof (covers_in M a i j (B' a (or_introl eq_refl))) as C. split.
      + intros H. destruct (Nat.le_gt_cases l (fold_right Nat.max 0 (map (fun b => if covers M b i j then bl b else 0) r))) as [Q|Q].
        * apply IH in Q. destruct Q as (b & Hb & Q). exists b. cbn; auto.
        * exists a. destruct (covers M a i j); [|lia]. split; [left; reflexivity|]. split; [lia|]. apply C. reflexivity.
      + intros (b & [<-|Hb] & Lb & I). * rewrite (proj2 C I). lia. * assert (Q : exists b, In b r /\ l <= bl b /\ in_box M b i j) by (exists b; auto). apply IH in Q. lia. }
  apply G. exact B.
Qed.

Lemma in_cells M b c : bl b <= M -> In c (cellsOf M b) <-> in_box M b (fst c) (snd c).
Proof.
  intros L. rewrite <- (covers_in M b _ _ L). unfold cellsOf, covers. cbv zeta. pose proof (pow2_pos (M - bl b)) as K. set (k := 2 ^ (M - bl b)) in *. rewrite in_flat_map. rewrite !Bool.andb_true_iff, !Nat.leb_le, !Nat.ltb_lt.
  destruct c as (i, j). cbn [fst snd]. split.
  - intros (y & Hy & Hx). apply in_map_iff in Hx. destruct Hx as (x & E & Hx). injection E as -> ->. apply in_seq in Hx, Hy. rewrite !Nat.mul_sub_distr_r in *. lia.
  - intros H. exists j. split; [apply in_seq; rewrite Nat.mul_sub_distr_r; lia|]. apply in_map_iff. exists i. split; [reflexivity|]. apply in_seq. rewrite Nat.mul_sub_distr_r. lia.
Qed.

Lemma refined_coarse h l M M0 i j : below h M0 -> M0 <= M -> refined h l M i j <-> refined h l M0 (i / 2 ^ (M - M0)) (j / 2 ^ (M - M0)).
Proof.
  intros B L. unfold refined. split; intros (b & Hb & Lb & H); exists b; (split; [exact Hb|]); (split; [exact Lb|]); apply (in_box_coarse M M0); auto.
Qed.

Lemma atLeast_spec h l b : 1 <= l -> atLeast h l b = true <-> all_refined h l b.
Proof.
  intros L. unfold atLeast, all_refined. cbv zeta. set (M0 := Nat.max (bl b) (maxLevel h)). assert (B0 : below h M0) by (apply below_maxLevel; lia). rewrite forallb_forall. split.
  - intros H M i j B I. assert (LM : M0 <= M) by (apply below_maxLevel in B; destruct I as (I & _); lia).
    apply (refined_coarse h l M M0 i j B0 LM). apply (in_box_coarse M M0) in I; [|lia|exact LM].
    specialize (H (i / 2 ^ (M - M0), j / 2 ^ (M - M0))). cbn [fst snd] in H. rewrite Nat.leb_le, levelAt_ge in H by assumption. apply H. apply in_cells; [lia|exact I].
  - intros H c Hc. apply Nat.leb_le, levelAt_ge; [exact L|exact B0|]. apply H; [exact B0|]. apply in_cells; [lia|exact Hc].
Qed.
Lemma suppBox_support h l a c : suppBox h l a c = support h l a c. Proof. reflexivity. Qed.
Lemma active_spec h l a c : 1 <= l -> active h l a c = true <-> active_fun h l a c.
Proof.
  intros L. unfold active, active_fun, present. rewrite suppBox_support, Bool.andb_true_iff, Bool.negb_true_iff, <- Bool.not_true_iff_false, !atLeast_spec by lia. reflexivity.
Qed.
Lemma sideSize_count h l s : sideSize h l s = side_count h l s. Proof. destruct s; reflexivity. Qed.
Lemma activeBoundary_length h l s : length (activeBoundary h l s) = side_count h l s.
Proof. unfold activeBoundary. rewrite map_length, seq_length. apply sideSize_count. Qed.
Lemma activeBoundary_nth h l s k : 1 <= l -> k < side_count h l s -> nth k (activeBoundary h l s) false = true <-> on_side_fun active_fun h l s k.
Proof.
  intros L K. unfold activeBoundary. set (g := fun k => _). rewrite (nth_indep _ false (g 0)) by (rewrite map_length, seq_length, sideSize_count; exact K). rewrite map_nth, seq_nth by (rewrite sideSize_count; exact K). unfold g. cbn [Nat.add]. rewrite active_spec by exact L.
  destruct s; reflexivity.
Qed.

(** boxes are only added *)
Definition grown (h h' : hbasis) : Prop := exists bs, h' = refineElements h bs.
Lemma refined_grown h h' l M i j : grown h h' -> refined h l M i j -> refined h' l M i j.
Proof. intros (bs & ->) (b & Hb & H). exists b. cbn [refineElements hboxes]. split; [apply in_or_app; auto|exact H]. Qed.
Lemma below_grown h h' M : grown h h' -> below h' M -> below h M.
Proof. intros (bs & ->) B b Hb. apply B. cbn [refineElements hboxes]. apply in_or_app. auto. Qed.
Lemma all_refined_grown h h' l b : grown h h' -> all_refined h l b -> all_refined h' l b.
Proof. intros G H M i j B I. apply (refined_grown h); [exact G|]. apply H; [apply (below_grown h h'); auto|exact I]. Qed.
Lemma support_grown h h' l a c : grown h h' -> support h' l a c = support h l a c.
Proof. intros (bs & ->). reflexivity. Qed.
Lemma present_grown h h' l a c : grown h h' -> present h l a c -> present h' l a c.
Proof. intros G H. unfold present. rewrite (support_grown h h') by exact G. apply (all_refined_grown h); auto. Qed.
Lemma on_side_present_grown h h' l s k : grown h h' -> on_side_fun present h l s k -> on_side_fun present h' l s k.
Proof.
  intros G. pose proof (fun a c => present_grown h h' l a c G) as P. destruct G as (bs & ->). destruct s; cbn [on_side_fun]; apply P.
Qed.
Lemma grown_refl h : grown h h. Proof. exists []. unfold refineElements. rewrite app_nil_r. destruct h; reflexivity. Qed.
Lemma grown_trans a b c : grown a b -> grown b c -> grown a c.
Proof. intros (x & ->) (y & ->). exists (x ++ y). unfold refineElements. cbn. rewrite app_assoc. reflexivity. Qed.

(** an active function has a level that occurs *)
Lemma present_level h l a c : 1 <= l -> 1 <= hnu h -> 1 <= hnv h -> a < hnu h * 2 ^ l + hpu h -> c < hnv h * 2 ^ l + hpv h -> present h l a c -> l <= maxLevel h.
Proof.
  intros L U V A C P. set (M := Nat.max l (maxLevel h)). pose proof (pow2_pos (M - l)) as K.
  assert (B : below h M) by (apply below_maxLevel; lia).
  destruct (P M ((a - hpu h) * 2 ^ (M - l)) ((c - hpv h) * 2 ^ (M - l)) B) as (b & Hb & Lb & I).
  - unfold in_box, support. cbn [bl bu0 bv0 bu1 bv1]. rewrite !Nat.div_mul by lia. pose proof (pow2_pos l). split; [lia|]. split; lia.
  - specialize (maxLevel_below h b Hb). lia.
Qed.

(** ** the scan *)
Fixpoint runsFrom (fuel : nat) (r : list bool) (a e : nat) : option (list (nat * nat)) :=
  match fuel with
  | 0 => None
  | S fuel =>
      match nth_error r a with
      | None => None
      | Some b =>
          let '(a', e', x) := if negb b then (S a, S e, []) else if nth e r false then (a, S e, []) else (e, e, [(a, e - 1)]) in
          if a' =? length r then Some x else match runsFrom fuel r a' e' with Some y => Some (x ++ y) | None => None end
      end
  end.
Lemma scan_runs {X} fuel r (add : nat -> nat -> X -> res X) : forall a e x R, runsFrom fuel r a e = Some R -> scan fuel r add a e x = foldM (fun x ab => add (fst ab) (snd ab) x) R x.
Proof.
  induction fuel as [|f IH]; intros a e x R H; [discriminate H|]. cbn [runsFrom] in H. cbn [scan]. unfold vget. destruct (nth_error r a) as [b|]; [|discriminate H]. cbn [bind].
  destruct b; cbn [negb] in *.
  - destruct (nth e r false).
    + cbn [bind]. destruct (a =? length r); [injection H as <-; reflexivity|]. destruct (runsFrom f r a (S e)) as [y|] eqn:E; [|discriminate H]. injection H as <-. apply IH. exact E.
    + destruct (add a (e - 1) x) as [x'|] eqn:Ex; cbn [bind].
      * destruct (e =? length r); [injection H as <-; cbn [foldM fst snd]; rewrite Ex; reflexivity|]. destruct (runsFrom f r e e) as [y|] eqn:E; [|discriminate H]. injection H as <-. cbn [app foldM fst snd]. rewrite Ex. cbn [bind]. apply IH. exact E.
      * destruct (e =? length r); [injection H as <-; cbn [foldM fst snd]; rewrite Ex; reflexivity|]. destruct (runsFrom f r e e) as [y|] eqn:E; [|discriminate H]. injection H as <-. cbn [app foldM fst snd]. rewrite Ex. reflexivity.
  - cbn [bind]. destruct (S a =? length r); [injection H as <-; reflexivity|]. destruct (runsFrom f r (S a) (S e)) as [y|] eqn:E; [|discriminate H]. injection H as <-. apply IH. exact E.
Qed.
Definition runs_between (r : list bool) (a : nat) (R : list (nat * nat)) : Prop :=
  (forall i j, In (i, j) R <-> a <= i /\ is_run r i j) /\ StronglySorted (fun x y => snd x < fst y) R.
Lemma runsFrom_ok fuel : forall r a e, a < length r -> a <= e <= length r -> 2 * (length r - e) + (e - a) + 1 < fuel ->
  (forall i, a <= i < e -> nth i r false = true) -> (a = 0 \/ nth (a - 1) r false = false \/ (a = e /\ nth a r false = false)) ->
  exists R, runsFrom fuel r a e = Some R /\ runs_between r a R.
Proof.
  induction fuel as [|f IH]; intros r a e A E F T L; [lia|]. cbn [runsFrom].
  destruct (nth_error r a) as [b|] eqn:N; [|apply nth_error_None in N; lia]. pose proof (nth_error_nth r a false N) as Nb. destruct b; cbn [negb].
  - destruct (nth e r false) eqn:Ne.
    + destruct (Nat.eqb_spec a (length r)); [lia|]. assert (e < length r) by (destruct (Nat.lt_ge_cases e (length r)); [assumption|rewrite nth_overflow in Ne by lia; discriminate Ne]).
      destruct (IH r a (S e)) as (R & HR & B); [lia|lia|lia| |destruct L as [|[|(? & ?)]]; auto; congruence|].
      * intros i Hi. destruct (Nat.eq_dec i e) as [->|]; [exact Ne|apply T; lia].
      * rewrite HR. exists R. auto.
    + assert (a < e) by (destruct (Nat.eq_dec a e); [subst; congruence|lia]).
      assert (Ra : is_run r a (e - 1)).
      { split; [lia|]. split; [intros i Hi; apply T; lia|]. split; [destruct L as [|[|(? & ?)]]; auto; lia|]. replace (e - 1 + 1) with e by lia. exact Ne. }
      assert (U : forall i j, a <= i < e -> is_run r i j -> i = a /\ j = e - 1).
      { intros i j Hi (Hj & Tj & Lj & Rj). assert (i = a). { destruct Lj as [->|Lj]; [lia|]. destruct (Nat.eq_dec i a); [assumption|]. rewrite T in Lj by lia. discriminate Lj. } split; [assumption|]. subst i.
        destruct (Nat.lt_trichotomy (j + 1) e) as [Q|[Q|Q]]; [rewrite T in Rj by lia; discriminate Rj|lia|]. rewrite (Tj e) in Ne by lia. discriminate Ne. }
      destruct (Nat.eqb_spec e (length r)).
      * exists [(a, e - 1)]. split; [reflexivity|]. split; [|repeat constructor]. intros i j. split.
        -- intros [Q|[]]. injection Q as <- <-. auto.
        -- intros (Hi & Q). destruct (U i j) as (-> & ->); [destruct Q as (Q & _); lia|exact Q|left; reflexivity].
      * destruct (IH r e e) as (R & HR & B & S'); [lia|lia|lia|lia|right; right; auto|]. rewrite HR. exists ((a, e - 1) :: R). split; [reflexivity|]. split.
        -- intros i j. cbn [In]. rewrite B. split.
           ++ intros [Q|(Hi & Q)]; [injection Q as <- <-; auto|split; [lia|exact Q]].
           ++ intros (Hi & Q). destruct (Nat.lt_ge_cases i e) as [Li|Li]; [|right; auto]. left. destruct (U i j) as (-> & ->); auto.
        -- constructor; [exact S'|]. apply Forall_forall. intros (i, j) HI. apply B in HI. cbn [fst snd]. lia.
  - assert (a = e) as <- by (destruct (Nat.eq_dec a e); [assumption|]; rewrite T in Nb by lia; discriminate Nb).
    assert (U : forall i j, a <= i /\ is_run r i j <-> S a <= i /\ is_run r i j).
    { intros i j. split; intros (Hi & Q); (split; [|exact Q]); [|lia]. destruct (Nat.eq_dec i a) as [->|]; [|lia]. destruct Q as (Q & T' & _). rewrite T' in Nb by lia. discriminate Nb. }
    destruct (Nat.eqb_spec (S a) (length r)).
    + exists []. split; [reflexivity|]. split; [|constructor]. intros i j. rewrite U. split; [intros []|]. intros (Hi & (Q & _)). lia.
    + destruct (IH r (S a) (S a)) as (R & HR & B & S'); [lia|lia|lia|lia|right; left; replace (S a - 1) with a by lia; exact Nb|]. rewrite HR. exists R. split; [reflexivity|]. split; [|exact S']. intros i j. rewrite U. apply B.
Qed.
Lemma scan_ok r : r <> [] -> exists R, the_runs r R /\ forall X (add : nat -> nat -> X -> res X) x, scan (2 * length r + 2) r add 0 0 x = foldM (fun x ab => add (fst ab) (snd ab) x) R x.
Proof.
  intros N. assert (0 < length r) by (destruct r; [congruence|cbn; lia]). destruct (runsFrom_ok (2 * length r + 2) r 0 0) as (R & HR & B & S'); [lia|lia|lia|lia|auto|].
  exists R. split; [|intros X add x; apply scan_runs; exact HR]. split; [|exact S']. intros a b. rewrite B. intuition lia.
Qed.
(** every flag that is set is in a run *)
Lemma in_some_run r i : nth i r false = true -> exists a b, is_run r a b /\ a <= i <= b.
Proof.
  intros H. assert (Hi : i < length r) by (destruct (Nat.lt_ge_cases i (length r)); [assumption|rewrite nth_overflow in H by lia; discriminate H]).
  assert (Lft : exists a, a <= i /\ (forall k, a <= k <= i -> nth k r false = true) /\ (a = 0 \/ nth (a - 1) r false = false)).
  { clear Hi. induction i as [|i IH].
    - exists 0. split; [lia|]. split; [intros k Hk; replace k with 0 by lia; exact H|auto].
    - destruct (nth i r false) eqn:E.
      + destruct (IH eq_refl) as (a & A & T & L). exists a. split; [lia|]. split; [|exact L]. intros k Hk. destruct (Nat.eq_dec k (S i)) as [->|]; [exact H|apply T; lia].
      + exists (S i). split; [lia|]. split; [intros k Hk; replace k with (S i) by lia; exact H|]. right. replace (S i - 1) with i by lia. exact E. }
  assert (Rgt : exists b, i <= b < length r /\ (forall k, i <= k <= b -> nth k r false = true) /\ nth (b + 1) r false = false).
  { remember (length r - i) as d eqn:D. clear Lft. revert i H Hi D. induction d as [|d IH]; intros i H Hi D; [lia|]. destruct (nth (i + 1) r false) eqn:E.
    - assert (i + 1 < length r) by (destruct (Nat.lt_ge_cases (i + 1) (length r)); [assumption|rewrite nth_overflow in E by lia; discriminate E]).
      destruct (IH (i + 1) E ltac:(assumption) ltac:(lia)) as (b & B & T & Q).
      exists b. split; [lia|]. split; [|exact Q]. intros k Hk. destruct (Nat.eq_dec k i) as [->|]; [exact H|apply T; lia].
    - exists i. split; [lia|]. split; [intros k Hk; replace k with i by lia; exact H|exact E]. }
  destruct Lft as (a & A & T & L), Rgt as (b & B & T' & Q). exists a, b. split; [|lia]. split; [lia|]. split; [|auto]. intros k Hk. destruct (Nat.le_gt_cases k i); [apply T|apply T']; lia.
Qed.
