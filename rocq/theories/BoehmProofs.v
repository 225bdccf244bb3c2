(** The insertion of knots preserves the spline; the weights couple the functions of two patches smoothly. *)
From Coq Require Import Lra.
From Verif Require Import Common SplineModel SplineProofs KnotProofs BoehmModel BoehmSpec KnotSmooth.
Open Scope R_scope.

(** ** Sums *)
Lemma rsum_ext n f g : (forall i, (i < n)%nat -> f i = g i) -> rsum n f = rsum n g.
Proof. induction n as [|n IH]; intros E; cbn [rsum]; [reflexivity|]. rewrite IH by (intros i L; apply E; lia). now rewrite E by lia. Qed.
Lemma rsum_zero n f : (forall i, (i < n)%nat -> f i = 0) -> rsum n f = 0.
Proof. induction n as [|n IH]; intros E; cbn [rsum]; [reflexivity|]. rewrite IH by (intros i L; apply E; lia). rewrite E by lia. ring. Qed.
Lemma rsum_plus n f g : rsum n (fun i => f i + g i) = rsum n f + rsum n g.
Proof. induction n as [|n IH]; cbn [rsum]; [ring|]. rewrite IH. ring. Qed.
Lemma rsum_shift n f : rsum (S n) f = f O + rsum n (fun i => f (S i)).
Proof. induction n as [|n IH]; cbn [rsum] in *; [ring|]. rewrite IH. ring. Qed.
Lemma rsum_split m n f : rsum (m + n) f = rsum m f + rsum n (fun i => f (m + i)%nat).
Proof. induction n as [|n IH]; [rewrite Nat.add_0_r; cbn [rsum]; ring|]. rewrite Nat.add_succ_r. cbn [rsum]. rewrite IH. ring. Qed.
Lemma rsum_one n f i : (i < n)%nat -> (forall j, (j < n)%nat -> j <> i -> f j = 0) -> rsum n f = f i.
Proof.
  intros L Z. replace n with (i + (1 + (n - i - 1)))%nat by lia. rewrite !rsum_split. rewrite (rsum_zero i) by (intros j Lj; apply Z; lia). rewrite (rsum_zero (n - i - 1)) by (intros j Lj; apply Z; lia). cbn [rsum]. rewrite Nat.add_0_r. ring.
Qed.

Lemma rsum_window n lo len f : (lo + len <= n)%nat -> (forall i, (i < n)%nat -> (i < lo \/ lo + len <= i)%nat -> f i = 0) -> rsum n f = rsum len (fun i => f (lo + i)%nat).
Proof.
  intros L Z. replace n with (lo + (len + (n - lo - len)))%nat by lia. rewrite !rsum_split. rewrite (rsum_zero lo) by (intros j Lj; apply Z; lia). rewrite (rsum_zero (n - lo - len)) by (intros j Lj; apply Z; lia). ring.
Qed.

(** ** Ascending lists *)
Definition ext (T : list R) (j : nat) : R := nth (Nat.min j (length T - 1)) T 0.
Lemma ext_nth T j : (j < length T)%nat -> ext T j = nth j T 0. Proof. intros L. unfold ext. now rewrite Nat.min_l by lia. Qed.
Lemma ext_mono T : ascending T -> forall i j, (i <= j)%nat -> ext T i <= ext T j.
Proof.
  intros A i j L. unfold ext. destruct T as [|x T]; [destruct (Nat.min i _), (Nat.min j _); cbn; lra|]. apply A. cbn [length]. lia.
Qed.
Lemma asc_app A B : ascending A -> ascending B -> (forall x y, In x A -> In y B -> x <= y) -> ascending (A ++ B).
Proof.
  intros HA HB H i j L. rewrite app_length in L. destruct (Nat.lt_ge_cases i (length A)) as [Li|Li]; destruct (Nat.lt_ge_cases j (length A)) as [Lj|Lj].
  - rewrite !app_nth1 by lia. apply HA. lia.
  - rewrite app_nth1, (app_nth2 A B) by lia. apply H; apply nth_In; lia.
  - lia.
  - rewrite !app_nth2 by lia. apply HB. lia.
Qed.
Lemma nth_repeat_lt (v d : R) n i : (i < n)%nat -> nth i (repeat v n) d = v.
Proof. revert i. induction n as [|n IH]; intros [|i] L; cbn; try lia; [reflexivity|]. apply IH. lia. Qed.
Lemma asc_repeat v n : ascending (repeat v n).
Proof. intros i j L. rewrite repeat_length in L. rewrite !nth_repeat_lt by lia. lra. Qed.

Lemma count_split u A B : (forall v, In v A -> v <= u) -> (forall v, In v B -> u < v) -> countLe u (A ++ B) = length A.
Proof.
  intros HA HB. unfold countLe. rewrite filter_app, app_length. replace (filter _ B) with (@nil R).
  - rewrite Nat.add_0_r. induction A as [|x A IH]; [reflexivity|]. cbn [filter]. destruct (Rle_dec x u) as [|N]; [cbn [length]; f_equal; apply IH; intros v Hv; apply HA; now right|]. exfalso. apply N. apply HA. now left.
  - symmetry. induction B as [|x B IH]; [reflexivity|]. cbn [filter]. destruct (Rle_dec x u) as [L|N]; [specialize (HB x (or_introl eq_refl)); lra|]. apply IH. intros v Hv. apply HB. now right.
Qed.

(** ** One insertion *)
Section Insert.
Context (p : nat) (u : R) (A B : list R) (c : list R).
Context (HA : forall v, In v A -> v <= u) (HB : forall v, In v B -> u < v) (Asc : ascending (A ++ B)).
Context (LA : (p < length A)%nat) (LB : (p < length B)%nat) (Lc : (length c + p + 1 = length (A ++ B))%nat).
Notation T := (A ++ B).
Notation T' := (A ++ u :: B).
Notation k := (length A - 1)%nat.

Lemma ins_t j : ext T' j = tins (ext T) k u j.
Proof.
  unfold tins, ext. rewrite !app_length in *. cbn [length] in *. destruct (Nat.leb_spec j k) as [L|L].
  - rewrite !Nat.min_l by lia. now rewrite !app_nth1 by lia.
  - destruct (Nat.eqb_spec j (S k)) as [E|N].
    + rewrite Nat.min_l by lia. rewrite app_nth2 by lia. replace (j - length A)%nat with O by lia. reflexivity.
    + rewrite !app_nth2 by lia. set (m := Nat.min j (length A + S (length B) - 1)). replace (m - length A)%nat with (S (Nat.min (j - 1) (length A + length B - 1) - length A)) by lia. reflexivity.
Qed.
Lemma ins_k : ext T k <= u.
Proof. rewrite app_length in *. rewrite ext_nth by (rewrite app_length; lia). rewrite app_nth1 by lia. apply HA. apply nth_In. lia. Qed.
Lemma ins_k' : u < ext T (S k).
Proof. rewrite app_length in *. rewrite ext_nth by (rewrite app_length; lia). rewrite app_nth2 by lia. apply HB. apply nth_In. lia. Qed.
Lemma asc_ins : ascending T'.
Proof.
  intros i j L. rewrite <- !ext_nth by lia. rewrite !ins_t. apply tins_mono; [now apply ext_mono|exact ins_k|exact ins_k'|lia].
Qed.

Definition row := boehmRow p u T c (length A).
Lemma row_term i x : row i * bspl (ext T') p i x = (insA (ext T) k u p i * nth i c 0 + match i with O => 0 | S h => insB (ext T) k u p h * nth h c 0 end) * bspl (ext T') p i x.
Proof.
  pose proof (ext_mono _ Asc) as Ht. pose proof ins_k as K1. pose proof ins_k' as K2. set (t := ext T) in *. assert (LT : length T = (length A + length B)%nat) by apply app_length.
  assert (IVN : forall d, d <> 0 -> inv0 d = / d) by (intros d N; unfold inv0; destruct (Req_EM_T d 0); [contradiction|reflexivity]).
  assert (B0 : (i + p < length A)%nat -> match i with O => 0 | S h => insB t k u p h * nth h c 0 end = 0) by (intros L; destruct i as [|h]; [reflexivity|]; rewrite insB_low by lia; ring).
  unfold row, boehmRow. destruct (Nat.ltb_spec (i + p) (length A)) as [L|L].
  - rewrite (B0 L). destruct (Nat.eq_dec (i + p + 1) (length A)) as [E|N].
    + rewrite insA_mid by lia. rewrite (tins_low t k u i) by lia. replace (i + p + 1)%nat with (S k) by lia. rewrite tins_mid by lia. destruct (Req_EM_T (u - t i) 0) as [Z|Z]; [|rewrite inv0_self by exact Z; ring].
      rewrite (bspl_void (ext T') (ext_mono _ asc_ins) p i x); [ring|]. rewrite !ins_t. change (ext T) with t. rewrite (tins_low t k u i) by lia. replace (i + p + 1)%nat with (S k) by lia. rewrite tins_mid by lia. lra.
    + rewrite insA_low by lia. ring.
  - destruct (Nat.ltb_spec i (length A)) as [L2|L2].
    + destruct i as [|h]; [lia|]. rewrite insA_mid, insB_mid by lia. replace (h + p + 2)%nat with (S h + p + 1)%nat by lia. replace (h + 1)%nat with (S h) by lia. replace (h + p + 1)%nat with (S h + p)%nat by lia.
      replace (S h + p + 1)%nat with (S (S h + p)) by lia. rewrite (tins_low t k u (S h)), (tins_high t k u (S h + p)) by lia. replace (S h - 1)%nat with h by lia.
      replace (nth (S h) T 0) with (t (S h)) by (apply ext_nth; lia). replace (nth (S h + p) T 0) with (t (S h + p)%nat) by (apply ext_nth; rewrite LT; lia).
      pose proof (Ht (S h) k ltac:(lia)). pose proof (Ht (S k) (S h + p)%nat ltac:(lia)). rewrite IVN by lra. field. lra.
    + rewrite insA_high by lia. destruct i as [|h]; [lia|]. replace (S h - 1)%nat with h by lia. destruct (Nat.eq_dec h k) as [->|N].
      * rewrite insB_mid by lia. replace (k + p + 2)%nat with (S (k + p + 1)) by lia. replace (k + 1)%nat with (S k) by lia. rewrite tins_mid, tins_high by lia. pose proof (Ht (S k) (k + p + 1)%nat ltac:(lia)). rewrite inv0_self by lra. ring.
      * rewrite insB_high by lia. ring.
Qed.
Theorem ins_sum x : rsum (length c) (fun i => nth i c 0 * bspl (ext T) p i x) = rsum (S (length c)) (fun i => row i * bspl (ext T') p i x).
Proof.
  pose proof (ext_mono _ Asc) as Ht. pose proof ins_k as K1. pose proof ins_k' as K2.
  rewrite (rsum_ext _ _ (fun i => insA (ext T) k u p i * nth i c 0 * bspl (ext T') p i x + insB (ext T) k u p i * nth i c 0 * bspl (ext T') p (S i) x)).
  2:{ intros i L. rewrite (knot_insertion (ext T) Ht k u K1 K2 p i x). assert (RR : forall h, bspl (tins (ext T) k u) p h x = bspl (ext T') p h x) by (intros h; symmetry; apply bspl_range; intros j Lj; apply ins_t). rewrite !RR. ring. }
  rewrite rsum_plus. rewrite (rsum_ext (S (length c)) _ (fun i => insA (ext T) k u p i * nth i c 0 * bspl (ext T') p i x + match i with O => 0 | S h => insB (ext T) k u p h * nth h c 0 * bspl (ext T') p (S h) x end)).
  2:{ intros i L. rewrite row_term. destruct i; ring. }
  rewrite rsum_plus. rewrite (rsum_shift (length c) (fun i => match i with O => _ | S h => _ end)). cbn [rsum]. rewrite (nth_overflow c 0 (le_n _)). ring.
Qed.
Theorem ins_ok : boehm1 p u (T, c) = Ok (T', map row (seq 0 (S (length c)))).
Proof.
  unfold boehm1. rewrite (count_split u A B HA HB). destruct (Nat.ltb_spec p (length A)); [|lia]. destruct (Nat.ltb_spec (length A + p) (length T)) as [|N]; [|rewrite app_length in N; lia]. rewrite Lc, Nat.eqb_refl. cbn [andb].
  rewrite firstn_app, Nat.sub_diag, firstn_all, firstn_O, app_nil_r. rewrite skipn_app, Nat.sub_diag, skipn_all, skipn_O. reflexivity.
Qed.
End Insert.
Lemma nth_map_seq (f : nat -> R) n i d : (i < n)%nat -> nth i (map f (seq 0 n)) d = f i.
Proof. intros L. rewrite (nth_indep _ d (f O)) by (rewrite map_length, seq_length; lia). rewrite map_nth. now rewrite seq_nth by lia. Qed.

(** ** Repeated insertion of the interface knot *)
Section Joint.
Context (p : nat) (b : R) (L B : list R).
Context (HL : forall v, In v L -> v < b) (HB : forall v, In v B -> b < v) (AL : ascending L) (AB : ascending B).
Context (Lp : (p < length L)%nat) (Bp : (p < length B)%nat).
(** the joint knots with [m] copies of the interface *)
Definition jk (m : nat) : list R := L ++ repeat b m ++ B.
Lemma jk_asc m : ascending (jk m).
Proof.
  apply asc_app; [exact AL|apply asc_app; [apply asc_repeat|exact AB|]|].
  - intros x y Hx Hy. apply repeat_spec in Hx. subst. left. now apply HB.
  - intros x y Hx Hy. apply in_app_iff in Hy. specialize (HL x Hx). destruct Hy as [Hy|Hy]; [apply repeat_spec in Hy; subst; lra|]. specialize (HB y Hy). lra.
Qed.
Lemma jk_len m : length (jk m) = (length L + m + length B)%nat.
Proof. unfold jk. rewrite !app_length, repeat_length. lia. Qed.
Lemma jk_low m j : (j < length L)%nat -> ext (jk m) j = nth j L 0.
Proof. intros H. rewrite ext_nth by (rewrite jk_len; lia). unfold jk. now rewrite app_nth1. Qed.
Lemma jk_mid m j : (length L <= j < length L + m)%nat -> ext (jk m) j = b.
Proof. intros H. rewrite ext_nth by (rewrite jk_len; lia). unfold jk. rewrite app_nth2 by lia. rewrite app_nth1 by (rewrite repeat_length; lia). apply nth_repeat_lt. lia. Qed.
Lemma jk_high m j : (j < length B)%nat -> ext (jk m) (length L + m + j) = nth j B 0.
Proof. intros H. rewrite ext_nth by (rewrite jk_len; lia). unfold jk. rewrite app_nth2 by lia. rewrite app_nth2 by (rewrite repeat_length; lia). rewrite repeat_length. f_equal. lia. Qed.

Lemma repeat_snoc m : repeat b m ++ b :: B = repeat b (S m) ++ B.
Proof. clear. induction m as [|m IH]; [reflexivity|]. cbn [repeat app] in *. now rewrite IH. Qed.
Definition jrow (m : nat) (c : list R) : list R := map (row p b (L ++ repeat b m) B c) (seq 0 (S (length c))).
Lemma step_hyp m : (forall v, In v (L ++ repeat b m) -> v <= b) /\ ascending ((L ++ repeat b m) ++ B) /\ (p < length (L ++ repeat b m))%nat.
Proof.
  split; [|split].
  - intros v Hv. apply in_app_iff in Hv. destruct Hv as [Hv|Hv]; [left; now apply HL|apply repeat_spec in Hv; lra].
  - rewrite <- app_assoc. apply jk_asc.
  - rewrite app_length. lia.
Qed.
Lemma step_ok m c : (length c + p + 1 = length L + m + length B)%nat -> boehm1 p b (jk m, c) = Ok (jk (S m), jrow m c).
Proof.
  intros E. destruct (step_hyp m) as (H1 & H2 & H3). unfold jk at 1. rewrite app_assoc. rewrite (ins_ok p b (L ++ repeat b m) B c H1 HB H3 Bp) by (rewrite !app_length, repeat_length; lia).
  unfold jk, jrow. rewrite <- app_assoc, repeat_snoc. reflexivity.
Qed.
Lemma step_sum m c x : (length c + p + 1 = length L + m + length B)%nat ->
  rsum (length c) (fun i => nth i c 0 * bspl (ext (jk m)) p i x) = rsum (length (jrow m c)) (fun i => nth i (jrow m c) 0 * bspl (ext (jk (S m))) p i x).
Proof.
  intros E. destruct (step_hyp m) as (H1 & H2 & H3). pose proof (ins_sum p b (L ++ repeat b m) B c H1 HB H2 H3 Bp ltac:(rewrite !app_length, repeat_length; lia) x) as S.
  replace ((L ++ repeat b m) ++ B) with (jk m) in S by (unfold jk; now rewrite app_assoc).
  replace ((L ++ repeat b m) ++ b :: B) with (jk (Datatypes.S m)) in S.
  2:{ unfold jk. rewrite <- app_assoc. f_equal. symmetry; apply repeat_snoc. }
  rewrite S. unfold jrow at 1. rewrite map_length, seq_length. apply rsum_ext. intros i Li. unfold jrow. now rewrite nth_map_seq by lia.
Qed.

(** the coefficients after [r] insertions *)
Fixpoint jrows (m r : nat) (c : list R) : list R := match r with O => c | S r' => jrows (S m) r' (jrow m c) end.
Lemma jrow_len m c : length (jrow m c) = S (length c). Proof. unfold jrow. now rewrite map_length, seq_length. Qed.
Lemma jrows_len r : forall m c, length (jrows m r c) = (r + length c)%nat.
Proof. induction r as [|r IH]; intros m c; cbn [jrows]; [reflexivity|]. rewrite IH, jrow_len. lia. Qed.
Lemma steps_ok r : forall m c, (length c + p + 1 = length L + m + length B)%nat -> boehm p b r (jk m, c) = Ok (jk (m + r), jrows m r c).
Proof.
  induction r as [|r IH]; intros m c E; cbn [boehm jrows]; [now rewrite Nat.add_0_r|]. rewrite step_ok by exact E. cbn [bind]. rewrite IH by (rewrite jrow_len; lia). now replace (S m + r)%nat with (m + S r)%nat by lia.
Qed.
Lemma steps_sum r x : forall m c, (length c + p + 1 = length L + m + length B)%nat ->
  rsum (length c) (fun i => nth i c 0 * bspl (ext (jk m)) p i x) = rsum (length (jrows m r c)) (fun i => nth i (jrows m r c) 0 * bspl (ext (jk (m + r))) p i x).
Proof.
  induction r as [|r IH]; intros m c E; cbn [jrows]; [now rewrite Nat.add_0_r|]. rewrite (step_sum m c x E). rewrite IH by (rewrite jrow_len; lia). now replace (S m + r)%nat with (m + S r)%nat by lia.
Qed.
(** one row, spelled out *)
Lemma jrow_lin m i : (i + p + 1 <= length L + m + length B)%nat -> exists a, 0 <= a <= 1 /\ (forall c, (length c + p + 1 = length L + m + length B)%nat -> nth i (jrow m c) 0 = a * nth i c 0 + (1 - a) * nth (i - 1) c 0) /\
  ((i + p < length L + m)%nat -> a = 1) /\ ((length L <= i)%nat -> (length L + m <= i + p)%nat -> a = 0) /\ ((i < length L)%nat -> 0 < a) /\ ((length L + m <= i + p)%nat -> a < 1).
Proof.
  intros Li. destruct (step_hyp m) as (H1 & H2 & H3).
  assert (U : forall a, (forall c, (length c + p + 1 = length L + m + length B)%nat -> boehmRow p b ((L ++ repeat b m) ++ B) c (length L + m) i = a * nth i c 0 + (1 - a) * nth (i - 1) c 0) -> forall c, (length c + p + 1 = length L + m + length B)%nat -> nth i (jrow m c) 0 = a * nth i c 0 + (1 - a) * nth (i - 1) c 0).
  { intros a F c E. unfold jrow. rewrite nth_map_seq by lia. unfold row. rewrite app_length, repeat_length. now apply F. }
  unfold boehmRow in U.
  destruct (Nat.ltb_spec (i + p) (length L + m)) as [C|C].
  { exists 1. split; [lra|]. split; [apply U; intros; lra|]. repeat split; try lra; lia. }
  destruct (Nat.ltb_spec i (length L + m)) as [D|D].
  2:{ exists 0. split; [lra|]. split; [apply U; intros; lra|]. repeat split; try lra; try lia. }
  set (t := nth i ((L ++ repeat b m) ++ B) 0). set (t' := nth (i + p) ((L ++ repeat b m) ++ B) 0).
  assert (T1 : b < t') by (unfold t'; rewrite app_nth2 by (rewrite app_length, repeat_length; lia); apply HB; apply nth_In; rewrite app_length, repeat_length; lia).
  assert (T0 : t <= b) by (unfold t; rewrite app_nth1 by (rewrite app_length, repeat_length; lia); apply H1; apply nth_In; rewrite app_length, repeat_length; lia).
  assert (D0 : 0 < / (t' - t)) by (apply Rinv_0_lt_compat; lra). unfold Rdiv. assert (D1 : (t' - t) * / (t' - t) = 1) by (apply Rinv_r; lra).
  exists ((b - t) * / (t' - t)). assert (T2 : (length L <= i)%nat -> t = b).
  { intros Hi. unfold t. rewrite app_nth1 by (rewrite app_length, repeat_length; lia). rewrite app_nth2 by lia. apply nth_repeat_lt. lia. }
  assert (T3 : (i < length L)%nat -> t < b).
  { intros Hi. unfold t. rewrite app_nth1 by (rewrite app_length, repeat_length; lia). rewrite app_nth1 by lia. apply HL. apply nth_In. lia. }
  assert (0 <= (b - t) * / (t' - t)) by (apply Rmult_le_pos; lra). assert ((b - t) * / (t' - t) < 1) by nra.
  split; [lra|]. split; [apply U; intros; reflexivity|]. repeat split; try lra; try lia.
  - intros Hi _. rewrite T2 by exact Hi. ring.
  - intros Hi. specialize (T3 Hi). apply Rmult_lt_0_compat; lra.
Qed.

Lemma jrow_nth m c i : (length c + p + 1 = length L + m + length B)%nat -> (i <= length c)%nat -> exists a, 0 <= a <= 1 /\ nth i (jrow m c) 0 = a * nth i c 0 + (1 - a) * nth (i - 1) c 0 /\
  ((i + p < length L + m)%nat -> a = 1) /\ ((length L <= i)%nat -> (length L + m <= i + p)%nat -> a = 0) /\ ((i < length L)%nat -> 0 < a) /\ ((length L + m <= i + p)%nat -> a < 1).
Proof. intros E Li. destruct (jrow_lin m i ltac:(lia)) as (a & A & F & R). exists a. split; [exact A|]. split; [now apply F|exact R]. Qed.

(** rows of several vectors together *)
Lemma rsum_lin n a f g : rsum n (fun k => a * f k + (1 - a) * g k) = a * rsum n f + (1 - a) * rsum n g.
Proof. clear. induction n as [|n IH]; cbn [rsum]; [ring|]. rewrite IH. ring. Qed.
Lemma part_steps n r : forall m lo hi cs, (forall k, (k < n)%nat -> length (cs k) + p + 1 = length L + m + length B)%nat -> (lo + p < length L + m)%nat -> (length L + m <= hi + 1 + p)%nat -> (length L <= hi + 1)%nat -> (lo <= hi)%nat -> (hi + p + 1 < length L + m + length B)%nat ->
  (forall i, rsum n (fun k => nth i (cs k) 0) = if (lo <=? i)%nat && (i <=? hi)%nat then 1 else 0) ->
  forall i, rsum n (fun k => nth i (jrows m r (cs k)) 0) = if (lo <=? i)%nat && (i <=? hi + r)%nat then 1 else 0.
Proof.
  induction r as [|r IH]; intros m lo hi cs E H1 H2 H3 H4 H5 S i; cbn [jrows]; [rewrite Nat.add_0_r; apply S|].
  replace (hi + Datatypes.S r)%nat with (Datatypes.S hi + r)%nat by lia. apply (IH (Datatypes.S m) lo (Datatypes.S hi) (fun k => jrow m (cs k))); try lia; [intros k Hk; rewrite jrow_len; specialize (E k Hk); lia|]. clear i. intros i.
  destruct (Nat.le_gt_cases (i + p + 1) (length L + m + length B)) as [Li|Li].
  - destruct (jrow_lin m i Li) as (a & A & F & A1 & A2 & _). rewrite (rsum_ext _ _ (fun k => a * nth i (cs k) 0 + (1 - a) * nth (i - 1) (cs k) 0)) by (intros k Hk; apply F; apply E; exact Hk). rewrite rsum_lin, !S.
    destruct (Nat.leb_spec lo i) as [B1|B1]; destruct (Nat.leb_spec i (Datatypes.S hi)) as [B2|B2]; cbn [andb].
    + destruct (Nat.eq_dec i (Datatypes.S hi)) as [->|N].
      * rewrite A2 by lia. destruct (Nat.leb_spec (Datatypes.S hi) hi); [lia|]. replace (Datatypes.S hi - 1)%nat with hi by lia. destruct (Nat.leb_spec lo hi); [|lia]. rewrite Nat.leb_refl. cbn [andb]. ring.
      * destruct (Nat.leb_spec i hi); [|lia]. destruct (Nat.eq_dec i lo) as [->|N2]; [rewrite A1 by lia; ring|]. destruct (Nat.leb_spec lo (i - 1)); [|lia]. destruct (Nat.leb_spec (i - 1) hi); [|lia]. cbn [andb]. ring.
    + destruct (Nat.leb_spec i hi); [lia|]. destruct (Nat.leb_spec (i - 1) hi); [lia|]. rewrite !andb_false_r. ring.
    + destruct (Nat.leb_spec lo (i - 1)); [lia|]. cbn [andb]. ring.
    + lia.
  - destruct (Nat.leb_spec i (Datatypes.S hi)); [lia|]. rewrite andb_false_r. apply rsum_zero. intros k Hk. apply nth_overflow. rewrite jrow_len. specialize (E k Hk). lia.
Qed.

Definition supp (c : list R) (lo hi : nat) : Prop := (hi < length c)%nat /\ (forall i, (i < lo \/ hi < i)%nat -> nth i c 0 = 0) /\ (forall i, (lo <= i <= hi)%nat -> 0 < nth i c 0 <= 1).
Lemma supp_step m c lo hi : (length c + p + 1 = length L + m + length B)%nat -> (lo <= hi)%nat -> (lo < length L)%nat -> (length L + m <= hi + 1 + p)%nat -> supp c lo hi -> supp (jrow m c) lo (S hi).
Proof.
  intros E LH L1 L2 (S1 & S2 & S3). split; [rewrite jrow_len; lia|]. split.
  - intros i Hi. destruct (Nat.le_gt_cases i (length c)) as [Li|Li]; [|apply nth_overflow; rewrite jrow_len; lia]. destruct (jrow_nth m c i E Li) as (a & _ & -> & _). rewrite (S2 i), (S2 (i - 1)%nat) by lia. ring.
  - intros i Hi. destruct (jrow_nth m c i E ltac:(lia)) as (a & A & -> & A1 & _ & A3 & A4).
    destruct (Nat.eq_dec i lo) as [->|N].
    + specialize (A3 L1). destruct lo as [|l]; [replace (0 - 1)%nat with O by lia; pose proof (S3 O ltac:(lia)); nra|]. rewrite (S2 (S l - 1)%nat) by lia. pose proof (S3 (S l) ltac:(lia)). nra.
    + destruct (Nat.eq_dec i (S hi)) as [->|N2].
      * rewrite (S2 (S hi)) by lia. replace (S hi - 1)%nat with hi by lia. pose proof (S3 hi ltac:(lia)). specialize (A4 ltac:(lia)). nra.
      * pose proof (S3 i ltac:(lia)). pose proof (S3 (i - 1)%nat ltac:(lia)). nra.
Qed.
Lemma supp_steps r : forall m c lo hi, (length c + p + 1 = length L + m + length B)%nat -> (lo <= hi)%nat -> (lo < length L)%nat -> (length L + m <= hi + 1 + p)%nat -> supp c lo hi -> supp (jrows m r c) lo (hi + r).
Proof.
  induction r as [|r IH]; intros m c lo hi E LH L1 L2 S; cbn [jrows]; [now rewrite Nat.add_0_r|]. replace (hi + Datatypes.S r)%nat with (Datatypes.S hi + r)%nat by lia. apply IH; [rewrite jrow_len; lia|lia|exact L1|lia|]. now apply supp_step.
Qed.
Lemma unit_len n i : length (unitV n i) = n. Proof. unfold unitV. now rewrite map_length, seq_length. Qed.
Lemma unit_nth n i j : (j < n)%nat -> nth j (unitV n i) 0 = if (j =? i)%nat then 1 else 0. Proof. intros H. unfold unitV. now rewrite nth_map_seq. Qed.
Lemma unit_supp n i : (i < n)%nat -> supp (unitV n i) i i.
Proof.
  intros H. split; [now rewrite unit_len|]. split.
  - intros j Hj. destruct (Nat.lt_ge_cases j n) as [Lj|Lj]; [|apply nth_overflow; rewrite unit_len; lia]. rewrite unit_nth by exact Lj. destruct (Nat.eqb_spec j i); [lia|reflexivity].
  - intros j Hj. rewrite unit_nth by lia. destruct (Nat.eqb_spec j i); [lra|lia].
Qed.

(** *** The halves *)
Lemma first_term t q i x : (forall i j, (i <= j)%nat -> t i <= t j) -> (1 <= q)%nat -> x < t (i + 1)%nat -> bspl t q i x = (x - t i) * inv0 (t (i + q)%nat - t i) * bspl t (q - 1) i x.
Proof.
  clear. intros M Q H. destruct q as [|q]; [lia|]. cbn [bspl]. rewrite (bspl_below t M q (S i)) by (replace (S i) with (i + 1)%nat by lia; lra). replace (S q - 1)%nat with q by lia. ring.
Qed.
Lemma second_term t q i x : (forall i j, (i <= j)%nat -> t i <= t j) -> (1 <= q)%nat -> t (i + q)%nat <= x -> bspl t q i x = (t (i + (q + 1))%nat - x) * inv0 (t (i + (q + 1))%nat - t (i + 1)%nat) * bspl t (q - 1) (S i) x.
Proof.
  clear. intros M Q H. destruct q as [|q]; [lia|]. cbn [bspl]. rewrite (bspl_above t M q i) by (replace (i + q + 1)%nat with (i + S q)%nat by lia; lra). replace (S q - 1)%nat with q by lia. replace (S i + S q)%nat with (i + (S q + 1))%nat by lia. replace (i + 1)%nat with (S i) by lia. ring.
Qed.
Definition T0 : list R := L ++ repeat b (p + 1).
Definition T1 : list R := repeat b (p + 1) ++ B.
Lemma T0_len : length T0 = (length L + p + 1)%nat. Proof. unfold T0. rewrite app_length, repeat_length. lia. Qed.
Lemma T1_len : length T1 = (p + 1 + length B)%nat. Proof. unfold T1. rewrite app_length, repeat_length. lia. Qed.
Lemma T0_asc : ascending T0.
Proof. apply asc_app; [exact AL|apply asc_repeat|]. intros x y Hx Hy. apply repeat_spec in Hy. subst. left. now apply HL. Qed.
Lemma T1_asc : ascending T1.
Proof. apply asc_app; [apply asc_repeat|exact AB|]. intros x y Hx Hy. apply repeat_spec in Hx. subst. left. now apply HB. Qed.
Lemma T0_nth j : (j < length L)%nat -> ext T0 j = nth j L 0. Proof. intros H. rewrite ext_nth by (rewrite T0_len; lia). unfold T0. now rewrite app_nth1. Qed.
Lemma T0_end j : (length L <= j <= length L + p)%nat -> ext T0 j = b. Proof. intros H. rewrite ext_nth by (rewrite T0_len; lia). unfold T0. rewrite app_nth2 by lia. apply nth_repeat_lt. lia. Qed.
Lemma T1_start j : (j <= p)%nat -> ext T1 j = b. Proof. intros H. rewrite ext_nth by (rewrite T1_len; lia). unfold T1. rewrite app_nth1 by (rewrite repeat_length; lia). apply nth_repeat_lt. lia. Qed.
Lemma T1_nth j : (j < length B)%nat -> ext T1 (p + 1 + j) = nth j B 0.
Proof. intros H. rewrite ext_nth by (rewrite T1_len; lia). unfold T1. rewrite app_nth2 by (rewrite repeat_length; lia). rewrite repeat_length. f_equal. lia. Qed.

Context (P1 : (1 <= p)%nat).
Lemma left_half i x : x < b -> bspl (ext (jk p)) p i x = if (i <? length L)%nat then bspl (ext T0) p i x else 0.
Proof.
  intros Hx. pose proof (ext_mono _ (jk_asc p)) as M. pose proof (ext_mono _ T0_asc) as M0. destruct (Nat.ltb_spec i (length L)) as [H|H].
  - destruct (Nat.eq_dec i (length L - 1)) as [E|N].
    + rewrite (first_term _ p i x M P1) by (rewrite jk_mid by lia; exact Hx). rewrite (first_term _ p i x M0 P1) by (rewrite T0_end by lia; exact Hx).
      rewrite (jk_low p i), (T0_nth i) by lia. rewrite (jk_mid p (i + p)%nat), (T0_end (i + p)%nat) by lia. f_equal. apply bspl_range. intros j Lj.
      destruct (Nat.eq_dec j 0) as [->|Nj]; [rewrite Nat.add_0_r, jk_low, T0_nth by lia; reflexivity|]. rewrite jk_mid, T0_end by lia. reflexivity.
    + apply bspl_range. intros j Lj. destruct (Nat.lt_ge_cases (i + j) (length L)) as [D|D]; [now rewrite jk_low, T0_nth by lia|]. now rewrite jk_mid, T0_end by lia.
  - apply bspl_below; [exact M|]. assert (ext (jk p) (length L) = b) by (apply jk_mid; lia). pose proof (M (length L) i H). lra.
Qed.
Lemma right_half i x : b <= x -> (i + p + 1 < length (jk p))%nat -> bspl (ext (jk p)) p i x = if (i <? length L - 1)%nat then 0 else bspl (ext T1) p (i - (length L - 1)) x.
Proof.
  intros Hx Hi. rewrite jk_len in Hi. pose proof (ext_mono _ (jk_asc p)) as M. pose proof (ext_mono _ T1_asc) as M1. destruct (Nat.ltb_spec i (length L - 1)) as [H|H].
  - apply bspl_above; [exact M|]. assert (ext (jk p) (length L + p - 1) = b) by (apply jk_mid; lia). pose proof (M (i + p + 1)%nat (length L + p - 1)%nat ltac:(lia)). lra.
  - assert (EQ : forall j, (length L <= i + j)%nat -> (i + j < length L + p + length B)%nat -> ext (jk p) (i + j) = ext T1 (i - (length L - 1) + j)).
    { intros j J1 J2. destruct (Nat.lt_ge_cases (i + j) (length L + p)) as [D|D]; [now rewrite jk_mid, T1_start by lia|]. replace (i + j)%nat with (length L + p + (i + j - length L - p))%nat by lia. rewrite jk_high by lia.
      replace (i - (length L - 1) + j)%nat with (p + 1 + (i + j - length L - p))%nat by lia. now rewrite T1_nth by lia. }
    destruct (Nat.eq_dec i (length L - 1)) as [E|N].
    + rewrite (second_term _ p i x M P1) by (rewrite jk_mid by lia; exact Hx). rewrite (second_term _ p _ x M1 P1) by (rewrite T1_start by lia; exact Hx).
      rewrite !EQ by lia. f_equal. apply bspl_range. intros j Lj. replace (S i + j)%nat with (i + S j)%nat by lia. rewrite EQ by lia. f_equal. lia.
    + apply bspl_range. intros j Lj. apply EQ; lia.
Qed.

Context (degree kn : nat) (D1 : (1 <= degree <= p)%nat) (Kn : (kn < degree)%nat).
Notation m0 := (p + 1 - degree)%nat.
Notation nG := (length L + m0 + length B - p - 1)%nat.
Notation I := (length L - 1 - kn)%nat.
Definition cc : list R := jrows m0 (degree - 1) (unitV nG I).
Lemma cc_boehm : boehm p b (degree - 1) (jk m0, unitV nG I) = Ok (jk p, cc).
Proof. rewrite steps_ok by (rewrite unit_len; lia). unfold cc. now replace (m0 + (degree - 1))%nat with p by lia. Qed.
Lemma cc_len : length cc = (length L + length B - 1)%nat. Proof. unfold cc. rewrite jrows_len, unit_len. lia. Qed.
Lemma cc_supp : supp cc I (I + (degree - 1)).
Proof. unfold cc. apply supp_steps; [rewrite unit_len; lia|lia|lia|lia|]. apply unit_supp. lia. Qed.
Lemma cc_sum x : bspl (ext (jk m0)) p I x = rsum (length cc) (fun i => nth i cc 0 * bspl (ext (jk p)) p i x).
Proof.
  pose proof (steps_sum (degree - 1) x m0 (unitV nG I) ltac:(rewrite unit_len; lia)) as S. fold cc in S. replace (m0 + (degree - 1))%nat with p in S by lia. rewrite <- S. rewrite unit_len. rewrite (rsum_one nG _ I); [|lia|].
  - rewrite unit_nth by lia. rewrite Nat.eqb_refl. ring.
  - intros j Lj N. rewrite unit_nth by exact Lj. destruct (Nat.eqb_spec j I); [lia|ring].
Qed.
Lemma cc_left x : x < b -> bspl (ext (jk m0)) p I x = rsum (kn + 1) (fun s => nth (I + s) cc 0 * bspl (ext T0) p (length L - 1 - (kn - s)) x).
Proof.
  intros Hx. rewrite cc_sum. destruct cc_supp as (S1 & S2 & S3). rewrite (rsum_window _ I (kn + 1)).
  - apply rsum_ext. intros s Ls. rewrite left_half by exact Hx. destruct (Nat.ltb_spec (I + s) (length L)); [|lia]. f_equal. f_equal. lia.
  - rewrite cc_len. lia.
  - intros i Li [H|H]; [rewrite S2 by lia; ring|]. rewrite left_half by exact Hx. destruct (Nat.ltb_spec i (length L)); [lia|ring].
Qed.
Lemma cc_right x : b <= x -> bspl (ext (jk m0)) p I x = rsum (degree - kn) (fun e => nth (length L - 1 + e) cc 0 * bspl (ext T1) p e x).
Proof.
  intros Hx. rewrite cc_sum. destruct cc_supp as (S1 & S2 & S3). rewrite (rsum_window _ (length L - 1) (degree - kn)).
  - apply rsum_ext. intros e Le. rewrite right_half; [|exact Hx|rewrite jk_len; lia]. destruct (Nat.ltb_spec (length L - 1 + e) (length L - 1)); [lia|]. f_equal. f_equal. lia.
  - rewrite cc_len. lia.
  - intros i Li [H|H]; [|rewrite S2 by lia; ring]. rewrite right_half; [|exact Hx|rewrite jk_len; lia]. destruct (Nat.ltb_spec i (length L - 1)); [ring|lia].
Qed.
Lemma cc_smooth lo hi : (forall v, In v L -> v <= lo) -> (forall v, In v B -> hi <= v) -> Cn (degree - 1) lo hi (bspl (ext (jk m0)) p I).
Proof.
  intros ML MB. apply (bspl_Cn _ (ext_mono _ (jk_asc m0)) lo hi m0); [|lia]. intros y Hy.
  assert (KL : forall j, (j < length L)%nat -> ext (jk m0) j <= lo) by (intros j Hj; rewrite jk_low by exact Hj; apply ML; now apply nth_In).
  assert (KB : forall j, (length L + m0 <= j)%nat -> hi <= ext (jk m0) j).
  { intros j Hj. pose proof (ext_mono _ (jk_asc m0) (length L + m0 + 0)%nat j ltac:(lia)) as Q. rewrite jk_high in Q by lia. assert (hi <= nth 0 B 0) by (apply MB; apply nth_In; lia). lra. }
  assert (KM : forall j, (length L <= j < length L + m0)%nat -> ext (jk m0) j = b) by (intros j Hj; now apply jk_mid).
  destruct (Rtotal_order y b) as [H|[H|H]].
  - exists (length L - 1)%nat, O. split; [lia|]. repeat split; intros j Hj; [specialize (KL j ltac:(lia)); lra|lia|]. destruct (Nat.lt_ge_cases j (length L + m0)); [rewrite KM by lia; exact H|specialize (KB j ltac:(lia)); lra].
  - exists (length L - 1)%nat, m0. split; [lia|]. repeat split; intros j Hj; [specialize (KL j ltac:(lia)); lra|rewrite KM by lia; now symmetry|specialize (KB j ltac:(lia)); lra].
  - exists (length L + m0 - 1)%nat, O. split; [lia|]. repeat split; intros j Hj; [|lia|specialize (KB j ltac:(lia)); lra]. destruct (Nat.lt_ge_cases j (length L)); [specialize (KL j ltac:(lia)); lra|rewrite KM by lia; exact H].
Qed.
End Joint.

(** ** The coefficients of all functions near the interface add up to one *)
Lemma unit_sum n N top i : (n <= top)%nat -> (top <= N)%nat -> rsum n (fun k => nth i (unitV N (top - 1 - k)) 0) = if (top - n <=? i)%nat && (i <? top)%nat then 1 else 0.
Proof.
  intros H1 H2. destruct (Nat.leb_spec (top - n) i) as [A|A]; destruct (Nat.ltb_spec i top) as [B|B]; cbn [andb].
  - rewrite (rsum_one n _ (top - 1 - i)); [|lia|].
    + rewrite unit_nth by lia. destruct (Nat.eqb_spec i (top - 1 - (top - 1 - i))); [reflexivity|lia].
    + intros j Hj N1. rewrite unit_nth by lia. destruct (Nat.eqb_spec i (top - 1 - j)); [lia|reflexivity].
  - apply rsum_zero. intros k Hk. destruct (Nat.lt_ge_cases i N); [rewrite unit_nth by lia; destruct (Nat.eqb_spec i (top - 1 - k)); [lia|reflexivity]|apply nth_overflow; rewrite unit_len; lia].
  - apply rsum_zero. intros k Hk. rewrite unit_nth by lia. destruct (Nat.eqb_spec i (top - 1 - k)); [lia|reflexivity].
  - lia.
Qed.
Theorem cc_partition p b L B degree : (forall v, In v L -> v < b) -> (forall v, In v B -> b < v) -> ascending L -> ascending B -> (p < length L)%nat -> (p < length B)%nat -> (1 <= degree <= p)%nat ->
  forall i, (length L - degree <= i < length L + degree - 1)%nat -> rsum degree (fun k => nth i (cc p b L B degree k) 0) = 1.
Proof.
  intros HL HB AL AB Lp Bp D i Hi. unfold cc.
  rewrite (part_steps p b L B HL HB AL AB Lp Bp degree (degree - 1) (p + 1 - degree) (length L - degree) (length L - 1) (fun k => unitV (length L + (p + 1 - degree) + length B - p - 1) (length L - 1 - k))); try lia.
  - destruct (Nat.leb_spec (length L - degree) i); [|lia]. destruct (Nat.leb_spec i (length L - 1 + (degree - 1))); [reflexivity|lia].
  - intros k Hk. rewrite unit_len. lia.
  - intros j. rewrite unit_sum by lia. destruct (Nat.leb_spec (length L - degree) j); cbn [andb]; [|reflexivity]. destruct (Nat.ltb_spec j (length L)); destruct (Nat.leb_spec j (length L - 1)); try lia; reflexivity.
Qed.
