(** The weights of _getBoehmCoefs. *)
From Coq Require Import Lra.
From Verif Require Import Common SplineModel SplineProofs KnotProofs BoehmModel BoehmSpec KnotSmooth BoehmProofs.
Open Scope R_scope.

Lemma map_repeat' (f : R -> R) v n : map f (repeat v n) = repeat (f v) n.
Proof. induction n as [|n IH]; cbn; [reflexivity|now rewrite IH]. Qed.
Lemma rev_repeat' (v : R) n : rev (repeat v n) = repeat v n.
Proof. induction n as [|n IH]; [reflexivity|]. cbn [repeat rev]. rewrite IH. clear. induction n as [|n IH]; [reflexivity|]. cbn. now rewrite IH. Qed.
Lemma hd_cl a n l : hd 0 (repeat a (n + 1) ++ l) = a. Proof. now rewrite Nat.add_1_r. Qed.
Lemma last_cl b n l : last (l ++ repeat b (n + 1)) 0 = b.
Proof.
  rewrite Nat.add_1_r. replace (repeat b (S n)) with (repeat b n ++ [b]); [rewrite app_assoc; apply last_last|]. clear. induction n as [|n IH]; [reflexivity|]. cbn. now rewrite IH.
Qed.
Lemma asc_map_up f l : (forall x y, x <= y -> f x <= f y) -> ascending l -> ascending (map f l).
Proof. intros M A i j H. rewrite map_length in H. rewrite !(nth_indep _ 0 (f 0)) by (rewrite map_length; lia). rewrite !map_nth. apply M. apply A. lia. Qed.
Lemma asc_map_rev f l : (forall x y, x <= y -> f y <= f x) -> ascending l -> ascending (map f (rev l)).
Proof.
  intros M A i j H. rewrite map_length, rev_length in H. rewrite !(nth_indep _ 0 (f 0)) by (rewrite map_length, rev_length; lia). rewrite !map_nth. rewrite !rev_nth by lia. apply M. apply A. lia.
Qed.

(** ** Scaling and reversing *)
Section Orient.
Context (kv : sbasis) (a b : R) (inner : list R) (w : R) (rv : bool) (Cl : clamped kv a b inner) (W : 0 < w).
Notation p := (sdeg kv).
Definition fwd (x : R) : R := if rv then a * w + b * w - x * w else x * w.
Definition oriented : list R := let l := scaleK w (sknots kv) in if rv then revK l else l.
Lemma scaled : scaleK w (sknots kv) = repeat (a * w) (p + 1) ++ map (fun v => v * w) inner ++ repeat (b * w) (p + 1).
Proof. destruct Cl as (-> & _). unfold scaleK. now rewrite !map_app, !map_repeat'. Qed.
Lemma oriented_map : oriented = map fwd (if rv then rev (sknots kv) else sknots kv).
Proof.
  unfold oriented, fwd. cbv zeta. destruct rv; [|reflexivity]. unfold revK. pose proof scaled as S. assert (H1 : hd 0 (scaleK w (sknots kv)) = a * w) by (rewrite S; apply hd_cl). assert (H2 : last (scaleK w (sknots kv)) 0 = b * w) by (rewrite S, app_assoc; apply last_cl). rewrite H1, H2. unfold scaleK. rewrite <- map_rev, map_map. reflexivity.
Qed.
Definition oinner : list R := if rv then map fwd (rev inner) else map fwd inner.
Lemma oriented_eq : oriented = repeat (a * w) (p + 1) ++ oinner ++ repeat (b * w) (p + 1).
Proof.
  rewrite oriented_map. destruct Cl as (-> & _). unfold oinner, fwd. destruct rv.
  - rewrite !rev_app_distr, !rev_repeat', !map_app, !map_repeat'. rewrite <- app_assoc. f_equal; [f_equal; ring|]. f_equal. f_equal. ring.
  - now rewrite !map_app, !map_repeat'.
Qed.
Lemma oinner_len : length oinner = length inner. Proof. unfold oinner. destruct rv; rewrite map_length; [apply rev_length|reflexivity]. Qed.
Lemma oinner_asc : ascending oinner.
Proof. destruct Cl as (_ & _ & A & _). unfold oinner, fwd. destruct rv; [apply asc_map_rev|apply asc_map_up]; try exact A; intros x y H; nra. Qed.
Lemma oinner_in v : In v oinner -> a * w < v < b * w.
Proof.
  destruct Cl as (_ & _ & _ & S). unfold oinner, fwd. destruct rv; intros H; apply in_map_iff in H; destruct H as (x & <- & Hx); [apply in_rev in Hx|]; specialize (S x Hx); nra.
Qed.
Lemma olen : length oriented = length (sknots kv). Proof. rewrite oriented_map, map_length. destruct rv; [apply rev_length|reflexivity]. Qed.
Lemma kv_len : length (sknots kv) = (2 * p + 2 + length inner)%nat. Proof. destruct Cl as (-> & _). rewrite !app_length, !repeat_length. lia. Qed.
Lemma oriented_in v : In v oriented -> exists x, In x (sknots kv) /\ v = fwd x.
Proof. rewrite oriented_map. intros H. apply in_map_iff in H. destruct H as (x & <- & Hx). exists x. split; [|reflexivity]. destruct rv; [now apply in_rev|exact Hx]. Qed.
Lemma o_bspl x i : ~ In x (sknots kv) -> (i < functions kv)%nat -> bspl (ext oriented) p i (fwd x) = bspl (tknot kv) p (if rv then functions kv - 1 - i else i) x.
Proof.
  unfold functions. pose proof kv_len as KL. pose proof olen as OL. intros NK Li. pose proof oriented_map as OM. unfold fwd in *.
  assert (AF : forall h, bspl (fun j => tknot kv j * w + 0) p h (x * w + 0) = bspl (tknot kv) p h x) by (intros h; now apply bspl_affine).
  destruct rv.
  - rewrite <- AF. rewrite Rplus_0_r. apply bspl_reverse.
    + intros j Lj. rewrite ext_nth by lia. rewrite OM. set (f := fun v => _). rewrite (nth_indep _ 0 (f 0)) by (rewrite map_length, rev_length; lia). rewrite map_nth. rewrite rev_nth by lia. unfold f, tknot. rewrite Rplus_0_r. do 3 f_equal. lia.
    + intros j Lj E. rewrite Rplus_0_r in E. apply NK. apply Rmult_eq_reg_r in E; [|lra]. subst x. apply nth_In. lia.
  - rewrite <- AF. rewrite Rplus_0_r. apply bspl_range. intros j Lj. rewrite ext_nth by lia. rewrite OM. rewrite (nth_indep _ 0 (0 * w)) by (rewrite map_length; lia). rewrite (map_nth (fun v => v * w)). unfold tknot. ring.
Qed.
End Orient.

Lemma remove_skip v m A l : (forall x, In x A -> x <> v) -> removeK v m (A ++ l) = A ++ removeK v m l.
Proof.
  induction A as [|x A IH]; intros H; [reflexivity|]. destruct m as [|m]; [cbn; destruct l; reflexivity|]. cbn [app removeK]. destruct (Req_EM_T x v) as [E|E]; [exfalso; apply (H x); [now left|exact E]|]. rewrite IH by (intros y Hy; apply H; now right). reflexivity.
Qed.
Lemma remove_rep v m n l : (m <= n)%nat -> removeK v m (repeat v n ++ l) = repeat v (n - m) ++ l.
Proof.
  revert n. induction m as [|m IH]; intros n H; [rewrite Nat.sub_0_r; destruct (repeat v n ++ l); reflexivity|]. destruct n as [|n]; [lia|]. cbn [repeat app removeK]. destruct (Req_EM_T v v); [|contradiction]. rewrite IH by lia. reflexivity.
Qed.

Lemma dup_list (f : nat -> R) k n : (k < n)%nat -> concat (map (fun i => if (i =? k)%nat then [f i; f i] else [f i]) (seq 0 n)) = map f (seq 0 (k + 1)) ++ map f (seq k (n - k)).
Proof.
  intros H. replace n with (k + (1 + (n - k - 1)))%nat at 1 by lia. rewrite !seq_app. rewrite !map_app, !concat_app. cbn [Nat.add seq map]. rewrite Nat.eqb_refl. rewrite <- app_assoc.
  assert (Z : forall s m, (s + m <= k \/ k < s)%nat -> concat (map (fun i => if (i =? k)%nat then [f i; f i] else [f i]) (seq s m)) = map f (seq s m)).
  { intros s m. revert s. induction m as [|m IH]; intros s Hs; [reflexivity|]. cbn [seq map concat]. destruct (Nat.eqb_spec s k); [lia|]. rewrite IH by lia. reflexivity. }
  rewrite Z by lia. rewrite Z by lia. replace (n - k)%nat with (S (n - k - 1)) at 2 by lia. cbn [seq map concat app]. replace (k + 1)%nat with (S k) by lia. reflexivity.
Qed.
Lemma dup_nth (f : nat -> R) k n s : (k < n)%nat -> (s <= n)%nat -> nth s (map f (seq 0 (k + 1)) ++ map f (seq k (n - k))) 0 = if (s <=? k)%nat then f s else f (s - 1)%nat.
Proof.
  intros H Hs. destruct (Nat.leb_spec s k) as [L|L].
  - rewrite app_nth1 by (rewrite map_length, seq_length; lia). apply nth_map_seq. lia.
  - rewrite app_nth2 by (rewrite map_length, seq_length; lia). rewrite map_length, seq_length. rewrite (nth_indep _ 0 (f O)) by (rewrite map_length, seq_length; lia). rewrite map_nth. rewrite seq_nth by lia. f_equal. lia.
Qed.
Lemma mapM_ok {A B} (f : A -> res B) (g : A -> B) l : (forall x, In x l -> f x = Ok (g x)) -> mapM f l = Ok (map g l).
Proof. induction l as [|x l IH]; intros H; [reflexivity|]. cbn [mapM map]. rewrite H by now left. cbn [bind]. rewrite IH by (intros y Hy; apply H; now right). reflexivity. Qed.

(** ** The whole function *)
Section Main.
Context (kv0 kv1 : sbasis) (a0 b0 b1 : R) (in0 in1 : list R) (dir0 dir1 : bool) (w0 w1 : R) (degree : nat).
Context (Cl0 : clamped kv0 a0 b0 in0) (Cl1 : clamped kv1 0 b1 in1) (W0 : 0 < w0) (W1 : 0 < w1) (P : sdeg kv1 = sdeg kv0) (D1 : (1 <= degree <= sdeg kv0)%nat).
Notation p := (sdeg kv0).
Notation bb := (b0 * w0).
Definition L0 : list R := repeat (a0 * w0) (p + 1) ++ oinner a0 b0 in0 w0 (negb dir0).
Definition B1 : list R := map (fun v => v + bb) (oinner 0 b1 in1 w1 dir1) ++ repeat (b1 * w1 + bb) (p + 1).
Lemma L0_len : length L0 = functions kv0.
Proof. unfold L0, functions. rewrite app_length, repeat_length, oinner_len, (kv_len _ _ _ _ Cl0). lia. Qed.
Lemma L0_p : (p < length L0)%nat. Proof. unfold L0. rewrite app_length, repeat_length. lia. Qed.
Lemma B1_len : length B1 = functions kv1.
Proof. unfold B1, functions. rewrite app_length, map_length, repeat_length, oinner_len, (kv_len _ _ _ _ Cl1). lia. Qed.
Lemma B1_p : (p < length B1)%nat. Proof. unfold B1. rewrite app_length, repeat_length. lia. Qed.
Lemma ab0 : a0 * w0 < bb. Proof. destruct Cl0 as (_ & H & _). now apply Rmult_lt_compat_r. Qed.
Lemma ab1 : 0 < b1 * w1. Proof. destruct Cl1 as (_ & H & _). now apply Rmult_lt_0_compat. Qed.
Lemma L0_in v : In v L0 -> v < bb.
Proof. intros H. apply in_app_iff in H. destruct H as [H|H]; [apply repeat_spec in H; subst; apply ab0|]. apply (oinner_in kv0 a0 b0 in0 w0 (negb dir0) Cl0 W0) in H. lra. Qed.
Lemma B1_in v : In v B1 -> bb < v.
Proof.
  intros H. apply in_app_iff in H. destruct H as [H|H].
  - apply in_map_iff in H. destruct H as (x & <- & Hx). apply (oinner_in kv1 0 b1 in1 w1 dir1 Cl1 W1) in Hx. lra.
  - apply repeat_spec in H. subst. pose proof ab1. lra.
Qed.
Lemma L0_asc : ascending L0.
Proof.
  apply asc_app; [apply asc_repeat|apply (oinner_asc kv0); assumption|]. intros x y Hx Hy. apply repeat_spec in Hx. subst. apply (oinner_in kv0 a0 b0 in0 w0 (negb dir0) Cl0 W0) in Hy. lra.
Qed.
Lemma B1_asc : ascending B1.
Proof.
  apply asc_app; [apply asc_map_up; [intros; lra|apply (oinner_asc kv1); assumption]|apply asc_repeat|]. intros x y Hx Hy. apply repeat_spec in Hy. subst. apply in_map_iff in Hx. destruct Hx as (z & <- & Hz). apply (oinner_in kv1 0 b1 in1 w1 dir1 Cl1 W1) in Hz. lra.
Qed.
Lemma O0 : oriented kv0 w0 (negb dir0) = T0 p bb L0.
Proof. rewrite (oriented_eq kv0 a0 b0 in0 w0 _ Cl0). unfold T0, L0. now rewrite app_assoc. Qed.
Lemma O1 : addK bb (oriented kv1 w1 dir1) = T1 p bb B1.
Proof.
  rewrite (oriented_eq kv1 0 b1 in1 w1 _ Cl1). unfold T1, B1, addK. rewrite !map_app, !map_repeat', P. f_equal. f_equal. ring.
Qed.

Section Index.
Context (kn : nat) (Kn : (kn < degree)%nat).
Definition cf : list R := cc p bb L0 B1 degree kn.
Definition coef (s : nat) : R := nth (functions kv0 - 1 - kn + s) cf 0.
Definition ws : list R := map coef (seq 0 (kn + 1)) ++ map coef (seq kn (degree - kn)).
Lemma get_ok : getBoehmCoefs kv0 dir0 w0 kv1 dir1 w1 degree kn = Ok ws.
Proof.
  pose proof L0_len as LL. pose proof B1_len as BL. pose proof L0_p. pose proof B1_p. pose proof (kv_len _ _ _ _ Cl0) as KL0.
  pose proof (cc_supp p bb L0 B1 L0_in B1_in L0_asc B1_asc L0_p B1_p ltac:(lia) degree kn D1 Kn) as SU.
  unfold getBoehmCoefs. destruct (Nat.eqb_spec degree 1) as [E|N].
  { assert (K0 : kn = O) by lia. unfold ws. rewrite E, K0. cbn [seq Nat.add Nat.sub map app]. assert (C1 : coef 0 = 1); [|now rewrite C1].
    unfold coef, cf, cc. rewrite E, K0. cbn [Nat.sub jrows]. rewrite <- LL. rewrite unit_nth by lia. match goal with |- (if ?c then _ else _) = _ => replace c with true; [reflexivity|symmetry; apply Nat.eqb_eq; lia] end. }
  cbv zeta. replace (if dir0 then scaleK w0 (sknots kv0) else revK (scaleK w0 (sknots kv0))) with (oriented kv0 w0 (negb dir0)) by (unfold oriented; destruct dir0; reflexivity).
  replace (if dir1 then revK (scaleK w1 (sknots kv1)) else scaleK w1 (sknots kv1)) with (oriented kv1 w1 dir1) by reflexivity.
  rewrite O0. replace (last (T0 p bb L0) 0) with bb by (unfold T0; now rewrite last_cl). rewrite O1. replace (hd 0 (T1 p bb B1)) with bb by (unfold T1; now rewrite hd_cl).
  unfold T0 at 1 2 3 4. rewrite remove_skip by (intros x Hx; apply L0_in in Hx; lra). rewrite <- (app_nil_r (repeat bb (p + 1))). rewrite remove_rep by lia. rewrite app_nil_r.
  unfold T1. rewrite P. rewrite remove_rep by lia. rewrite Nat.sub_diag. cbn [repeat app]. rewrite <- app_assoc. fold (jk bb L0 B1 (p + 1 - degree)). rewrite (jk_len p bb L0 B1 L0_p B1_p).
  unfold scaleK. rewrite map_length. assert (FL : length (sknots kv0) = (length L0 + p + 1)%nat) by (unfold functions in LL; lia).
  match goal with |- context [ensure ?c] => replace c with true end.
  2:{ symmetry. repeat (apply andb_true_iff; split); apply Nat.leb_le; rewrite ?FL; lia. }
  cbn [ensure bind]. match goal with |- context [ensure ?c] => replace c with true end.
  2:{ symmetry. apply Nat.ltb_lt. rewrite FL. lia. }
  cbn [ensure bind]. replace (length (sknots kv0) - (p + 2) - kn)%nat with (length L0 - 1 - kn)%nat by lia.
  rewrite (cc_boehm p bb L0 B1 L0_in B1_in L0_asc B1_asc L0_p B1_p ltac:(lia) degree kn D1 Kn). cbn [bind snd].
  rewrite (mapM_ok _ (fun i => if (i =? kn)%nat then [coef i; coef i] else [coef i])).
  - cbn [bind]. f_equal. apply dup_list. exact Kn.
  - intros i Hi. apply in_seq in Hi. unfold vget. destruct SU as (SU & _). rewrite (nth_error_nth' _ 0) by lia. cbn [bind]. unfold coef. fold cf. replace (i + length (sknots kv0) - (p + 2) - kn)%nat with (functions kv0 - 1 - kn + i)%nat by lia. reflexivity.
Qed.
Lemma ws_len : length ws = S degree. Proof. unfold ws. rewrite app_length, !map_length, !seq_length. lia. Qed.
Lemma ws_nth s : (s <= degree)%nat -> nth s ws 0 = if (s <=? kn)%nat then coef s else coef (s - 1)%nat.
Proof. intros H. unfold ws. now apply dup_nth. Qed.
Lemma coef_pos s : (s < degree)%nat -> 0 < coef s <= 1.
Proof.
  intros H. pose proof (cc_supp p bb L0 B1 L0_in B1_in L0_asc B1_asc L0_p B1_p ltac:(lia) degree kn D1 Kn) as (_ & _ & S). unfold coef, cf. rewrite <- L0_len. apply S. lia.
Qed.

Definition joined (y : R) : R := bspl (ext (jk bb L0 B1 (p + 1 - degree))) p (functions kv0 - 1 - kn) (y + bb).
Lemma joined_left y : 0 < y -> noKnotAt kv0 a0 b0 dir0 w0 y -> joined (- y) = firstHalf kv0 a0 b0 dir0 w0 kn ws y.
Proof.
  intros Hy NK. pose proof L0_p. pose proof L0_len as LL. unfold joined, firstHalf. rewrite <- L0_len. rewrite (cc_left p bb L0 B1 L0_in B1_in L0_asc B1_asc L0_p B1_p ltac:(lia) degree kn D1 Kn) by lra.
  apply rsum_ext. intros s Hs. rewrite ws_nth by lia. destruct (Nat.leb_spec s kn); [|lia]. unfold coef, cf. rewrite LL. f_equal. rewrite <- O0.
  assert (X : - y + bb = fwd a0 b0 w0 (negb dir0) (paramAt a0 b0 dir0 w0 y)) by (unfold fwd, paramAt; destruct dir0; cbn [negb]; field; lra). rewrite X. rewrite (o_bspl kv0 a0 b0 in0 w0 (negb dir0) Cl0 W0) by (exact NK || lia).
  unfold nearSide. destruct dir0; cbn [negb]; [reflexivity|]. f_equal. lia.
Qed.
Lemma joined_right y : 0 < y -> noKnotAt kv1 0 b1 dir1 w1 y -> joined y = secondHalf kv1 0 b1 dir1 w1 kn ws y.
Proof.
  intros Hy NK. pose proof L0_p. pose proof B1_p. pose proof L0_len as LL. pose proof B1_len as BL. unfold joined, secondHalf. rewrite <- L0_len. rewrite (cc_right p bb L0 B1 L0_in B1_in L0_asc B1_asc L0_p B1_p ltac:(lia) degree kn D1 Kn) by lra.
  rewrite ws_len. replace (S degree - kn - 1)%nat with (degree - kn)%nat by lia. apply rsum_ext. intros e He. rewrite ws_nth by lia. destruct (Nat.leb_spec (kn + 1 + e) kn); [lia|]. unfold coef, cf. rewrite <- LL. replace (length L0 - 1 - kn + (kn + 1 + e - 1))%nat with (length L0 - 1 + e)%nat by lia. f_equal.
  rewrite <- O1. rewrite P. assert (X : y + bb = fwd 0 b1 w1 dir1 (paramAt 0 b1 dir1 w1 y) * 1 + bb) by (unfold fwd, paramAt; destruct dir1; field; lra). rewrite X.
  transitivity (bspl (ext (oriented kv1 w1 dir1)) p e (fwd 0 b1 w1 dir1 (paramAt 0 b1 dir1 w1 y))).
  - rewrite <- (bspl_affine (ext (oriented kv1 w1 dir1)) 1 bb p ltac:(lra)). apply bspl_range. intros j Hj. pose proof (olen kv1 0 b1 in1 w1 dir1 Cl1) as OL. pose proof (kv_len _ _ _ _ Cl1) as KL. unfold functions in BL. rewrite P in BL.
    rewrite ext_nth by (unfold addK; rewrite map_length; lia). rewrite ext_nth by lia. unfold addK. rewrite (nth_indep _ 0 (0 + bb)) by (rewrite map_length; lia). rewrite (map_nth (fun v => v + bb)). ring.
  - rewrite <- P. rewrite (o_bspl kv1 0 b1 in1 w1 dir1 Cl1 W1) by (exact NK || lia). unfold nearSide. destruct dir1; reflexivity.
Qed.
Lemma joined_smooth lo hi : 0 < lo -> 0 < hi -> clearUpTo kv0 a0 b0 dir0 w0 lo -> clearUpTo kv1 0 b1 dir1 w1 hi -> Cn (degree - 1) (- lo) hi joined.
Proof.
  intros Hlo Hhi C0 C1. unfold joined. apply (Cn_shift (degree - 1) (- lo) hi bb (bspl (ext (jk bb L0 B1 (p + 1 - degree))) p (functions kv0 - 1 - kn))). rewrite <- L0_len.
  apply (cc_smooth p bb L0 B1 L0_in B1_in L0_asc B1_asc L0_p B1_p ltac:(lia) degree kn D1 Kn).
  - intros v Hv. pose proof (L0_in v Hv) as Lt. assert (HO : In v (oriented kv0 w0 (negb dir0))) by (rewrite O0; apply in_app_iff; now left). apply (oriented_in kv0 a0 b0 in0 w0 _ Cl0) in HO. destruct HO as (x & Hx & E).
    destruct (Rle_lt_dec v (- lo + bb)) as [|N]; [assumption|]. exfalso. apply (C0 (bb - v)); [lra|]. replace (paramAt a0 b0 dir0 w0 (bb - v)) with x; [exact Hx|]. subst v. unfold paramAt, fwd. destruct dir0; cbn [negb]; field; lra.
  - intros v Hv. pose proof (B1_in v Hv) as Lt. assert (HO : In v (addK bb (oriented kv1 w1 dir1))) by (rewrite O1; apply in_app_iff; now right). apply in_map_iff in HO. destruct HO as (z & Ez & HO). apply (oriented_in kv1 0 b1 in1 w1 _ Cl1) in HO. destruct HO as (x & Hx & E).
    destruct (Rle_lt_dec (hi + bb) v) as [|N]; [assumption|]. exfalso. apply (C1 (v - bb)); [lra|]. replace (paramAt 0 b1 dir1 w1 (v - bb)) with x; [exact Hx|]. subst v z. unfold paramAt, fwd. destruct dir1; field; lra.
Qed.
End Index.
End Main.

(** ** Statements *)
Section Final.
Context (kv0 kv1 : sbasis) (a0 b0 b1 : R) (in0 in1 : list R) (dir0 dir1 : bool) (w0 w1 : R) (degree : nat).
Context (Cl0 : clamped kv0 a0 b0 in0) (Cl1 : clamped kv1 0 b1 in1) (W0 : 0 < w0) (W1 : 0 < w1) (P : sdeg kv1 = sdeg kv0) (D1 : (1 <= degree <= sdeg kv0)%nat).

Theorem coupled_pf k : (k < degree)%nat ->
  exists ws h, getBoehmCoefs kv0 dir0 w0 kv1 dir1 w1 degree k = Ok ws /\ length ws = S degree /\ (forall s, (s <= degree)%nat -> 0 < nth s ws 0 <= 1) /\
    joins (firstHalf kv0 a0 b0 dir0 w0 k ws) (secondHalf kv1 0 b1 dir1 w1 k ws) h (noKnotAt kv0 a0 b0 dir0 w0) (noKnotAt kv1 0 b1 dir1 w1) /\
    forall lo hi, 0 < lo -> 0 < hi -> clearUpTo kv0 a0 b0 dir0 w0 lo -> clearUpTo kv1 0 b1 dir1 w1 hi -> Cn (degree - 1) (- lo) hi h.
Proof.
  intros K. exists (ws kv0 a0 b0 b1 in0 in1 dir0 dir1 w0 w1 degree k), (joined kv0 a0 b0 b1 in0 in1 dir0 dir1 w0 w1 degree k).
  split; [now apply get_ok|]. split; [now apply (ws_len kv0 kv1)|]. split; [|split; [split|]].
  - intros s Hs. rewrite ws_nth by assumption. destruct (Nat.leb_spec s k); eapply coef_pos; eauto; lia.
  - intros y Hy N. eapply joined_left; eauto.
  - intros y Hy N. eapply joined_right; eauto.
  - intros lo hi Hlo Hhi C0 C1. eapply joined_smooth; eauto.
Qed.

Theorem partition_pf : exists ws, (forall k, (k < degree)%nat -> getBoehmCoefs kv0 dir0 w0 kv1 dir1 w1 degree k = Ok (ws k)) /\
  forall d, (d < degree)%nat -> rsum degree (fun k => if (d <=? k)%nat then nth (k - d) (ws k) 0 else 0) = 1 /\ rsum degree (fun k => nth (k + 1 + d) (ws k) 0) = 1.
Proof.
  exists (ws kv0 a0 b0 b1 in0 in1 dir0 dir1 w0 w1 degree). split; [intros k K; now apply get_ok|]. intros d Hd.
  set (L := L0 kv0 a0 b0 in0 dir0 w0). set (B := B1 kv0 b0 b1 in1 dir1 w0 w1).
  assert (LL : length L = functions kv0) by (eapply L0_len; eauto). assert (LP : (sdeg kv0 < length L)%nat) by (eapply L0_p; eauto). assert (BP : (sdeg kv0 < length B)%nat) by (eapply B1_p; eauto).
  assert (HL : forall v, In v L -> v < b0 * w0) by (intros v; eapply L0_in; eauto). assert (HB : forall v, In v B -> b0 * w0 < v) by (intros v; eapply B1_in; eauto). assert (AL : ascending L) by (eapply L0_asc; eauto). assert (AB : ascending B) by (eapply B1_asc; eauto).
  pose proof (cc_partition (sdeg kv0) (b0 * w0) L B degree HL HB AL AB LP BP D1) as PA.
  assert (SU : forall k, (k < degree)%nat -> supp (cc (sdeg kv0) (b0 * w0) L B degree k) (length L - 1 - k) (length L - 1 - k + (degree - 1))) by (intros k K; apply cc_supp; try assumption; lia).
  split.
  - rewrite <- (PA (length L - 1 - d)%nat) by lia. apply rsum_ext. intros k K. destruct (SU k K) as (_ & Z & _). destruct (Nat.leb_spec d k) as [H|H]; [|symmetry; apply Z; lia].
    rewrite ws_nth by (assumption || lia). destruct (Nat.leb_spec (k - d) k); [|lia]. unfold coef, cf. fold L B. rewrite <- LL. f_equal. lia.
  - rewrite <- (PA (length L - 1 + d)%nat) by lia. apply rsum_ext. intros k K. destruct (SU k K) as (_ & Z & _). destruct (Nat.le_gt_cases (k + 1 + d) degree) as [H|H].
    + rewrite ws_nth by (assumption || lia). destruct (Nat.leb_spec (k + 1 + d) k); [lia|]. unfold coef, cf. fold L B. rewrite <- LL. f_equal. lia.
    + rewrite (Z (length L - 1 + d)%nat) by lia. apply nth_overflow. rewrite (ws_len kv0 kv1) by assumption. lia.
Qed.
End Final.
