(** Enumeration of the functions near a corner of a hierarchical basis. *)
From Verif Require Import Common ListLemmas TopoModel BaseModel IndexSpec IndexProofs HierModel HierSpec.

Lemma ifv_side b c s k o : touches c s -> k < dsize b (dalong s) -> o < dsize b (dacross s) -> indexFromVert b k c s o = Ok (at_side b c s k o).
Proof.
  intros T K O. rewrite ifv_cpt; [|now apply touches_on|destruct s; exact K|destruct s; exact O].
  f_equal. destruct s, c; cbn in T; try contradiction; reflexivity.
Qed.
Lemma ifv_out b c s k o : touches c s -> dsize b (dalong s) <= k -> 0 < dsize b (dalong s) -> indexFromVert b k c s o = Err.
Proof.
  intros T K P. unfold indexFromVert. destruct ((k =? 0) && (o =? 0)) eqn:E; [apply andb_prop in E; destruct E as (E & _); apply Nat.eqb_eq in E; lia|].
  unfold indexFromVert_impl. destruct s; cbn [dalong dsize] in K; (destruct (o <? _); [|reflexivity]); cbn [bind ensure]; rewrite (proj2 (Nat.ltb_ge _ _) K); reflexivity.
Qed.

Section S.
Context (b : hbasis) (c : corner) (s : side) (o : nat) (Ht : touches c s).
Notation sz lev := (dsize (hten b lev) (dalong s)).
Definition act (lev k : nat) : bool := negb (isNone (hflat b lev (at_side (hten b lev) c s k o))).

Lemma scan_found lev none : o < dsize (hten b lev) (dacross s) -> forall fuel k q, k <= q -> q < sz lev -> q - k < fuel -> (forall j, k <= j < q -> negb (act lev j) <> none) -> negb (act lev q) = none ->
  scan b c s o lev none fuel k = Ok q.
Proof.
  intros HO. induction fuel as [|fuel IH]; intros k q L1 L2 L3 H1 H2; [lia|]. cbn [scan]. rewrite ifv_side by (assumption || lia). cbn [bind].
  unfold act in *. setoid_rewrite negb_involutive in H1. rewrite negb_involutive in H2. destruct (Nat.eq_dec k q) as [->|NE].
  - rewrite H2, Bool.eqb_reflx. reflexivity.
  - destruct (Bool.eqb (isNone (hflat b lev (at_side (hten b lev) c s k o))) none) eqn:Q; [apply Bool.eqb_prop in Q; exfalso; apply (H1 k ltac:(lia) Q)|].
    apply IH; [lia|exact L2|lia| |].
    + intros j J. rewrite negb_involutive. apply H1. lia.
    + now rewrite negb_involutive.
Qed.
Lemma scan_none lev none : 0 < sz lev -> o < dsize (hten b lev) (dacross s) -> forall fuel k, (forall j, k <= j < sz lev -> negb (act lev j) <> none) -> scan b c s o lev none fuel k = Err.
Proof.
  intros P HO. induction fuel as [|fuel IH]; intros k H; [reflexivity|]. cbn [scan]. destruct (le_lt_dec (sz lev) k) as [G|G]; [rewrite ifv_out by assumption; reflexivity|].
  rewrite ifv_side by assumption. cbn [bind]. pose proof (H k ltac:(lia)) as Hk. unfold act in Hk. rewrite negb_involutive in Hk.
  destruct (Bool.eqb (isNone (hflat b lev (at_side (hten b lev) c s k o))) none) eqn:Q; [apply Bool.eqb_prop in Q; congruence|]. apply IH. intros j J. apply H. lia.
Qed.
(** more rounds give the same *)
Lemma scan_rounds lev none : 0 < sz lev -> o < dsize (hten b lev) (dacross s) -> forall fuel k, sz lev <= fuel + k -> scan b c s o lev none fuel k = scan b c s o lev none (S fuel) k.
Proof.
  intros P HO. induction fuel as [|fuel IH]; intros k L.
  - cbn [scan]. rewrite ifv_out by (assumption || lia). reflexivity.
  - cbn [scan]. destruct (indexFromVert (hten b lev) k c s o); [|reflexivity]. cbn [bind]. destruct (Bool.eqb _ none); [reflexivity|]. apply IH. lia.
Qed.

Lemma prefix (f : nat -> nat) e n : (forall k k', k <= k' -> f k <= f k') -> exists m, m <= n /\ forall k, k < n -> (f k <= e <-> k < m).
Proof.
  intros M. induction n as [|n (m & L & H)]; [exists 0; split; [lia|intros; lia]|]. destruct (le_lt_dec (f n) e) as [G|G].
  - exists (S n). split; [lia|]. intros k K. split; [lia|]. intros _. pose proof (M k n ltac:(lia)). lia.
  - exists m. split; [lia|]. intros k K. destruct (Nat.eq_dec k n) as [->|NE]; [|apply H; lia]. split; [lia|]. intros Lm. destruct (Nat.eq_dec m n); lia.
Qed.
Lemma filter_prefix (f : nat -> bool) n m : m <= n -> (forall k, k < n -> (f k = true <-> k < m)) -> filter f (seq 0 n) = seq 0 m.
Proof.
  intros L H. replace n with (m + (n - m)) by lia. rewrite seq_app, filter_app.
  assert (A : filter f (seq 0 m) = seq 0 m).
  { assert (G : forall v, (forall x, In x v -> f x = true) -> filter f v = v) by (induction v as [|x v IH]; intros Hv; [reflexivity|]; cbn; rewrite (Hv x (or_introl eq_refl)); f_equal; apply IH; intros; apply Hv; now right).
    apply G. intros x Ix. apply in_seq in Ix. apply H; lia. }
  assert (B : filter f (seq (0 + m) (n - m)) = []).
  { assert (G : forall v, (forall x, In x v -> f x = false) -> filter f v = []) by (induction v as [|x v IH]; intros Hv; [reflexivity|]; cbn; rewrite (Hv x (or_introl eq_refl)); apply IH; intros; apply Hv; now right).
    apply G. intros x Ix. apply in_seq in Ix. destruct (f x) eqn:E; [|reflexivity]. apply H in E; lia. }
  rewrite A, B. apply app_nil_r.
Qed.
Lemma filter_suffix (f : nat -> bool) n m : m <= n -> (forall k, k < n -> (f k = true <-> m <= k)) -> filter f (seq 0 n) = seq m (n - m).
Proof.
  intros L H. replace n with (m + (n - m)) at 1 by lia. rewrite seq_app, filter_app.
  assert (A : filter f (seq (0 + m) (n - m)) = seq m (n - m)).
  { assert (G : forall v, (forall x, In x v -> f x = true) -> filter f v = v) by (induction v as [|x v IH]; intros Hv; [reflexivity|]; cbn; rewrite (Hv x (or_introl eq_refl)); f_equal; apply IH; intros; apply Hv; now right).
    apply G. intros x Ix. apply in_seq in Ix. apply H; lia. }
  assert (B : filter f (seq 0 m) = []).
  { assert (G : forall v, (forall x, In x v -> f x = false) -> filter f v = []) by (induction v as [|x v IH]; intros Hv; [reflexivity|]; cbn; rewrite (Hv x (or_introl eq_refl)); apply IH; intros; apply Hv; now right).
    apply G. intros x Ix. apply in_seq in Ix. destruct (f x) eqn:E; [|reflexivity]. apply H in E; lia. }
  now rewrite A, B.
Qed.

Context (lc : nat) (endp : nat -> nat -> nat -> nat) (e : nat -> nat) (H2 : two_levels b c lc endp e).
Context (HoF : o < dsize (hten b (S lc)) (dacross s)) (HoC : o < dsize (hten b lc) (dacross s)).
Context (HeF : endp (S lc) (dacross s) o <= e (dacross s)).

Lemma act_some lev k : act lev k = true <-> hflat b lev (at_side (hten b lev) c s k o) <> None.
Proof. unfold act. destruct (hflat b lev _); cbn; split; congruence || discriminate || auto. Qed.
Lemma act_fine k : k < sz (S lc) -> (act (S lc) k = true <-> endp (S lc) (dalong s) k <= e (dalong s)).
Proof.
  intros K. rewrite act_some. unfold at_side. pose proof (tl_fine _ _ _ _ _ H2) as F. clear -K F HoF HeF. destruct s; cbn [dalong dacross dsize] in *; rewrite F by assumption; tauto.
Qed.
Lemma act_coarse k : endp lc (dacross s) o <= e (dacross s) -> k < sz lc -> (act lc k = true <-> ~ endp lc (dalong s) k <= e (dalong s)).
Proof.
  intros HeC K. rewrite act_some. unfold at_side. pose proof (tl_coarse _ _ _ _ _ H2) as F. clear -K F HoC HeC. destruct s; cbn [dalong dacross dsize] in *; rewrite F by assumption; tauto.
Qed.

Definition fits (i : nat) : Prop := i < sz (S lc).

Theorem line_sec : endp lc (dacross s) o <= e (dacross s) ->
  (forall i lev k, i < sz (S lc) -> nth_error (line b c s o lc) i = Some (lev, k) -> exists x, hflat b lev (at_side (hten b lev) c s k o) = Some x /\ indexFromVertH b i c s o = Ok x) /\
  (forall i, length (line b c s o lc) <= i \/ sz (S lc) <= i -> indexFromVertH b i c s o = Err) /\
  (forall i j lev k lev' k', i < j -> nth_error (line b c s o lc) i = Some (lev, k) -> nth_error (line b c s o lc) j = Some (lev', k') -> endp lev (dalong s) k <= endp lev' (dalong s) k').
Proof.
  intros HeC.
  destruct (prefix (endp (S lc) (dalong s)) (e (dalong s)) (sz (S lc)) (tl_mono _ _ _ _ _ H2 (S lc) (dalong s))) as (m & Lm & Hm).
  destruct (prefix (endp lc (dalong s)) (e (dalong s)) (sz lc) (tl_mono _ _ _ _ _ H2 lc (dalong s))) as (n & Ln & Hn).
  assert (PF : 0 < sz (S lc)) by (apply (tl_pos _ _ _ _ _ H2); auto). assert (PC : 0 < sz lc) by (apply (tl_pos _ _ _ _ _ H2); auto).
  assert (AF : forall k, k < sz (S lc) -> (act (S lc) k = true <-> k < m)) by (intros k K; rewrite act_fine by exact K; now apply Hm).
  assert (AC : forall k, k < sz lc -> (act lc k = true <-> n <= k)) by (intros k K; rewrite act_coarse by assumption; rewrite Hn by exact K; lia).
  assert (LE : line b c s o lc = map (fun k => (S lc, k)) (seq 0 m) ++ map (fun k => (lc, k)) (seq n (sz lc - n))).
  { unfold line, used. f_equal; f_equal; [apply (filter_prefix (act (S lc))); assumption|apply (filter_suffix (act lc)); assumption]. }
  assert (LL : length (line b c s o lc) = m + (sz lc - n)) by (rewrite LE, app_length, !map_length, !seq_length; reflexivity).
  assert (NT : forall i lev k, nth_error (line b c s o lc) i = Some (lev, k) -> (i < m /\ lev = S lc /\ k = i) \/ (m <= i /\ lev = lc /\ k = i - m + n /\ k < sz lc)).
  { intros i lev k E. rewrite LE in E. destruct (le_lt_dec m i) as [G|G].
    - right. rewrite nth_error_app2 in E by (rewrite map_length, seq_length; exact G). rewrite map_length, seq_length in E. rewrite nth_error_map in E. destruct (nth_error (seq n (sz lc - n)) (i - m)) as [q|] eqn:Q; [|discriminate]. cbn in E. injection E as <- <-.
      assert (LQ : i - m < sz lc - n) by (rewrite <- (seq_length (sz lc - n) n); apply nth_error_Some; congruence). apply (nth_error_nth _ _ 0) in Q. rewrite seq_nth in Q by exact LQ. subst q. split; [exact G|]. split; [reflexivity|]. lia.
    - left. rewrite nth_error_app1 in E by (rewrite map_length, seq_length; exact G). rewrite nth_error_map in E. destruct (nth_error (seq 0 m) i) as [q|] eqn:Q; [|discriminate]. cbn in E. injection E as <- <-. apply (nth_error_nth _ _ 0) in Q. rewrite seq_nth in Q by exact G. subst q. auto. }
  assert (SF : m < sz (S lc) -> scan b c s o (S lc) true (rounds b (S lc)) 0 = Ok m).
  { intros L. apply scan_found; [exact HoF|lia|exact L| | |].
    - unfold rounds. destruct s; cbn [dalong dsize] in *; lia.
    - intros j J. rewrite (proj2 (AF j ltac:(lia))) by lia. cbn. discriminate.
    - destruct (act (S lc) m) eqn:Q; [|reflexivity]. apply AF in Q; lia. }
  assert (SC : n < sz lc -> scan b c s o lc false (rounds b lc) 0 = Ok n).
  { intros L. apply scan_found; [exact HoC|lia|exact L| | |].
    - unfold rounds. destruct s; cbn [dalong dsize] in *; lia.
    - intros j J. destruct (act lc j) eqn:Q; [apply AC in Q; lia|]. cbn. discriminate.
    - rewrite (proj2 (AC n L)) by lia. reflexivity. }
  assert (FI : forall i, i < m -> i < sz (S lc) -> exists x, hflat b (S lc) (at_side (hten b (S lc)) c s i o) = Some x /\ indexFromVertH b i c s o = Ok x).
  { intros i L1 L2. pose proof (proj2 (AF i L2) L1) as A. apply act_some in A. destruct (hflat b (S lc) (at_side (hten b (S lc)) c s i o)) as [x|] eqn:E; [|congruence]. exists x. split; [reflexivity|].
    unfold indexFromVertH. destruct ((i =? 0) && (o =? 0)) eqn:Q.
    - apply andb_prop in Q. destruct Q as (Q1 & Q2). apply Nat.eqb_eq in Q1, Q2. rewrite Q1, Q2 in E. apply (tl_corner _ _ _ _ _ H2). rewrite <- E. clear. destruct s; reflexivity.
    - unfold indexFromVertH_impl. rewrite (tl_level _ _ _ _ _ H2). rewrite ifv_side by assumption. cbn [bind]. now rewrite E. }
  assert (M0 : o = 0 -> 0 < m).
  { intros Z. apply AF; [exact PF|]. apply act_some. rewrite Z. pose proof (tl_first _ _ _ _ _ H2) as Q. clear -Q. destruct s; exact Q. }
  assert (CO : forall i, m <= i -> i < sz (S lc) -> indexFromVertH b i c s o =
     (do nc <- scan b c s o lc false (rounds b lc) 0; do x <- indexFromVert (hten b lc) (i - m + nc) c s o; match hflat b lc x with Some y => Ok y | None => Err end)).
  { intros i L1 L2. unfold indexFromVertH. destruct ((i =? 0) && (o =? 0)) eqn:Q.
    - exfalso. apply andb_prop in Q. destruct Q as (Q1 & Q2). apply Nat.eqb_eq in Q1, Q2. specialize (M0 Q2). lia.
    - unfold indexFromVertH_impl. rewrite (tl_level _ _ _ _ _ H2). rewrite ifv_side by assumption. cbn [bind].
      assert (E : hflat b (S lc) (at_side (hten b (S lc)) c s i o) = None).
      { destruct (hflat b (S lc) (at_side (hten b (S lc)) c s i o)) eqn:E; [|reflexivity]. exfalso. assert (A : act (S lc) i = true) by (apply act_some; congruence). apply AF in A; lia. }
      rewrite E. pose proof (tl_max _ _ _ _ _ H2) as MX. rewrite (proj2 (Nat.eqb_neq (hmax b) 0)) by lia. cbn [negb ensure bind Nat.eqb]. rewrite SF by lia. cbn [bind]. replace (S lc - 1) with lc by lia. reflexivity. }
  split; [|split].
  - intros i lev k L E. destruct (NT i lev k E) as [(L1 & -> & ->)|(L1 & -> & Ek & Lk)]; [now apply FI|].
    rewrite CO by assumption. rewrite SC by lia. cbn [bind]. rewrite <- Ek. rewrite ifv_side by assumption. cbn [bind].
    assert (A : act lc k = true) by (apply AC; lia). apply act_some in A. destruct (hflat b lc (at_side (hten b lc) c s k o)) as [x|]; [|congruence]. exists x. auto.
  - intros i L. destruct (le_lt_dec (sz (S lc)) i) as [G|G].
    + unfold indexFromVertH. rewrite (proj2 (Nat.eqb_neq i 0)) by lia. cbn [andb]. unfold indexFromVertH_impl. rewrite (tl_level _ _ _ _ _ H2). rewrite ifv_out by assumption. reflexivity.
    + destruct L as [L|L]; [|lia]. rewrite LL in L. rewrite CO by lia. destruct (le_lt_dec (sz lc) n) as [Q|Q].
      * rewrite scan_none; [reflexivity|exact PC|exact HoC|]. intros j J. destruct (act lc j) eqn:A; [apply AC in A; lia|]. cbn. discriminate.
      * rewrite SC by exact Q. cbn [bind]. rewrite ifv_out by (assumption || lia). reflexivity.
  - intros i j lev k lev' k' IJ E E'. destruct (NT i lev k E) as [(L1 & -> & ->)|(L1 & -> & Ek & Lk)], (NT j lev' k' E') as [(L1' & -> & ->)|(L1' & -> & Ek' & Lk')]; try lia.
    + apply (tl_mono _ _ _ _ _ H2). lia.
    + assert (A1 : endp (S lc) (dalong s) i <= e (dalong s)) by (apply Hm; lia). assert (A2 : ~ endp lc (dalong s) k' <= e (dalong s)) by (rewrite Hn by exact Lk'; lia). lia.
    + apply (tl_mono _ _ _ _ _ H2). lia.
Qed.
End S.

Theorem line_pf : forall (b : hbasis) (c : corner) (s : side) (o lc : nat) (endp : nat -> nat -> nat -> nat) (e : nat -> nat),
  touches c s -> two_levels b c lc endp e -> o < dsize (hten b (S lc)) (dacross s) -> o < dsize (hten b lc) (dacross s) ->
  endp (S lc) (dacross s) o <= e (dacross s) -> endp lc (dacross s) o <= e (dacross s) ->
  (forall i lev k, i < dsize (hten b (S lc)) (dalong s) -> nth_error (line b c s o lc) i = Some (lev, k) ->
     exists x, hflat b lev (at_side (hten b lev) c s k o) = Some x /\ indexFromVertH b i c s o = Ok x) /\
  (forall i, length (line b c s o lc) <= i \/ dsize (hten b (S lc)) (dalong s) <= i -> indexFromVertH b i c s o = Err) /\
  (forall i j lev k lev' k', i < j -> nth_error (line b c s o lc) i = Some (lev, k) -> nth_error (line b c s o lc) j = Some (lev', k') ->
     endp lev (dalong s) k <= endp lev' (dalong s) k').
Proof. intros b c s o lc endp e T H2 HF HC EF EC. exact (line_sec b c s o T lc endp e H2 HF HC EF EC). Qed.

Lemma NoDup_filter' {A} (f : A -> bool) v : NoDup v -> NoDup (filter f v).
Proof. induction 1 as [|x v N ND IH]; [constructor|]. cbn. destruct (f x); [|exact IH]. constructor; [rewrite filter_In; tauto|exact IH]. Qed.
Lemma used_NoDup b c s o lev : NoDup (used b c s o lev).
Proof.
  unfold used. assert (N : NoDup (filter (fun k => negb (isNone (hflat b lev (at_side (hten b lev) c s k o)))) (seq 0 (dsize (hten b lev) (dalong s))))) by (apply NoDup_filter', seq_NoDup).
  induction N as [|x v N ND IH]; [constructor|]. cbn. constructor; [|exact IH]. rewrite in_map_iff. intros (y & E & Iy). injection E as ->. exact (N Iy).
Qed.
Lemma used_in b c s o lev l k : In (l, k) (used b c s o lev) -> l = lev /\ k < dsize (hten b lev) (dalong s).
Proof. unfold used. rewrite in_map_iff. intros (y & E & Iy). injection E as <- <-. apply filter_In in Iy. destruct Iy as (Iy & _). apply in_seq in Iy. split; [reflexivity|lia]. Qed.
Lemma line_NoDup b c s o lc : NoDup (line b c s o lc).
Proof.
  unfold line. apply NoDup_app_iff. repeat split; try apply used_NoDup. intros (l, k) I1 I2. apply used_in in I1. apply used_in in I2. lia.
Qed.
Lemma at_dist_inj b c a a' a2 a2' : a < fst b -> a2 < fst b -> a' < snd b -> a2' < snd b -> at_dist b c a a' = at_dist b c a2 a2' -> a = a2 /\ a' = a2'.
Proof.
  intros L1 L2 L3 L4 E. unfold at_dist in E.
  assert (G : forall n x y x' y', x < n -> x' < n -> x + n * y = x' + n * y' -> x = x' /\ y = y').
  { clear. intros n x y x' y' A B E. assert (y = y') by nia. split; [|assumption]. subst. lia. }
  apply G in E; destruct c; try lia.
Qed.
Theorem distinct_pf : forall (b : hbasis) (c : corner) (s : side) (o lc : nat) (endp : nat -> nat -> nat -> nat) (e : nat -> nat),
  touches c s -> two_levels b c lc endp e -> o < dsize (hten b (S lc)) (dacross s) -> o < dsize (hten b lc) (dacross s) ->
  endp (S lc) (dacross s) o <= e (dacross s) -> endp lc (dacross s) o <= e (dacross s) ->
  (forall lev x lev' x' y, hflat b lev x = Some y -> hflat b lev' x' = Some y -> lev = lev' /\ x = x') ->
  forall i j x, indexFromVertH b i c s o = Ok x -> indexFromVertH b j c s o = Ok x -> i = j.
Proof.
  intros b c s o lc endp e T H2 HF HC EF EC INJ i j x Ei Ej.
  destruct (line_pf b c s o lc endp e T H2 HF HC EF EC) as (P1 & P2 & _).
  assert (G : forall i, indexFromVertH b i c s o = Ok x -> exists lev k, nth_error (line b c s o lc) i = Some (lev, k) /\ hflat b lev (at_side (hten b lev) c s k o) = Some x).
  { intros q E. destruct (le_lt_dec (length (line b c s o lc)) q) as [L|L]; [rewrite P2 in E by (left; exact L); discriminate|].
    destruct (le_lt_dec (dsize (hten b (S lc)) (dalong s)) q) as [L'|L']; [rewrite P2 in E by (right; exact L'); discriminate|].
    destruct (nth_error (line b c s o lc) q) as [(lev, k)|] eqn:N; [|apply nth_error_None in N; lia]. destruct (P1 q lev k L' N) as (y & Hy & Ey). exists lev, k. split; [reflexivity|]. congruence. }
  destruct (G i Ei) as (l1 & k1 & N1 & F1). destruct (G j Ej) as (l2 & k2 & N2 & F2). destruct (INJ _ _ _ _ _ F1 F2) as (-> & EX).
  assert (B : forall k i, nth_error (line b c s o lc) i = Some (l2, k) -> k < dsize (hten b l2) (dalong s) /\ o < dsize (hten b l2) (dacross s)).
  { intros k q N. apply nth_error_In in N. unfold line in N. apply in_app_iff in N. destruct N as [N|N]; apply used_in in N; destruct N as (-> & N); auto. }
  destruct (B k1 i N1) as (B1 & B2). destruct (B k2 j N2) as (B3 & _).
  assert (EK : k1 = k2) by (unfold at_side in EX; destruct s; cbn [dalong dacross dsize] in *; apply at_dist_inj in EX; try assumption; destruct EX; assumption).
  subst k2. apply (proj1 (NoDup_nth_error _) (line_NoDup b c s o lc)); [apply nth_error_Some; congruence|congruence].
Qed.

Lemma box_small p r nel i : 2 <= p -> i <= 2 -> ~ (p = 2 /\ r = 0 /\ i = 2 /\ 2 < nel) -> multi_end p nel i <= box p r.
Proof.
  intros P I N. unfold multi_end, box. pose proof (Nat.pow_nonzero 2 r ltac:(lia)) as Z. destruct (p <? 4) eqn:Q.
  - apply Nat.ltb_lt in Q. assert (p = 2 \/ p = 3) as [->| ->] by lia.
    + cbn [Nat.sub]. rewrite Nat.div_1_r. destruct r as [|r]; [cbn; lia|]. pose proof (Nat.pow_nonzero 2 r ltac:(lia)). cbn [Nat.pow]. lia.
    + assert (i / (3 - 1) <= 1) by (apply (Nat.div_le_mono i 2 2); lia). lia.
  - apply Nat.ltb_ge in Q. rewrite (Nat.div_small i (p - 1)) by lia. lia.
Qed.
Lemma box_fine p r nel i : 2 <= p -> i <= 3 -> multi_end p (2 * nel) i <= 2 * box p r.
Proof.
  intros P I. unfold multi_end, box. pose proof (Nat.pow_nonzero 2 r ltac:(lia)) as Z. destruct (p <? 4) eqn:Q.
  - apply Nat.ltb_lt in Q. assert (p = 2 \/ p = 3) as [->| ->] by lia.
    + cbn [Nat.sub]. rewrite Nat.div_1_r. lia.
    + assert (i / (3 - 1) <= 1) by (apply (Nat.div_le_mono i 3 2); lia). lia.
  - apply Nat.ltb_ge in Q. assert (i / (p - 1) <= 1) by (destruct (Nat.eq_dec p 4) as [->|]; [apply (Nat.div_le_mono i 3 3); lia|rewrite Nat.div_small by lia; lia]). lia.
Qed.

(** the fine function is used if it exists *)
Lemma direct b c s i o lev x : touches c s -> hlev b c = lev -> i < dsize (hten b lev) (dalong s) -> o < dsize (hten b lev) (dacross s) ->
  (forall y, hflat b lev (at_dist (hten b lev) c 0 0) = Some y -> hcorner b c = Ok y) ->
  hflat b lev (at_side (hten b lev) c s i o) = Some x -> indexFromVertH b i c s o = Ok x.
Proof.
  intros T L Li Lo HC E. unfold indexFromVertH. destruct ((i =? 0) && (o =? 0)) eqn:Q.
  - apply andb_prop in Q. destruct Q as (Q1 & Q2). apply Nat.eqb_eq in Q1, Q2. subst i o. apply HC. rewrite <- E. destruct s; reflexivity.
  - unfold indexFromVertH_impl. rewrite L, ifv_side by assumption. cbn [bind]. now rewrite E.
Qed.

Theorem dpatch0_pf : forall (b : hbasis) (c : corner) (s : side) (p nel r i o : nat),
  2 <= p -> box p r <= nel -> touches c s -> dpatch0 b c p nel r -> i <= 2 -> o <= 1 ->
  let lev := if (p =? 2) && (r =? 0) && (i =? 2) && (2 <? nel) then 0 else 1 in
  exists x, hflat b lev (at_side (hten b lev) c s i o) = Some x /\ indexFromVertH b i c s o = Ok x.
Proof.
  intros b c s p nel r i o P BN T D I O lev. destruct D as [D2 DC DF].
  assert (B1 : 1 <= box p r) by (unfold box; pose proof (Nat.pow_nonzero 2 r ltac:(lia)); destruct (p <? 4); lia).
  assert (SF : forall d, 2 < dsize (hten b 1) d \/ p = 2 /\ nel = 1) by (intros d; rewrite DF; unfold multi_size; destruct d; cbn [dsize fst snd]; nia).
  assert (SF' : forall d, 2 < dsize (hten b 1) d) by (intros d; rewrite DF; unfold multi_size; destruct d; cbn [dsize fst snd]; nia).
  assert (SC' : forall d, 2 < dsize (hten b 0) d) by (intros d; rewrite DC; destruct d; cbn [dsize fst snd]; lia).
  assert (EO : dpatch_end p nel 1 (dacross s) o <= box p r) by (apply box_small; lia).
  subst lev. destruct ((p =? 2) && (r =? 0) && (i =? 2) && (2 <? nel)) eqn:Q.
  - repeat (apply andb_prop in Q; destruct Q as (Q & ?)). rewrite ?Nat.eqb_eq, ?Nat.ltb_lt in *. subst p r i.
    assert (EC : dpatch_end 2 nel 0 (dacross s) o <= box 2 0) by (unfold dpatch_end, simple_end, box; cbn; lia).
    destruct (line_pf b c s o 0 _ _ T D2 ltac:(specialize (SF' (dacross s)); lia) ltac:(specialize (SC' (dacross s)); lia) EO EC) as (P1 & _ & _).
    apply (P1 2 0 2); [apply SF'|]. clear P1.
    assert (LE : line b c s o 0 = map (fun k => (1, k)) (seq 0 2) ++ map (fun k => (0, k)) (seq 2 (dsize (hten b 0) (dalong s) - 2))).
    { unfold line, used. f_equal; f_equal.
      - apply (filter_prefix (act b c s o 1)); [specialize (SF' (dalong s)); lia|]. intros k K. rewrite (act_fine b c s o 0 _ _ D2 ltac:(specialize (SF' (dacross s)); lia) EO k K).
        unfold dpatch_end, multi_end, box. cbn [Nat.eqb Nat.sub]. rewrite Nat.div_1_r. cbn. lia.
      - apply (filter_suffix (act b c s o 0)); [specialize (SC' (dalong s)); lia|]. intros k K. rewrite (act_coarse b c s o 0 _ _ D2 ltac:(specialize (SC' (dacross s)); lia) k EC K).
        unfold dpatch_end, simple_end, box. cbn [Nat.eqb]. cbn. lia. }
    rewrite LE. pose proof (SC' (dalong s)) as Z. destruct (dsize (hten b 0) (dalong s)) as [|[|[|n]]]; [lia..|]. reflexivity.
  - assert (A : hflat b 1 (at_side (hten b 1) c s i o) <> None).
    { apply (act_some b c s o 1 i). apply (act_fine b c s o 0 _ _ D2 ltac:(specialize (SF' (dacross s)); lia) EO i ltac:(specialize (SF' (dalong s)); lia)).
      apply box_small; [exact P|exact I|]. intros (-> & -> & -> & L). apply Nat.ltb_lt in L. rewrite L in Q. discriminate. }
    destruct (hflat b 1 (at_side (hten b 1) c s i o)) as [x|] eqn:E; [|congruence]. exists x. split; [reflexivity|].
    apply (direct b c s i o 1 x T (tl_level _ _ _ _ _ D2)); [specialize (SF' (dalong s)); lia|specialize (SF' (dacross s)); lia|exact (tl_corner _ _ _ _ _ D2)|exact E].
Qed.

Theorem dpatch1_pf : forall (b : hbasis) (c : corner) (s : side) (p nel r i o : nat),
  2 <= p -> 1 <= nel -> touches c s -> dpatch1 b c p nel r -> i <= 3 -> o <= 1 -> i < multi_size p (2 * nel) ->
  exists x, hflat b 2 (at_side (hten b 2) c s i o) = Some x /\ indexFromVertH b i c s o = Ok x.
Proof.
  intros b c s p nel r i o P N T D I O LI. pose proof D as [DL DC DM DS _ DF].
  assert (SZ : forall d, dsize (hten b 2) d = multi_size p (2 * nel)) by (intros d; rewrite DS; destruct d; reflexivity).
  assert (LO : o < multi_size p (2 * nel)) by (unfold multi_size; nia).
  assert (A : hflat b 2 (at_side (hten b 2) c s i o) <> None).
  { unfold at_side. destruct s; apply DF; try assumption; split; apply box_fine; lia. }
  destruct (hflat b 2 (at_side (hten b 2) c s i o)) as [x|] eqn:E; [|congruence]. exists x. split; [reflexivity|].
  apply (direct b c s i o 2 x T DL); [now rewrite SZ|now rewrite SZ|exact DC|exact E].
Qed.

(** farther away there is nothing *)
Theorem dpatch1_far_pf : forall (b : hbasis) (c : corner) (s : side) (p nel r i o : nat),
  2 <= p -> 1 <= nel -> touches c s -> dpatch1 b c p nel r -> o <= 1 -> 2 * box p r < multi_end p (2 * nel) i ->
  indexFromVertH b i c s o = Err.
Proof.
  intros b c s p nel r i o P N T D O BI. pose proof D as [DL DC DM DS DN DF].
  assert (SZ : forall d, dsize (hten b 2) d = multi_size p (2 * nel)) by (intros d; rewrite DS; destruct d; reflexivity).
  assert (SM : forall d, dsize (hten b 1) d = multi_size p nel) by (intros d; rewrite DM; destruct d; reflexivity).
  assert (LO : o < multi_size p (2 * nel)) by (unfold multi_size; nia). assert (LO' : o < multi_size p nel) by (unfold multi_size; nia).
  assert (B1 : 1 <= box p r) by (unfold box; pose proof (Nat.pow_nonzero 2 r ltac:(lia)); destruct (p <? 4); lia).
  assert (I0 : i <> 0) by (intros ->; unfold multi_end in BI; rewrite Nat.div_0_l in BI by lia; lia).
  unfold indexFromVertH. rewrite (proj2 (Nat.eqb_neq i 0) I0). cbn [andb]. unfold indexFromVertH_impl. rewrite DL.
  destruct (le_lt_dec (multi_size p (2 * nel)) i) as [G|G]; [rewrite ifv_out; [reflexivity|exact T|rewrite SZ; exact G|rewrite SZ; unfold multi_size; lia]|].
  rewrite ifv_side by (assumption || (rewrite SZ; assumption)). cbn [bind].
  assert (E : hflat b 2 (at_side (hten b 2) c s i o) = None).
  { destruct (hflat b 2 (at_side (hten b 2) c s i o)) eqn:E; [|reflexivity]. exfalso.
    assert (A : multi_end p (2 * nel) i <= 2 * box p r); [|lia]. unfold at_side in E. destruct s; (eapply or_introl in E); destruct E as [E|E]; try (exact (False_ind _ E));
      (assert (Q : forall z w : option nat, z = Some n -> z <> None) by congruence); apply (Q _ None) in E; apply DF in E; tauto. }
  rewrite E. destruct (ensure (negb (hmax b =? 0))); [|reflexivity]. cbn [bind ensure negb Nat.eqb].
  destruct (scan b c s o 2 true (rounds b 2) 0); [|reflexivity]. cbn [bind]. cbn [Nat.sub].
  rewrite scan_none; [reflexivity|exact T|rewrite SM; unfold multi_size; lia|rewrite SM; exact LO'|].
  intros j _. unfold act. rewrite DN. cbn. discriminate.
Qed.
