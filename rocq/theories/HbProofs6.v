(** Proofs for C74: exactly which boxes are added and which patches are checked again. *)
From Coq Require Import Sorting.Sorted ZifyBool.
From Verif Require Import Common ListLemmas TopoModel TopoSpec IndexProofs TopoProofs HbModel HbSpec HbProofs HbProofs2 HbProofs3 HbProofs4.

(** a loop whose steps add to what holds *)
Lemma foldM_events {A S} (I : S -> Prop) (P : S -> Prop) (E : A -> Prop) (f : S -> A -> res S) l :
  (forall s x s', In x l -> I s -> f s x = Ok s' -> I s' /\ (P s' <-> P s \/ E x)) -> forall s s', I s -> foldM f l s = Ok s' -> I s' /\ (P s' <-> P s \/ exists x, In x l /\ E x).
Proof.
  induction l as [|a l IH]; intros H s s' Is F; cbn [foldM] in F.
  - injection F as <-. split; [exact Is|]. split; [auto|]. intros [Q|(x & [] & _)]. exact Q.
  - destruct (f s a) as [s1|] eqn:Ea; [|discriminate F]. cbn [bind] in F. destruct (H s a s1 (or_introl eq_refl) Is Ea) as (I1 & P1). destruct (IH (fun s x s' Hx => H s x s' (or_intror Hx)) s1 s' I1 F) as (I2 & P2). split; [exact I2|]. rewrite P2, P1. split.
    + intros [[Q|Q]|(x & Hx & Q)]; [auto|right; exists a; cbn; auto|right; exists x; cbn; auto].
    + intros [Q|(x & [<-|Hx] & Q)]; [auto|auto|right; exists x; auto].
Qed.

Definition state := (list hbox * list bool)%type.
Definition four (x : state) : Prop := length (snd x) = 4.
Definition covered (l M i j : nat) (x : state) : Prop := exists b, In b (fst x) /\ l <= bl b /\ in_box M b i j.
Definition flagged (z : side) (x : state) : Prop := nth (side_ix z - 1) (snd x) false = true.

Lemma nth_upd_bool (l : list bool) p q v : p < length l -> nth q (upd l p v) false = if p =? q then v else nth q l false.
Proof. revert p q. induction l as [|a l IH]; intros p q L; cbn [length] in L; [lia|]. destruct p, q; cbn [upd nth Nat.eqb]; try reflexivity. apply IH. lia. Qed.
Lemma mark_length b i l : length (mark b i l) = length l. Proof. unfold mark. destruct b; [apply upd_length|reflexivity]. Qed.
Lemma mark_nth b i l q : i < length l -> nth q (mark b i l) false = true <-> nth q l false = true \/ (b = true /\ q = i).
Proof.
  intros L. unfold mark. destruct b; [|split; [auto|intros [H|(H & _)]; [exact H|discriminate H]]]. rewrite nth_upd_bool by exact L. destruct (Nat.eqb_spec i q) as [->|N]; split; auto; intros [H|(_ & H)]; auto.
Qed.

(** elements of the support of one of the functions a..b *)
Lemma run_support p e a b x : a <= b -> (a - p <= x < Nat.min e (b + 1)) <-> exists k, a <= k <= b /\ k - p <= x < Nat.min e (k + 1).
Proof. intros AB. split; [intros H; exists (Nat.max a x); lia|intros (k & K & H); lia]. Qed.

Lemma funBox_region h u0 v0 u1 v1 l bs bs' : u0 <= u1 -> v0 <= v1 -> addFunBox h u0 v0 u1 v1 l bs = Ok bs' ->
  u1 < funs (hpu h) (hnu h) l /\ v1 < funs (hpv h) (hnv h) l /\ exists b, bs' = bs ++ [b] /\ bl b = l /\ forall M i j, in_box M b i j <-> exists a c, u0 <= a <= u1 /\ v0 <= c <= v1 /\ in_box M (support h l a c) i j.
Proof.
  intros U V H. unfold addFunBox in H. destruct (_ && _) eqn:En in H; [|discriminate H]. cbn [ensure bind] in H. injection H as <-. split; [lia|]. split; [lia|].
  eexists. split; [reflexivity|]. split; [reflexivity|]. intros M i j. unfold in_box, support, supp, elems. cbn [bl bu0 bv0 bu1 bv1 fst snd]. rewrite (run_support _ _ u0 u1) by exact U. rewrite (run_support _ _ v0 v1) by exact V. split.
  - intros (L & (a & A & Ia) & (c & C & Ic)). exists a, c. auto.
  - intros (a & c & A & C & L & Ia & Ic). split; [exact L|]. split; [exists a; auto|exists c; auto].
Qed.

Lemma addBoundaryBox_exact h incr s a b l x x' : 1 <= hpu h -> 1 <= hpv h -> a <= b -> four x -> addBoundaryBox h incr s a b l x = Ok x' ->
  four x' /\
  (forall l0 M i j, covered l0 M i j x' <-> covered l0 M i j x \/ (l0 <= l /\ exists k d, a <= k <= b /\ d < depth h incr s /\ in_box M (row_support h l s k d) i j)) /\
  (forall z, flagged z x' <-> flagged z x \/ exists k, a <= k <= b /\ touches h incr l s k z) /\ b < side_count h l s.
Proof.
  intros PU PV AB F H. unfold addBoundaryBox in H. cbv zeta in H. destruct x as (bs, chk). unfold four in F. cbn [snd] in F. unfold four, flagged, covered. cbn [fst snd].
  assert (Cov : forall bx, bl bx = l -> forall bs', bs' = bs ++ [bx] -> forall l0 M i j, (exists b, In b bs' /\ l0 <= bl b /\ in_box M b i j) <-> (exists b, In b bs /\ l0 <= bl b /\ in_box M b i j) \/ (l0 <= l /\ in_box M bx i j)).
  { intros bx Lb bs' -> l0 M i j. split.
    - intros (y & Y & Q). apply in_app_iff in Y. destruct Y as [Y|[<-|[]]]; [left; exists y; auto|right; rewrite <- Lb; exact Q].
    - intros [(y & Y & Q)|Q]; [exists y; split; [apply in_or_app; auto|exact Q]|exists bx; split; [apply in_or_app; right; left; reflexivity|rewrite Lb; exact Q]]. }
  assert (DE : forall h p, 1 <= p -> hdist p h - 1 + 1 = hdist p h) by (intros; unfold hdist; lia).
  destruct s; cbn [side_dir] in H.
  - destruct (addFunBox _ _ _ _ _ _ _) as [bs'|] eqn:E in H; [|discriminate H]. cbn [bind] in H. injection H as <-. cbn [fst snd]. apply funBox_region in E; [|lia|exact AB]. destruct E as (B1 & B2 & bx & E1 & E2 & E3). rewrite !mark_length. split; [exact F|]. split; [|split].
    + intros l0 M i j. rewrite (Cov bx E2 bs' E1), E3. cbn [row_support]. unfold depth, hdist in *. split; (intros [Q|(Q & Q')]; [left; exact Q|right; split; [exact Q|]]).
      * destruct Q' as (d & k & D & K & Q'). exists k, d. split; [lia|]. split; [lia|exact Q'].
      * destruct Q' as (k & d & K & D & Q'). exists d, k. split; [lia|]. split; [lia|exact Q'].
    + intros z. rewrite !mark_nth by (rewrite ?mark_length; lia). unfold touches, depth, side_count, facing, start_side, end_side, hdist, funs, elems in *. split.
      * intros [[[Q|(Q & Z)]|(Q & Z)]|(Q & Z)]; [left; exact Q|right; exists a; split; [lia|]; left; destruct z; cbn in Z; try lia; split; [reflexivity|lia]|right; exists a; split; [lia|]; right; left; destruct z; cbn in Z; try lia; split; [reflexivity|lia]|right; exists b; split; [lia|]; right; right; destruct z; cbn in Z; try lia; split; [reflexivity|lia]].
      * intros [Q|(k & K & [(-> & Q)|[(-> & Q)|(-> & Q)]])]; [auto|left; left; right; cbn; lia|left; right; cbn; lia|right; cbn; lia].
    + unfold funs, elems in *. cbn [side_count]. lia.
  - destruct (ensure _) eqn:En in H; [|discriminate H]. unfold ensure in En. destruct (_ <=? _) eqn:Le in En; [|discriminate En]. apply Nat.leb_le in Le. cbn [bind] in H.
    destruct (addFunBox _ _ _ _ _ _ _) as [bs'|] eqn:E in H; [|discriminate H]. cbn [bind] in H. injection H as <-. cbn [fst snd]. apply funBox_region in E; [|lia|exact AB]. destruct E as (B1 & B2 & bx & E1 & E2 & E3). rewrite !mark_length. split; [exact F|]. split; [|split].
    + intros l0 M i j. rewrite (Cov bx E2 bs' E1), E3. cbn [row_support]. unfold depth, hdist, funs, elems in *. split; (intros [Q|(Q & Q')]; [left; exact Q|right; split; [exact Q|]]).
      * destruct Q' as (d & k & D & K & Q'). exists k, (hnu h * 2 ^ l + hpu h - 1 - d). split; [lia|]. split; [lia|]. replace (hnu h * 2 ^ l + hpu h - 1 - (hnu h * 2 ^ l + hpu h - 1 - d)) with d by lia. exact Q'.
      * destruct Q' as (k & d & K & D & Q'). exists (hnu h * 2 ^ l + hpu h - 1 - d), k. split; [lia|]. split; [lia|exact Q'].
    + intros z. rewrite !mark_nth by (rewrite ?mark_length; lia). unfold touches, depth, side_count, facing, start_side, end_side, hdist, funs, elems in *. split.
      * intros [[[Q|(Q & Z)]|(Q & Z)]|(Q & Z)]; [left; exact Q|right; exists a; split; [lia|]; left; destruct z; cbn in Z; try lia; split; [reflexivity|lia]|right; exists a; split; [lia|]; right; left; destruct z; cbn in Z; try lia; split; [reflexivity|lia]|right; exists b; split; [lia|]; right; right; destruct z; cbn in Z; try lia; split; [reflexivity|lia]].
      * intros [Q|(k & K & [(-> & Q)|[(-> & Q)|(-> & Q)]])]; [auto|left; left; right; cbn; lia|left; right; cbn; lia|right; cbn; lia].
    + unfold funs, elems in *. cbn [side_count]. lia.
  - destruct (addFunBox _ _ _ _ _ _ _) as [bs'|] eqn:E in H; [|discriminate H]. cbn [bind] in H. injection H as <-. cbn [fst snd]. apply funBox_region in E; [|exact AB|lia]. destruct E as (B1 & B2 & bx & E1 & E2 & E3). rewrite !mark_length. split; [exact F|]. split; [|split].
    + intros l0 M i j. rewrite (Cov bx E2 bs' E1), E3. cbn [row_support]. unfold depth, hdist in *. split; (intros [Q|(Q & Q')]; [left; exact Q|right; split; [exact Q|]]).
      * destruct Q' as (k & d & K & D & Q'). exists k, d. split; [lia|]. split; [lia|exact Q'].
      * destruct Q' as (k & d & K & D & Q'). exists k, d. split; [lia|]. split; [lia|exact Q'].
    + intros z. rewrite !mark_nth by (rewrite ?mark_length; lia). unfold touches, depth, side_count, facing, start_side, end_side, hdist, funs, elems in *. split.
      * intros [[[Q|(Q & Z)]|(Q & Z)]|(Q & Z)]; [left; exact Q|right; exists a; split; [lia|]; left; destruct z; cbn in Z; try lia; split; [reflexivity|lia]|right; exists a; split; [lia|]; right; left; destruct z; cbn in Z; try lia; split; [reflexivity|lia]|right; exists b; split; [lia|]; right; right; destruct z; cbn in Z; try lia; split; [reflexivity|lia]].
      * intros [Q|(k & K & [(-> & Q)|[(-> & Q)|(-> & Q)]])]; [auto|left; left; right; cbn; lia|left; right; cbn; lia|right; cbn; lia].
    + unfold funs, elems in *. cbn [side_count]. lia.
  - destruct (ensure _) eqn:En in H; [|discriminate H]. unfold ensure in En. destruct (_ <=? _) eqn:Le in En; [|discriminate En]. apply Nat.leb_le in Le. cbn [bind] in H.
    destruct (addFunBox _ _ _ _ _ _ _) as [bs'|] eqn:E in H; [|discriminate H]. cbn [bind] in H. injection H as <-. cbn [fst snd]. apply funBox_region in E; [|exact AB|lia]. destruct E as (B1 & B2 & bx & E1 & E2 & E3). rewrite !mark_length. split; [exact F|]. split; [|split].
    + intros l0 M i j. rewrite (Cov bx E2 bs' E1), E3. cbn [row_support]. unfold depth, hdist, funs, elems in *. split; (intros [Q|(Q & Q')]; [left; exact Q|right; split; [exact Q|]]).
      * destruct Q' as (k & d & K & D & Q'). exists k, (hnv h * 2 ^ l + hpv h - 1 - d). split; [lia|]. split; [lia|]. replace (hnv h * 2 ^ l + hpv h - 1 - (hnv h * 2 ^ l + hpv h - 1 - d)) with d by lia. exact Q'.
      * destruct Q' as (k & d & K & D & Q'). exists k, (hnv h * 2 ^ l + hpv h - 1 - d). split; [lia|]. split; [lia|exact Q'].
    + intros z. rewrite !mark_nth by (rewrite ?mark_length; lia). unfold touches, depth, side_count, facing, start_side, end_side, hdist, funs, elems in *. split.
      * intros [[[Q|(Q & Z)]|(Q & Z)]|(Q & Z)]; [left; exact Q|right; exists a; split; [lia|]; left; destruct z; cbn in Z; try lia; split; [reflexivity|lia]|right; exists a; split; [lia|]; right; left; destruct z; cbn in Z; try lia; split; [reflexivity|lia]|right; exists b; split; [lia|]; right; right; destruct z; cbn in Z; try lia; split; [reflexivity|lia]].
      * intros [Q|(k & K & [(-> & Q)|[(-> & Q)|(-> & Q)]])]; [auto|left; left; right; cbn; lia|left; right; cbn; lia|right; cbn; lia].
    + unfold funs, elems in *. cbn [side_count]. lia.
Qed.

Lemma matchLevel_exact h n incr s sn fl x l x' : 1 <= hpu h -> 1 <= hpv h -> 1 <= l -> side_count h l s = side_count n l sn -> four x -> matchLevel h n incr s sn fl x l = Ok x' ->
  four x' /\ (forall l0 M i j, covered l0 M i j x' <-> covered l0 M i j x \/ new_cover h n incr s sn fl l l0 M i j) /\ (forall z, flagged z x' <-> flagged z x \/ new_flag h n incr s sn fl l z).
Proof.
  intros PU PV L C F4 H. unfold matchLevel in H. cbv zeta in H. change (if fl then rev (activeBoundary n l sn) else activeBoundary n l sn) with (nbr_flags n l sn fl) in H.
  rewrite activeBoundary_length, nbr_flags_length, C, Nat.leb_refl in H. cbn [ensure bind] in H. set (r := map _ (seq 0 (side_count n l sn))) in H. set (m := existsb _ _) in H. set (x0 := (fst x, _)) in H.
  assert (NE : r <> []). { intros Q. apply (f_equal (@length bool)) in Q. unfold r in Q. rewrite map_length, seq_length, <- C in Q. cbn [length] in Q. destruct s; cbn [side_count] in Q; lia. }
  assert (Ms : forall k, nth k r false = true <-> missing h s n sn fl l k).
  { intros k. unfold missing. rewrite C. destruct (Nat.lt_ge_cases k (side_count n l sn)) as [K|K].
    - unfold r. rewrite nth_map_seq by exact K. rewrite Bool.andb_true_iff, Bool.negb_true_iff, <- Bool.not_true_iff_false, nbr_flags_nth, activeBoundary_nth by (rewrite ?C; assumption). tauto.
    - rewrite nth_overflow by (unfold r; rewrite map_length, seq_length; exact K). split; [discriminate|intros (Q & _); lia]. }
  assert (Mo : m = true <-> exists k, k < side_count h l s /\ on_side_fun active_fun h l s k /\ ~ on_side_fun active_fun n l sn (opposite fl (side_count h l s) k)).
  { unfold m. rewrite existsb_exists. split.
    - intros (k & K & Q). apply in_seq in K. rewrite Bool.andb_true_iff, Bool.negb_true_iff, <- Bool.not_true_iff_false, nbr_flags_nth, activeBoundary_nth in Q by (rewrite ?C; lia). exists k. rewrite C. split; [lia|exact Q].
    - intros (k & K & Q). rewrite C in K, Q. exists k. split; [apply in_seq; lia|]. rewrite Bool.andb_true_iff, Bool.negb_true_iff, <- Bool.not_true_iff_false, nbr_flags_nth, activeBoundary_nth by (rewrite ?C; lia). exact Q. }
  assert (F0 : four x0) by (unfold four, x0; cbn [snd]; rewrite mark_length; exact F4).
  destruct (scan_ok r NE) as (R & (HR & _) & Sc). rewrite Sc in H.
  assert (Hab : forall ab, In ab R -> fst ab <= snd ab) by (intros (a, b) Hab; apply HR in Hab; cbn [fst snd]; destruct Hab as (Q & _); lia).
  assert (Runs : forall (Q : nat -> Prop), (exists ab, In ab R /\ exists k, fst ab <= k <= snd ab /\ Q k) <-> exists k, missing h s n sn fl l k /\ Q k).
  { intros Q. split.
    - intros ((a, b) & Hab' & k & K & Qk). cbn [fst snd] in K. apply HR in Hab'. exists k. split; [|exact Qk]. apply Ms. apply Hab'. exact K.
    - intros (k & Mk & Qk). apply Ms in Mk. destruct (in_some_run r k Mk) as (a & b & Run & K). exists (a, b). split; [apply HR; exact Run|]. exists k. auto. }
  assert (G1 : four x'). { apply (foldM_events four (fun _ => True) (fun _ => True)) in H; [apply H| |exact F0]. intros u ab v Hin Fu E. split; [|tauto]. apply (addBoundaryBox_exact _ _ _ _ _ _ _ _ PU PV (Hab ab Hin) Fu E). }
  split; [exact G1|]. split.
  - intros l0 M i j. apply (foldM_events four (covered l0 M i j) (fun ab => l0 <= l /\ exists k d, fst ab <= k <= snd ab /\ d < depth h incr s /\ in_box M (row_support h l s k d) i j)) in H; [| |exact F0].
    + destruct H as (_ & H). rewrite H. change (covered l0 M i j x0) with (covered l0 M i j x). unfold new_cover. split; (intros [Q|Q]; [left; exact Q|right]).
      * destruct Q as (ab & Hin & Ll & k & d & K & D & Q). split; [exact Ll|]. destruct (proj1 (Runs (fun k => exists d, d < depth h incr s /\ in_box M (row_support h l s k d) i j))) as (k' & Mk & d' & D' & Q'); [exists ab; split; [exact Hin|]; exists k; split; [exact K|exists d; auto]|]. exists k', d'. auto.
      * destruct Q as (Ll & k & d & Mk & D & Q). destruct (proj2 (Runs (fun k => exists d, d < depth h incr s /\ in_box M (row_support h l s k d) i j))) as (ab & Hin & k' & K' & d' & D' & Q'); [exists k; split; [exact Mk|exists d; auto]|]. exists ab. split; [exact Hin|]. split; [exact Ll|]. exists k', d'. auto.
    + intros u ab v Hin Fu E. destruct (addBoundaryBox_exact _ _ _ _ _ _ _ _ PU PV (Hab ab Hin) Fu E) as (A1 & A2 & _). split; [exact A1|apply A2].
  - intros z. apply (foldM_events four (flagged z) (fun ab => exists k, fst ab <= k <= snd ab /\ touches h incr l s k z)) in H; [| |exact F0].
    + destruct H as (_ & H). rewrite H, Runs. unfold new_flag. assert (Fz : flagged z x0 <-> flagged z x \/ (z = s /\ m = true)).
      { unfold flagged, x0. cbn [snd]. rewrite mark_nth by (unfold four in F4; rewrite F4; destruct s; cbn; lia). split; (intros [Q|(Q & Z)]; [auto|right]); [split; [destruct z, s; cbn in Z; congruence || lia|exact Q]|split; [exact Z|rewrite Q; reflexivity]]. }
      rewrite Fz, Mo. tauto.
    + intros u ab v Hin Fu E. destruct (addBoundaryBox_exact _ _ _ _ _ _ _ _ PU PV (Hab ab Hin) Fu E) as (A1 & _ & A3 & _). split; [exact A1|apply A3].
Qed.

Section EXACT.
Context (t : topo) (incr : nat) (bs : list hbasis).
Hypothesis IN : hb_input t incr bs.

Lemma active_level p n s l k : p < length bs -> nth p bs nobasis = n -> 1 <= l -> k < side_count n l s -> on_side_fun active_fun n l s k -> l <= maxLevel n.
Proof.
  intros Lp Np L K A. destruct (hi_size _ _ _ IN n) as (SU & SV); [rewrite <- Np; apply nth_In; exact Lp|]. destruct (hi_degree _ _ _ IN n) as (DU & DV); [rewrite <- Np; apply nth_In; exact Lp|].
  assert (U : 1 <= hnu n) by lia. assert (V : 1 <= hnv n) by lia. pose proof (pow2_pos l).
  rewrite on_side_sideFun in A. destruct A as (A & _). eapply present_level; [exact L|exact U|exact V| | |exact A]; destruct s; cbn [sideFun fst snd side_count] in *; unfold funs, elems; nia.
Qed.

Lemma matchNeighbours_exact p h boxes chk : vget bs p = Ok h -> matchNeighbours t bs incr p = Ok (boxes, chk) ->
  (forall l0 M i j, (exists b, In b boxes /\ l0 <= bl b /\ in_box M b i j) <-> all_cover t incr bs p h l0 M i j) /\
  (forall q, In q chk <-> exists z f sq, In f (tif t) /\ joins f p z q sq /\ all_flag t incr bs p h z).
Proof.
  intros Gp H. destruct (vget_nth_hb bs p h Gp) as (Lp & Np). destruct (hi_degree _ _ _ IN h) as (PU & PV); [rewrite <- Np; apply nth_In; exact Lp|].
  unfold matchNeighbours in H. rewrite Gp in H. cbn [bind] in H. set (side_step := fun x s => _) in H. destruct (foldM side_step _ _) as [y|] eqn:E in H; [|discriminate H]. cbn [bind] in H.
  set (g := fun s => match getInterface t (p, s) with None => Ok None | Some f => _ end) in H.
  assert (Gs : forall s, match getInterface t (p, s) with None => g s = Ok None /\ (forall f q s', In f (tif t) -> ~ joins f p s q s')
      | Some f => exists q s' n, iother f (p, s) = Ok (q, s') /\ vget bs q = Ok n /\ nth q bs nobasis = n /\ q < length bs /\ In f (tif t) /\ joins f p s q s' /\ g s = Ok (Some q) /\ (forall l, side_count h l s = side_count n l s') /\ (forall f0 q0 s0', In f0 (tif t) -> joins f0 p s q0 s0' -> f0 = f /\ q0 = q /\ s0' = s') end).
  { intros s. destruct (getInterface t (p, s)) as [f|] eqn:G.
    - pose proof G as G'. apply getInterface_joins in G. destruct G as (F & q & s' & Io & J). assert (Lq : q < length bs). { rewrite <- (hi_np _ _ _ IN). change q with (fst (q, s')). apply (pside_lt t (q, s') f (hi_topo _ _ _ IN) F). destruct J as [(_ & J)|(_ & J)]; auto. }
      destruct (vget_lt bs q Lq) as (n & Vn). destruct (vget_nth_hb bs q n Vn) as (_ & Nn). pose proof (fun l => joins_count t incr bs IN f p s q s' l F J) as C. rewrite Np, Nn in C.
      exists q, s', n. repeat (split; [assumption|]). split; [unfold g; rewrite G', Io; reflexivity|]. split; [exact C|]. intros f0 q0 s0' F0 J0. destruct (joins_other t incr bs IN f0 p s q0 s0' F0 J0) as (G0 & I0). rewrite G' in G0. injection G0 as <-. rewrite Io in I0. injection I0 as -> ->. auto.
    - split; [unfold g; rewrite G; reflexivity|]. intros f q s' F J. destruct (joins_other t incr bs IN f p s q s' F J) as (G0 & _). congruence. }
  assert (Lev : forall s f n s' u v, (forall l, side_count h l s = side_count n l s') -> (forall l k, 1 <= l -> k < side_count n l s' -> on_side_fun active_fun n l s' k -> l <= maxLevel n) -> four u ->
    foldM (matchLevel h n incr s s' f) (seq 1 (Nat.max (maxLevel h) (maxLevel n))) u = Ok v ->
    four v /\ (forall l0 M i j, covered l0 M i j v <-> covered l0 M i j u \/ exists l, 1 <= l /\ new_cover h n incr s s' f l l0 M i j) /\ (forall z, flagged z v <-> flagged z u \/ exists l, 1 <= l /\ new_flag h n incr s s' f l z)).
  { intros s f n s' u v C Ln F4 Q.
    assert (Lo : forall l k, 1 <= l -> missing h s n s' f l k -> In l (seq 1 (Nat.max (maxLevel h) (maxLevel n)))).
    { intros l k L (K & A & _). apply in_seq. rewrite C in K, A. specialize (Ln l _ L (opposite_lt f _ k K) A). lia. }
    assert (Lh : forall l k, 1 <= l -> k < side_count h l s -> on_side_fun active_fun h l s k -> In l (seq 1 (Nat.max (maxLevel h) (maxLevel n)))).
    { intros l k L K A. apply in_seq. pose proof (active_level p h s l k Lp Np L K A). lia. }
    split; [|split].
    - apply (foldM_events four (fun _ => True) (fun _ => True)) in Q; [apply Q| |exact F4]. intros a l b Hl Fa Em. apply in_seq in Hl. split; [|tauto]. apply matchLevel_exact in Em; [apply Em|exact PU|exact PV|lia|apply C|exact Fa].
    - intros l0 M i j. apply (foldM_events four (covered l0 M i j) (fun l => new_cover h n incr s s' f l l0 M i j)) in Q; [| |exact F4].
      + destruct Q as (_ & Q). rewrite Q. split; (intros [A|(l & Hl & A)]; [left; exact A|right; exists l]); [apply in_seq in Hl; split; [lia|exact A]|]. split; [|exact A]. destruct A as (_ & k & d & Mk & _). apply (Lo l k Hl Mk).
      + intros a l b Hl Fa Em. apply in_seq in Hl. apply matchLevel_exact in Em; [|exact PU|exact PV|lia|apply C|exact Fa]. destruct Em as (E1 & E2 & _). split; [exact E1|apply E2].
    - intros z. apply (foldM_events four (flagged z) (fun l => new_flag h n incr s s' f l z)) in Q; [| |exact F4].
      + destruct Q as (_ & Q). rewrite Q. split; (intros [A|(l & Hl & A)]; [left; exact A|right; exists l]); [apply in_seq in Hl; split; [lia|exact A]|]. split; [|exact A]. destruct A as [(_ & k & K & A & _)|(k & Mk & _)]; [apply (Lh l k Hl K A)|apply (Lo l k Hl Mk)].
      + intros a l b Hl Fa Em. apply in_seq in Hl. apply matchLevel_exact in Em; [|exact PU|exact PV|lia|apply C|exact Fa]. destruct Em as (E1 & _ & E3). split; [exact E1|apply E3]. }
  assert (Stp : forall u s v, four u -> side_step u s = Ok v -> four v /\
     (forall l0 M i j, covered l0 M i j v <-> covered l0 M i j u \/ exists f q s' l, In f (tif t) /\ joins f p s q s' /\ 1 <= l /\ new_cover h (nth q bs nobasis) incr s s' (ifflip f) l l0 M i j) /\
     (forall z, flagged z v <-> flagged z u \/ exists f q s' l, In f (tif t) /\ joins f p s q s' /\ 1 <= l /\ new_flag h (nth q bs nobasis) incr s s' (ifflip f) l z)).
  { intros u s v F4 Q. unfold side_step in Q. specialize (Gs s). destruct (getInterface t (p, s)) as [f|].
    - destruct Gs as (q & s' & n & Io & Vn & Nn & Lq & F & J & _ & C & Un). rewrite Io in Q. cbn [bind fst snd] in Q. rewrite Vn in Q. cbn [bind] in Q.
      destruct (Lev s (ifflip f) n s' u v C (fun l k L K A => active_level q n s' l k Lq Nn L K A) F4 Q) as (A1 & A2 & A3). split; [exact A1|]. split.
      + intros l0 M i j. rewrite A2. split; (intros [B|B]; [left; exact B|right]).
        * destruct B as (l & L & B). exists f, q, s', l. rewrite Nn. auto.
        * destruct B as (f0 & q0 & s0 & l & F0 & J0 & L & B). destruct (Un f0 q0 s0 F0 J0) as (-> & -> & ->). rewrite Nn in B. exists l. auto.
      + intros z. rewrite A3. split; (intros [B|B]; [left; exact B|right]).
        * destruct B as (l & L & B). exists f, q, s', l. rewrite Nn. auto.
        * destruct B as (f0 & q0 & s0 & l & F0 & J0 & L & B). destruct (Un f0 q0 s0 F0 J0) as (-> & -> & ->). rewrite Nn in B. exists l. auto.
    - injection Q as <-. destruct Gs as (_ & Un). split; [exact F4|]. split; [intros l0 M i j|intros z]; (split; [auto|]); (intros [B|(f & q & s' & l & F & J & _)]; [exact B|exfalso; exact (Un f q s' F J)]). }
  assert (In4 : forall s, In s [West; East; South; North]) by (intros s; destruct s; cbn; auto).
  assert (F00 : four ([], repeat false 4)) by reflexivity.
  assert (Y4 : four y). { apply (foldM_events four (fun _ => True) (fun _ => True)) in E; [apply E| |exact F00]. intros u s v _ F4 Q. split; [apply (Stp u s v F4 Q)|tauto]. }
  assert (YC : forall l0 M i j, covered l0 M i j y <-> all_cover t incr bs p h l0 M i j).
  { intros l0 M i j. apply (foldM_events four (covered l0 M i j) (fun s => exists f q s' l, In f (tif t) /\ joins f p s q s' /\ 1 <= l /\ new_cover h (nth q bs nobasis) incr s s' (ifflip f) l l0 M i j)) in E; [| |exact F00].
    - destruct E as (_ & E). rewrite E. unfold all_cover. split.
      + intros [(b & [] & _)|(s & _ & Q)]. exists s. exact Q.
      + intros (s & Q). right. exists s. auto.
    - intros u s v _ F4 Q. destruct (Stp u s v F4 Q) as (A1 & A2 & _). split; [exact A1|apply A2]. }
  assert (YF : forall z, flagged z y <-> all_flag t incr bs p h z).
  { intros z. apply (foldM_events four (flagged z) (fun s => exists f q s' l, In f (tif t) /\ joins f p s q s' /\ 1 <= l /\ new_flag h (nth q bs nobasis) incr s s' (ifflip f) l z)) in E; [| |exact F00].
    - destruct E as (_ & E). rewrite E. unfold all_flag. split.
      + intros [Q|(s & _ & Q)]; [destruct z; discriminate Q|]. exists s. exact Q.
      + intros (s & Q). right. exists s. auto.
    - intros u s v _ F4 Q. destruct (Stp u s v F4 Q) as (A1 & _ & A3). split; [exact A1|apply A3]. }
  destruct (mapM g _) as [nb|] eqn:Em in H; [|discriminate H]. cbn [bind] in H. injection H as <- <-. split; [intros l0 M i j; apply (YC l0 M i j)|].
  cbn [mapM] in Em. destruct (g West) as [w|] eqn:Ew; [|discriminate Em]. cbn [bind] in Em. destruct (g East) as [e|] eqn:Ee; [|discriminate Em]. cbn [bind] in Em. destruct (g South) as [so|] eqn:Es; [|discriminate Em]. cbn [bind] in Em. destruct (g North) as [no|] eqn:Eo; [|discriminate Em]. cbn [bind] in Em. injection Em as <-.
  unfold four in Y4. destruct y as (yb, yf). cbn [snd] in Y4 |- *. destruct yf as [|f1 [|f2 [|f3 [|f4 [|]]]]]; try discriminate Y4. cbn [combine flat_map].
  assert (One : forall z (fz : bool) o, g z = Ok o -> (fz = true <-> all_flag t incr bs p h z) -> forall q, In q (match (fz, o) with (true, Some n) => [n] | _ => [] end) <-> exists f sq, In f (tif t) /\ joins f p z q sq /\ all_flag t incr bs p h z).
  { intros z fz o Go Fz q. specialize (Gs z). destruct (getInterface t (p, z)) as [f|].
    - destruct Gs as (q0 & s' & n & _ & _ & _ & _ & F & J & G0 & _ & Un). rewrite G0 in Go. injection Go as <-. split.
      + destruct fz; [|intros []]. intros [<-|[]]. exists f, s'. split; [exact F|]. split; [exact J|]. apply Fz. reflexivity.
      + intros (f' & sq & F' & J' & A). apply Fz in A. rewrite A. destruct (Un f' q sq F' J') as (_ & -> & _). left. reflexivity.
    - destruct Gs as (G0 & Un). rewrite G0 in Go. injection Go as <-. split; [destruct fz; intros []|]. intros (f & sq & F & J & _). exfalso. exact (Un f q sq F J). }
  intros q. rewrite app_nil_r, !in_app_iff. rewrite (One West f1 w Ew (YF West) q), (One East f2 e Ee (YF East) q), (One South f3 so Es (YF South) q), (One North f4 no Eo (YF North) q). split.
  - intros [(f & sq & Q)|[(f & sq & Q)|[(f & sq & Q)|(f & sq & Q)]]]; eexists; exists f, sq; exact Q.
  - intros (z & f & sq & Q). destruct z; [left|right; left|right; right; left|right; right; right]; exists f, sq; exact Q.
Qed.
End EXACT.
