(** One vertex: what the three groups of entries do to the matrix. *)
From Coq Require Import Reals Lra.
From Verif Require Import Common ListLemmas TopoModel TopoSpec IndexProofs TopoProofs PiModel PiSpec PiProofs EvModel EvSpec EvWalk EvSteps.
Open Scope nat_scope.

(** *** Entries *)
Definition has (E : entries) (r c : nat) : Prop := exists v, In (r, c, v) E.
Lemma push_app A E F : push A (E ++ F) = push (push A E) F. Proof. unfold push. apply fold_left_app. Qed.
Lemma push_cases A E r c : (exists v, In (r, c, v) E /\ push A E r c = v) \/ (~ has E r c /\ push A E r c = A r c).
Proof.
  induction E as [|[[r' c'] v] E IH] using rev_ind.
  - right. split; [intros (v & [])|reflexivity].
  - rewrite push_app. cbn [push fold_left]. unfold push1. cbn [fst snd]. destruct ((r =? r') && (c =? c')) eqn:Q.
    + apply andb_prop in Q. destruct Q as (Q1 & Q2). apply Nat.eqb_eq in Q1, Q2. subst. left. exists v. split; [apply in_app_iff; right; now left|reflexivity].
    + destruct IH as [(w & Iw & EQ)|(NH & EQ)].
      * left. exists w. split; [apply in_app_iff; now left|exact EQ].
      * right. split; [|exact EQ]. intros (w & Iw). apply in_app_iff in Iw. destruct Iw as [Iw|[Iw|[]]]; [apply NH; now exists w|]. injection Iw as -> -> ->. rewrite !Nat.eqb_refl in Q. discriminate.
Qed.
Lemma push_in A E r c w : In (r, c, w) E -> (forall v, In (r, c, v) E -> v = w) -> push A E r c = w.
Proof. intros H U. destruct (push_cases A E r c) as [(v & Iv & ->)|(NH & _)]; [now apply U|]. exfalso. apply NH. now exists w. Qed.
Lemma push_out A E r c : ~ has E r c -> push A E r c = A r c.
Proof. intros H. destruct (push_cases A E r c) as [(v & Iv & _)|(_ & ->)]; [exfalso; apply H; now exists v|reflexivity]. Qed.

(** entries that are in the matrix already *)
Definition settled (E : entries) (A : matrix) : Prop := forall r c v, In (r, c, v) E -> A r c = v.
Lemma push_settled A E r c : settled E A -> push A E r c = A r c.
Proof. intros H. destruct (push_cases A E r c) as [(v & Iv & ->)|(_ & ->)]; [symmetry; now apply H|reflexivity]. Qed.

Lemma papply_ext n M x y r : (forall c, c < n -> x c = y c) -> papply n M x r = papply n M y r.
Proof. intros H. unfold papply. apply rsum_ext. intros k K. now rewrite H. Qed.

Section V.
Context (I : evin) (evs : list (list pcorner)) (cl rw : pcorner -> nat -> nat -> nat).
Notation t := (ev_t I).
Context (Hc : consistent t) (Hnb : numbering I evs cl rw).
Context (c0 : pcorner) (Hv : fst c0 < tnp t) (Hin : vertex_inner t (cls t c0) = true).
Notation l := (cls t c0).
Notation N := (length l).
Context (Hp : NoDup (map fst l)) (Hl : In l evs).
Notation cor := (cor t c0).
Notation out := (out t c0).
Notation arr := (arr t c0).
Notation ifc := (ifc t c0).
Notation W := (wstN t c0 N).
Notation C := (CC t c0 cl).
Notation Rw := (CC t c0 rw).
Notation cols := (map (fun k => map (C k) (seq 0 N)) (seq 0 3)).
Notation rows := (map (fun k => map (Rw k) (seq 0 N)) (seq 0 3)).

Lemma cl_inj c c' a b a' b' : In c l -> In c' l -> near a b -> near a' b' -> cl c a b = cl c' a' b' -> c = c' /\ a = a' /\ b = b'.
Proof. intros I1 I2. apply (nb_inj _ _ _ _ Hnb); apply in_concat; exists l; auto. Qed.

Lemma rows_involved r : (exists k i, k < 3 /\ i < N /\ r = Rw k i) <-> involved rw l r.
Proof.
  split.
  - intros (k & i & K & L & ->). exists (cor i). split; [apply cor_in; assumption|]. destruct k as [|[|[|k]]]; [now left| | |lia]; cbn [CC]; unfold along; right; destruct (side_dir _); auto.
  - intros (c & Ic & H). destruct (cor_all t Hc c0 Hv Hin c Ic) as (i & L & <-).
    assert (D : side_dir (arr i) = 1 - side_dir (out i)) by apply other_dir.
    assert (D2 : side_dir (out i) < 2) by (destruct (out i); cbn; lia).
    destruct H as [->|[->| ->]]; [exists 0, i; split; [lia|split; [exact L|reflexivity]]| |].
    + destruct (Nat.eq_dec (side_dir (out i)) 0) as [Q|Q]; [exists 2, i|exists 1, i]; (split; [lia|split; [exact L|]]); cbn [CC]; unfold along; rewrite ?D; [now rewrite Q|].
      now replace (1 - side_dir (out i)) with 0 by lia.
    + destruct (Nat.eq_dec (side_dir (out i)) 0) as [Q|Q]; [exists 1, i|exists 2, i]; (split; [lia|split; [exact L|]]); cbn [CC]; unfold along; rewrite ?D; [now rewrite Q|].
      now replace (side_dir (out i)) with 1 by lia.
Qed.

(** positions *)
Lemma C_pos k i : k < 3 -> exists a b, C k i = cl (cor i) a b /\ near a b /\ 1 <= a <= 2 /\ 1 <= b <= 2 /\
  (a, b) = match k with 0 => (1, 1) | 1 => match side_dir (arr i) with 0 => (1, 2) | _ => (2, 1) end | _ => match side_dir (out i) with 0 => (1, 2) | _ => (2, 1) end end.
Proof.
  intros K. unfold near. destruct k as [|[|[|k]]]; [| | |lia]; cbn [CC]; unfold along.
  - exists 1, 1. repeat split; lia.
  - destruct (side_dir (arr i)); [exists 1, 2|exists 2, 1]; repeat split; lia.
  - destruct (side_dir (out i)); [exists 1, 2|exists 2, 1]; repeat split; lia.
Qed.
Lemma C_inj k i k' i' : k < 3 -> k' < 3 -> i < N -> i' < N -> C k i = C k' i' -> k = k' /\ i = i'.
Proof.
  intros K K' L L' E. destruct (C_pos k i K) as (a & b & E1 & N1 & _ & _ & P1). destruct (C_pos k' i' K') as (a' & b' & E2 & N2 & _ & _ & P2).
  rewrite E1, E2 in E. apply cl_inj in E; [|apply cor_in; assumption|apply cor_in; assumption|exact N1|exact N2]. destruct E as (EC & -> & ->).
  apply (cor_inj t Hc c0 Hv Hin) in EC; [|exact L|exact L']. subst i'. split; [|reflexivity].
  assert (D : side_dir (arr i) = 1 - side_dir (out i)) by apply other_dir.
  assert (D2 : side_dir (out i) < 2) by (destruct (out i); cbn; lia).
  rewrite P1 in P2. rewrite D in P2. destruct k as [|[|[|k]]], k' as [|[|[|k']]]; try lia; destruct (side_dir (out i)) as [|[|q]]; cbn in P2; try reflexivity; try lia; congruence.
Qed.
Lemma along_pos c s k o : exists a b, along cl c s k o = cl c a b /\ (a, b) = match side_dir s with 0 => (o, k) | _ => (k, o) end.
Proof. unfold along. destruct (side_dir s); eauto. Qed.
Lemma near_along k o s a b : k <= 3 -> o <= 1 -> (a, b) = match side_dir s with 0 => (o, k) | _ => (k, o) end -> near a b.
Proof. intros K O E. unfold near. destruct (side_dir s); injection E as -> ->; lia. Qed.
Lemma along_inj c s k o c' s' k' o' : In c l -> In c' l -> on_side (snd c) s = true -> on_side (snd c') s' = true -> k <= 3 -> o <= 1 -> k' <= 3 -> o' <= 1 -> 2 <= k -> 2 <= k' ->
  along cl c s k o = along cl c' s' k' o' -> c = c' /\ s = s' /\ k = k' /\ o = o'.
Proof.
  intros I1 I2 O1 O2 K O K' O' K2 K2' E. destruct (along_pos c s k o) as (a & b & E1 & P1). destruct (along_pos c' s' k' o') as (a' & b' & E2 & P2).
  rewrite E1, E2 in E. apply cl_inj in E; [|assumption|assumption|eapply near_along; [| |exact P1]; lia|eapply near_along; [| |exact P2]; lia].
  destruct E as (-> & -> & ->). rewrite P1 in P2. rewrite <- (cside_of_on _ _ O1), <- (cside_of_on _ _ O2).
  destruct (side_dir s) as [|d] eqn:D1, (side_dir s') as [|d'] eqn:D2; injection P2 as Q1 Q2; try lia; subst; split; auto; split; auto.
Qed.

(** *** The projection *)
Definition projected (A : matrix) (Pi : matrix) (r x : nat) : R := papply (3 * N) Pi (fun y => A r (C (y / N) (y mod N))) x.

Lemma piEntries_in A Pi r x v : In (r, x, v) (piEntries A Pi N rows cols) <-> involved rw l r /\ exists k j, k < 3 /\ j < N /\ x = C k j /\ v = projected A Pi r (j + k * N).
Proof.
  pose proof (N_pos t Hc c0 Hv Hin) as NP.
  assert (PE : forall k i y, k < 3 -> i < N -> papply (3 * N) Pi (fun x => A (at2 rows k i) (at2 cols (x / N) (x mod N))) y = projected A Pi (Rw k i) y).
  { intros k i y K L. unfold projected. apply papply_ext. intros z Z. rewrite (at2_ok t c0 Hv Hin rw k i) by assumption. f_equal. apply (at2_ok t c0 Hv Hin cl); [apply Nat.div_lt_upper_bound; lia|apply Nat.mod_upper_bound; lia]. }
  unfold piEntries. rewrite in_flat_map. split.
  - intros (i & Ii & H). apply in_flat_map in H. destruct H as (k & Ik & H). apply in_flat_map in H. destruct H as (j & Ij & H). apply in_map_iff in H. destruct H as (q & E & Iq).
    apply in_seq in Ii, Ik, Ij, Iq. pose proof (f_equal (fun z => fst (fst z)) E) as E1; pose proof (f_equal (fun z => snd (fst z)) E) as E2; pose proof (f_equal snd E) as E3; cbn [fst snd] in E1, E2, E3; clear E. rewrite (at2_ok t c0 Hv Hin rw k i) in E1 by lia. rewrite (at2_ok t c0 Hv Hin cl q j) in E2 by lia. split.
    + apply rows_involved. exists k, i. split; [lia|]. split; [lia|]. now symmetry.
    + exists q, j. split; [lia|]. split; [lia|]. split; [now symmetry|]. rewrite <- E3, <- E1. apply PE; lia.
  - intros (IR & k & j & K & J & -> & ->). apply rows_involved in IR. destruct IR as (q & i & Q & L & ->). exists i. split; [apply in_seq; lia|]. apply in_flat_map. exists q. split; [apply in_seq; lia|].
    apply in_flat_map. exists j. split; [apply in_seq; lia|]. apply in_map_iff. exists k. split; [|apply in_seq; lia].
    rewrite PE by assumption. rewrite (at2_ok t c0 Hv Hin rw q i), (at2_ok t c0 Hv Hin cl k j) by assumption. reflexivity.
Qed.

Definition inC (x : nat) : Prop := exists k j, k < 3 /\ j < N /\ x = C k j.
Definition stage1 (A Pi A1 : matrix) : Prop :=
  (forall r k j, involved rw l r -> k < 3 -> j < N -> A1 r (C k j) = projected A Pi r (j + k * N)) /\
  (forall r x, ~ involved rw l r \/ ~ inC x -> A1 r x = A r x).

Lemma stage1_ok A E Pi : settled E A -> stage1 A Pi (push A (E ++ piEntries A Pi N rows cols)).
Proof.
  intros SE. rewrite push_app. split.
  - intros r k j IR K J. apply push_in.
    + apply piEntries_in. split; [exact IR|]. exists k, j. auto.
    + intros v Iv. apply piEntries_in in Iv. destruct Iv as (_ & k' & j' & K' & J' & EC & ->). apply C_inj in EC; try assumption. destruct EC as (-> & ->). reflexivity.
  - intros r x H. rewrite push_out; [now apply push_settled|]. intros (v & Iv). apply piEntries_in in Iv. destruct Iv as (IR & k & j & K & J & -> & _). destruct H as [H|H]; [tauto|]. apply H. exists k, j. auto.
Qed.

(** *** The centre *)
Definition centre (a b : nat) : Prop := (a = 0 /\ b = 0) \/ (a = 0 /\ b = 1) \/ (a = 1 /\ b = 0).
Definition inCentre (x : nat) : Prop := exists j a b, j < N /\ centre a b /\ x = cl (cor j) a b.
Definition stage2 (A1 A2 : matrix) : Prop :=
  (forall r j a b, involved rw l r -> j < N -> centre a b -> A2 r (cl (cor j) a b) = A1 r (cl (cor j) 1 1)) /\
  (forall r x, ~ involved rw l r \/ ~ inCentre x -> A2 r x = A1 r x).

Lemma gcol_ok c s k o : In c l -> on_side (snd c) s = true -> k <= 3 -> o <= 1 -> gcol I k c s o = Ok (along cl c s k o).
Proof. intros Ic O K Oo. destruct (nb_col _ _ _ _ Hnb l c s k o Hl Ic O K Oo) as (x & E & M). unfold gcol. rewrite E. exact M. Qed.

Lemma centre_ok A1 : exists E2, centreEntries I A1 W N rows cols = Ok E2 /\ stage2 A1 (push A1 E2).
Proof.
  pose proof (N_pos t Hc c0 Hv Hin) as NP.
  set (cc := fun c : pcorner => [cl c 0 0; cl c 0 1; cl c 1 0]).
  assert (M : mapM (fun c => mapM (fun x => gcol I (fst x) c (cside (snd c) (snd x)) 0) [(0, 0); (1, 0); (1, 1)]) (w_corners W) = Ok (map cc (w_corners W))).
  { apply mapM_ok. intros c Ic. cbn [w_corners wstN] in Ic. apply in_map_iff in Ic. destruct Ic as (i & <- & _).
    cbn [mapM fst snd]. rewrite !gcol_ok by (try apply cor_in; try assumption; try apply on_side_cside; lia). cbn [bind]. unfold along, cc. rewrite !side_dir_cside by lia. reflexivity. }
  unfold centreEntries. rewrite M. cbn [bind]. eexists. split; [reflexivity|].
  set (E2 := flat_map _ _).
  assert (IN : forall r x v, In (r, x, v) E2 <-> involved rw l r /\ exists j a b, j < N /\ centre a b /\ x = cl (cor j) a b /\ v = A1 r (cl (cor j) 1 1)).
  { intros r x v. unfold E2. rewrite in_flat_map.
    assert (NC : forall j, j < N -> nth j (map cc (w_corners W)) [] = cc (cor j)).
    { intros j J. cbn [w_corners wstN]. rewrite map_map. rewrite (nth_indep _ [] (cc (cor 0))) by (rewrite map_length, seq_length; exact J). rewrite (map_nth (fun i => cc (cor i))), seq_nth by exact J. reflexivity. }
    split.
    - intros (i & Ii & H). apply in_flat_map in H. destruct H as (j & Ij & H). apply in_flat_map in H. destruct H as (k & Ik & H). apply in_seq in Ii, Ij, Ik. rewrite NC in H by lia. apply in_map_iff in H. destruct H as (y & E & Iy).
      pose proof (f_equal (fun z => fst (fst z)) E) as E1; pose proof (f_equal (fun z => snd (fst z)) E) as E2'; pose proof (f_equal snd E) as E3; cbn [fst snd] in E1, E2', E3; clear E. rewrite (at2_ok t c0 Hv Hin rw k i) in E1, E3 by lia. rewrite (at2_ok t c0 Hv Hin cl 0 j) in E3 by lia. split; [apply rows_involved; exists k, i; split; [lia|split; [lia|now symmetry]]|].
      unfold cc in Iy. cbn [CC] in E3. destruct Iy as [Iy|[Iy|[Iy|[]]]]; [exists j, 0, 0|exists j, 0, 1|exists j, 1, 0]; unfold centre; (split; [lia|]); (split; [tauto|]); (split; [congruence|]); congruence.
    - intros (IR & j & a & b & J & CE & -> & ->). apply rows_involved in IR. destruct IR as (k & i & K & L & ->). exists i. split; [apply in_seq; lia|]. apply in_flat_map. exists j. split; [apply in_seq; lia|]. apply in_flat_map. exists k. split; [apply in_seq; lia|].
      rewrite NC by exact J. apply in_map_iff. exists (cl (cor j) a b). rewrite (at2_ok t c0 Hv Hin rw k i), (at2_ok t c0 Hv Hin cl 0 j) by lia. split; [reflexivity|]. unfold cc. destruct CE as [(-> & ->)|[(-> & ->)|(-> & ->)]]; cbn; auto. }
  split.
  - intros r j a b IR J CE. apply push_in; [apply IN; split; [exact IR|]; exists j, a, b; auto|]. intros v Iv. apply IN in Iv. destruct Iv as (_ & j' & a' & b' & J' & CE' & EC & ->).
    apply cl_inj in EC; [|apply cor_in; assumption|apply cor_in; assumption|unfold near, centre in *; lia|unfold near, centre in *; lia]. destruct EC as (EC & _). now rewrite EC.
  - intros r x H. apply push_out. intros (v & Iv). apply IN in Iv. destruct Iv as (IR & j & a & b & J & CE & -> & _). destruct H as [H|H]; [tauto|]. apply H. exists j, a, b. auto.
Qed.

(** *** The interfaces *)
Definition ivalue (A : matrix) (r i k : nat) : R := (/ 2 * (A r (along cl (cor i) (out i) k 1%nat) + A r (along cl (cor (S i)) (arr (S i)) k 1%nat)))%R.
Definition inLine (x : nat) : Prop := exists i k, i < N /\ (k = 2 \/ k = 3) /\ (x = along cl (cor i) (out i) k 0 \/ x = along cl (cor (S i)) (arr (S i)) k 0).
Definition stage3 (A2 A3 : matrix) : Prop :=
  (forall r i k, involved rw l r -> i < N -> k = 2 \/ k = 3 -> A3 r (along cl (cor i) (out i) k 0) = ivalue A2 r i k /\ A3 r (along cl (cor (S i)) (arr (S i)) k 0) = ivalue A2 r i k) /\
  (forall r x, ~ involved rw l r \/ ~ inLine x -> A3 r x = A2 r x).

Lemma next_inj i i' : i < N -> i' < N -> cor (S i) = cor (S i') -> i = i'.
Proof.
  intros L L' E. destruct (Nat.eq_dec (S i) N) as [Q|Q], (Nat.eq_dec (S i') N) as [Q'|Q']; try lia.
  - rewrite Q, (cor_N t Hc c0 Hv Hin) in E. apply (cor_inj t Hc c0 Hv Hin) in E; lia.
  - rewrite Q', (cor_N t Hc c0 Hv Hin) in E. apply (cor_inj t Hc c0 Hv Hin) in E; lia.
  - apply (cor_inj t Hc c0 Hv Hin) in E; lia.
Qed.
Lemma out_not_arr i i' : cor i = cor (S i') -> i < N -> i' < N -> out i <> arr (S i').
Proof.
  intros E L L' F. assert (H : out i = out (S i')).
  { destruct (Nat.eq_dec (S i') N) as [Q|Q].
    - rewrite Q, (cor_N t Hc c0 Hv Hin) in E. rewrite Q, (out_N t Hc c0 Hv Hin). apply (cor_inj t Hc c0 Hv Hin) in E; [now subst|lia|lia].
    - apply (cor_inj t Hc c0 Hv Hin) in E; [now subst|lia|lia]. }
  rewrite H in F. symmetry in F. unfold EvSteps.arr in F. exact (other_neq _ _ F).
Qed.

Lemma iface_ok A2 : exists E3, ifaceEntries I A2 W N rows = Ok E3 /\ stage3 A2 (push A2 E3) /\ settled E3 (push A2 E3).
Proof.
  pose proof (N_pos t Hc c0 Hv Hin) as NP.
  (* the two directions of an interface *)
  set (ent := fun j0k jk0 jk1 j1k : nat => flat_map (fun q => flat_map (fun r => let row := at2 rows q r in
            let v := (/ 2 * (A2 row jk1 + A2 row j1k))%R in [(row, j0k, v); (row, jk0, v)]) (seq 0 N)) (seq 0 3)).
  assert (EIN : forall j0k jk0 jk1 j1k r x v, In (r, x, v) (ent j0k jk0 jk1 j1k) <-> involved rw l r /\ (x = j0k \/ x = jk0) /\ v = (/ 2 * (A2 r jk1 + A2 r j1k))%R).
  { intros j0k jk0 jk1 j1k r x v. unfold ent. rewrite in_flat_map. split.
    - intros (k & Ik & H). apply in_flat_map in H. destruct H as (i & Ii & H). apply in_seq in Ii, Ik. rewrite (at2_ok t c0 Hv Hin rw k i) in H by lia. cbv zeta in H.
      assert (IR : involved rw l (Rw k i)) by (apply rows_involved; exists k, i; split; [lia|split; [lia|reflexivity]]).
      destruct H as [H|[H|[]]]; injection H as <- <- <-; auto.
    - intros (IR & X & ->). apply rows_involved in IR. destruct IR as (k & i & K & L & ->). exists k. split; [apply in_seq; lia|]. apply in_flat_map. exists i. split; [apply in_seq; lia|]. rewrite (at2_ok t c0 Hv Hin rw k i) by assumption. cbv zeta. destruct X as [-> | ->]; cbn; auto. }
  set (body := fun f : iface =>
    do c <- vget (w_corners W) (plook (w_patches W) (fst (if1 f)));
    do oc <- vget (w_corners W) (plook (w_patches W) (fst (if2 f)));
    do e <- mapM (fun k =>
      do j0k <- (do x <- ev_ix I k c (snd (if1 f)) 0; ev_mo I x (fst (if1 f)));
      do jk0 <- (do x <- ev_ix I k oc (snd (if2 f)) 0; ev_mo I x (fst (if2 f)));
      do jk1 <- (do x <- ev_ix I k c (snd (if1 f)) 1; ev_mo I x (fst (if1 f)));
      do j1k <- (do x <- ev_ix I k oc (snd (if2 f)) 1; ev_mo I x (fst (if2 f)));
      Ok (ent j0k jk0 jk1 j1k)) [2; 3];
    Ok (concat e)).
  assert (BE : forall i, i < N -> exists e, body (ifc i) = Ok e /\ forall r x v, In (r, x, v) e <-> involved rw l r /\ exists k, (k = 2 \/ k = 3) /\ (x = along cl (cor i) (out i) k 0 \/ x = along cl (cor (S i)) (arr (S i)) k 0) /\ v = ivalue A2 r i k).
  { intros i L. pose proof (corner_look t Hc c0 Hv Hin Hp i L) as L1. pose proof (corner_look_next t Hc c0 Hv Hin Hp i L) as L2.
    assert (G : forall c s k o p, p = fst c -> In c l -> on_side (snd c) s = true -> k <= 3 -> o <= 1 -> (do x <- ev_ix I k c s o; ev_mo I x p) = Ok (along cl c s k o)) by (intros c s k o p -> ; apply gcol_ok).
    pose proof (cor_in t Hc c0 Hv Hin i) as I1. pose proof (cor_in t Hc c0 Hv Hin (S i)) as I2. pose proof (out_on t Hc c0 Hv Hin i) as O1. pose proof (arr_on t c0 (S i)) as O2.
    destruct (ifc_spec t Hc c0 Hv Hin Hp i) as (_ & [(A & B)|(A & B)] & _); unfold body; rewrite A, B; cbn [fst snd]; rewrite L1, L2; cbn [bind mapM]; rewrite !G by (try reflexivity; try assumption; lia); cbn [bind];
      eexists; (split; [reflexivity|]); intros r x v; cbn [concat]; rewrite app_nil_r, in_app_iff, !EIN; unfold ivalue; split.
    - intros [(IR & X & V)|(IR & X & V)]; (split; [exact IR|]); [exists 2|exists 3]; auto.
    - intros (IR & k & K & X & V). destruct K as [-> | ->]; [left|right]; auto.
    - intros [(IR & X & V)|(IR & X & V)]; (split; [exact IR|]); [exists 2|exists 3]; (split; [auto|]); (split; [tauto|]); rewrite V; f_equal; apply Rplus_comm.
    - intros (IR & k & K & X & V). destruct K as [-> | ->]; [left|right]; (split; [exact IR|]); (split; [tauto|]); rewrite V; f_equal; apply Rplus_comm. }
  assert (ALL : forall n, n <= N -> exists es, mapM body (map ifc (seq 0 n)) = Ok es /\ forall r x v, In (r, x, v) (concat es) <-> involved rw l r /\ exists i k, i < n /\ (k = 2 \/ k = 3) /\ (x = along cl (cor i) (out i) k 0 \/ x = along cl (cor (S i)) (arr (S i)) k 0) /\ v = ivalue A2 r i k).
  { induction n as [|n IH]; intros L.
    - exists []. split; [reflexivity|]. intros r x v. cbn. split; [tauto|]. intros (_ & i & k & F & _). lia.
    - destruct (IH ltac:(lia)) as (es & E & H). destruct (BE n ltac:(lia)) as (e & Ee & He). exists (es ++ [e]). split.
      + rewrite seq_S, map_app. cbn [map plus].
        assert (MA : forall (u v : list iface) (a b : list entries), mapM body u = Ok a -> mapM body v = Ok b -> mapM body (u ++ v) = Ok (a ++ b)).
        { induction u as [|f u IHu]; intros v a b Ea Eb; [injection Ea as <-; exact Eb|]. cbn [mapM app] in *. destruct (body f); [|discriminate]. cbn [bind] in *. destruct (mapM body u) as [a'|]; [|discriminate]. cbn [bind] in Ea. injection Ea as <-. rewrite (IHu v a' b eq_refl Eb). reflexivity. }
        apply MA; [exact E|]. cbn [mapM]. rewrite Ee. reflexivity.
      + intros r x v. rewrite concat_app, in_app_iff, H. cbn [concat]. rewrite app_nil_r, He. split.
        * intros [(IR & i & k & Q)|(IR & k & Q)]; (split; [exact IR|]); [exists i, k|exists n, k]; intuition lia.
        * intros (IR & i & k & Li & Q). destruct (Nat.eq_dec i n) as [->|NE]; [right; split; [exact IR|]; exists k; exact Q|left; split; [exact IR|]; exists i, k; split; [lia|exact Q]]. }
  destruct (ALL N (le_n _)) as (es & E & IN). exists (concat es). split.
  { change (ifaceEntries I A2 W N rows) with (do es <- mapM body (map ifc (seq 0 N)); Ok (concat es)). rewrite E. reflexivity. }
  assert (UN : forall r x v w, In (r, x, v) (concat es) -> In (r, x, w) (concat es) -> v = w).
  { intros r x v w Iv Iw. apply IN in Iv, Iw. destruct Iv as (_ & i & k & L & K & X & ->). destruct Iw as (_ & i' & k' & L' & K' & X' & ->).
    assert (CI : forall j, In (cor j) l) by (intros; apply cor_in; assumption). assert (OO : forall j, on_side (snd (cor j)) (out j) = true) by (intros; apply out_on; assumption). assert (OA : forall j, on_side (snd (cor j)) (arr j) = true) by (intros; apply arr_on; assumption).
    destruct X as [X|X], X' as [X'|X']; rewrite X in X'; apply along_inj in X'; try apply CI; try apply OO; try apply OA; try lia; destruct X' as (E1 & E2 & E3 & _).
    - apply (cor_inj t Hc c0 Hv Hin) in E1; [|exact L|exact L']. congruence.
    - exfalso. exact (out_not_arr i i' E1 L L' E2).
    - exfalso. exact (out_not_arr i' i (eq_sym E1) L' L (eq_sym E2)).
    - apply next_inj in E1; [|exact L|exact L']. congruence. }
  assert (SET : settled (concat es) (push A2 (concat es))) by (intros r x v Iv; apply push_in; [exact Iv|]; intros w Iw; exact (UN _ _ _ _ Iw Iv)).
  split; [|exact SET]. split.
  - intros r i k IR L K. split; apply SET, IN; (split; [exact IR|]); exists i, k; auto.
  - intros r x H. apply push_out. intros (v & Iv). apply IN in Iv. destruct Iv as (IR & i & k & L & K & X & _). destruct H as [H|H]; [tauto|]. apply H. exists i, k. auto.
Qed.

(** *** All three together *)
Lemma star_pos k j : k < 3 -> j < N -> exists a b, C k j = cl (cor j) a b /\ 1 <= a <= 2 /\ 1 <= b <= 2 /\ near a b.
Proof. intros K J. destruct (C_pos k j K) as (a & b & E & NR & A & B & _). exists a, b. auto. Qed.
Lemma not_centre x : inC x -> ~ inCentre x.
Proof.
  intros (k & j & K & J & ->) (j' & a & b & J' & CE & E). destruct (star_pos k j K J) as (a' & b' & E' & A & B & NR). rewrite E' in E. apply cl_inj in E; [|apply cor_in; assumption|apply cor_in; assumption|exact NR|unfold near, centre in *; lia]. unfold centre in CE. lia.
Qed.
Lemma line_pos x : inLine x -> exists c a b, In c l /\ near a b /\ x = cl c a b /\ ((a = 0 /\ 2 <= b) \/ (b = 0 /\ 2 <= a)).
Proof.
  intros (i & k & L & K & X).
  assert (G : forall c s, In c l -> exists a b, near a b /\ along cl c s k 0 = cl c a b /\ ((a = 0 /\ 2 <= b) \/ (b = 0 /\ 2 <= a))).
  { intros c s Ic. unfold along, near. destruct (side_dir s); [exists 0, k|exists k, 0]; (split; [lia|]); (split; [reflexivity|lia]). }
  destruct X as [-> | ->]; [destruct (G (cor i) (out i)) as (a & b & H); [apply cor_in; assumption|]; exists (cor i), a, b|destruct (G (cor (S i)) (arr (S i))) as (a & b & H); [apply cor_in; assumption|]; exists (cor (S i)), a, b]; (split; [apply cor_in; assumption|tauto]).
Qed.
Lemma not_line x : inC x \/ inCentre x -> ~ inLine x.
Proof.
  intros H HL. destruct (line_pos x HL) as (c & a & b & Ic & NR & E & AB). destruct H as [(k & j & K & J & ->)|(j & a' & b' & J & CE & ->)].
  - destruct (star_pos k j K J) as (a' & b' & E' & A & B & NR'). rewrite E' in E. apply cl_inj in E; [|apply cor_in; assumption|assumption..]. lia.
  - apply cl_inj in E; [|apply cor_in; assumption|assumption|unfold near, centre in *; lia|assumption]. unfold centre in CE. lia.
Qed.
Lemma line1 c s k : In c l -> (k = 2 \/ k = 3) -> ~ inCentre (along cl c s k 1) /\ ~ inLine (along cl c s k 1).
Proof.
  intros Ic K. assert (G : exists a b, along cl c s k 1 = cl c a b /\ near a b /\ ((a = 1 /\ 2 <= b) \/ (b = 1 /\ 2 <= a))).
  { unfold along, near. destruct (side_dir s); [exists 1, k|exists k, 1]; (split; [reflexivity|]); lia. }
  destruct G as (a & b & E & NR & AB). rewrite E. split.
  - intros (j & a' & b' & J & CE & E'). apply cl_inj in E'; [|assumption|apply cor_in; assumption|assumption|unfold near, centre in *; lia]. unfold centre in CE. lia.
  - intros HL. destruct (line_pos _ HL) as (c' & a' & b' & Ic' & NR' & E' & AB'). apply cl_inj in E'; [|assumption..]. lia.
Qed.

(** the change at one vertex *)
Record step (A A' : matrix) : Prop := {
  st_pi : forall Pi, makePi (ev_opt I) (ev_beta I) (ev_ref I) N = Ok Pi -> forall r k j, involved rw l r -> k < 3 -> j < N -> A' r (C k j) = projected A Pi r (j + k * N);
  st_centre : forall r j a b, involved rw l r -> j < N -> centre a b -> A' r (cl (cor j) a b) = A' r (cl (cor j) 1 1);
  st_line : forall r i k, involved rw l r -> i < N -> k = 2 \/ k = 3 -> A' r (along cl (cor i) (out i) k 0) = ivalue A' r i k /\ A' r (along cl (cor (S i)) (arr (S i)) k 0) = ivalue A' r i k;
  st_row : forall r x, ~ involved rw l r -> A' r x = A r x;
  st_col : forall r x, ~ inC x -> ~ inCentre x -> ~ inLine x -> A' r x = A r x }.

Lemma computeEV_ok A E : (ev_opt I = 0 \/ ev_opt I = 1)%Z -> settled E A ->
  exists A' E', computeEV I (A, E) l = Ok (A', E') /\ step A A' /\ settled E' A'.
Proof.
  intros HO SE. destruct (makePi_ok (ev_opt I) (ev_beta I) (ev_ref I) N HO) as (Pi & EP).
  destruct (numbered_ok t Hc c0 Hv Hin Hp (ev_ix I) (ev_mo I) cl) as (xs & EX & EN).
  { intros c s k Ic O K. apply (nb_col _ _ _ _ Hnb l c s k 1 Hl Ic O); lia. }
  destruct (numbered_ok t Hc c0 Hv Hin Hp (ev_ix0 I) (ev_mm I) rw) as (x0 & EX0 & EN0).
  { intros c s k Ic O K. exact (nb_row _ _ _ _ Hnb l c s k Hl Ic O K). }
  unfold computeEV. rewrite (walk_ok t Hc c0 Hv Hin Hp). cbn [bind]. rewrite EX. cbn [bind]. rewrite EX0. cbn [bind]. rewrite EN0. cbn [bind]. rewrite EN. cbn [bind]. rewrite EP. cbn [bind].
  pose proof (stage1_ok A E Pi SE) as (S11 & S12). set (A1 := push A (E ++ piEntries A Pi N rows cols)) in *.
  destruct (centre_ok A1) as (E2 & -> & S21 & S22). cbn [bind]. set (A2 := push A1 E2) in *.
  destruct (iface_ok A2) as (E3 & -> & (S31 & S32) & SE3). cbn [bind]. set (A3 := push A2 E3) in *. clearbody A1 A2 A3.
  exists A3, E3. split; [reflexivity|]. split; [|exact SE3]. split.
  - intros Pi' EP' r k j IR K J. rewrite EP in EP'. injection EP' as <-. assert (HC : inC (C k j)) by (exists k, j; auto).
    rewrite S32 by (right; apply not_line; now left). rewrite S22 by (right; now apply not_centre). now apply S11.
  - intros r j a b IR J CE. assert (HC : inCentre (cl (cor j) a b)) by (exists j, a, b; auto). assert (HC1 : inC (cl (cor j) 1 1)) by (exists 0, j; repeat split; [lia|exact J]).
    rewrite S32 by (right; apply not_line; now right). rewrite S21 by assumption. rewrite S32 by (right; apply not_line; now left). now rewrite S22 by (right; now apply not_centre).
  - intros r i k IR L K. destruct (S31 r i k IR L K) as (Q1 & Q2).
    assert (V : ivalue A3 r i k = ivalue A2 r i k).
    { unfold ivalue. rewrite !S32; [reflexivity|right; apply line1; [apply cor_in; assumption|exact K]..]. }
    rewrite V. auto.
  - intros r x NR. rewrite S32, S22, S12 by tauto. reflexivity.
  - intros r x N1 N2 N3. rewrite S32, S22, S12 by tauto. reflexivity.
Qed.

(** the columns written are those of the specification *)
Lemma step_written A A' r x : step A A' -> ~ written [l] cl x -> A' r x = A r x.
Proof.
  intros S NW. assert (G : forall c a b, In c l -> near a b -> ~ (a = 3 /\ b = 1) -> ~ (a = 1 /\ b = 3) -> x <> cl c a b).
  { intros c a b Ic NR N1 N2 ->. apply NW. exists c, a, b. cbn [concat]. rewrite app_nil_r. auto. }
  apply (st_col _ _ S).
  - intros (k & j & K & J & ->). destruct (star_pos k j K J) as (a & b & E & A1 & B1 & NR). apply (G (cor j) a b); [apply cor_in; assumption|exact NR|lia|lia|exact E].
  - intros (j & a & b & J & CE & ->). apply (G (cor j) a b); [apply cor_in; assumption|unfold near, centre in *; lia|unfold centre in CE; lia|unfold centre in CE; lia|reflexivity].
  - intros HL. destruct (line_pos x HL) as (c & a & b & Ic & NR & -> & AB). apply (G c a b); [exact Ic|exact NR|lia|lia|reflexivity].
Qed.

Lemma CC_star x : x < 3 * N -> starCol cl (cseq t c0) x = C (x / N) (x mod N).
Proof.
  pose proof (N_pos t Hc c0 Hv Hin) as NP. intros X. unfold starCol. rewrite (cs_len t Hc c0 Hv Hin). rewrite (cs_nth t c0) by (apply Nat.mod_upper_bound; lia). reflexivity.
Qed.
Lemma arr_next i : nth_error (cseq t c0) i = Some (cor i, out i) -> i < N.
Proof. intros E. rewrite <- (cs_len t Hc c0 Hv Hin). apply nth_error_Some. congruence. Qed.

End V.
