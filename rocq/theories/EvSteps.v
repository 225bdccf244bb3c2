(** The walk of the model follows the ring; the index arrays. *)
From Coq Require Import Reals.
From Verif Require Import Common ListLemmas TopoModel TopoSpec IndexProofs TopoProofs PiModel PiSpec EvModel EvSpec EvWalk.
Open Scope nat_scope.

Section S.
Context (t : topo) (Hc : consistent t) (c0 : pcorner) (Hv : fst c0 < tnp t) (Hin : vertex_inner t (cls t c0) = true).
Notation l := (cls t c0).
Notation N := (length l).
Notation wd := (wd t c0).
Notation cs := (cseq t c0).
Context (Hp : NoDup (map fst l)).

Definition cor (i : nat) : pcorner := fst (wd i).
Definition out (i : nat) : side := snd (wd i).
Definition arr (i : nat) : side := otherSideAt (cor i) (out i).

Lemma cor_in i : In (cor i) l. Proof. exact (proj1 (wd_good t Hc c0 Hv Hin i)). Qed.
Lemma out_on i : on_side (snd (cor i)) (out i) = true. Proof. exact (proj2 (wd_good t Hc c0 Hv Hin i)). Qed.
Lemma arr_on i : on_side (snd (cor i)) (arr i) = true. Proof. apply other_on. Qed.
Lemma wd_across i : across t (cor i) (out i) (cor (S i)) (arr (S i)).
Proof.
  destruct (step_across t Hc c0 Hv Hin (wd i) (wd_good t Hc c0 Hv Hin i)) as (s' & A & S1 & _). rewrite <- wd_S in *. fold (cor (S i)) in *. fold (out (S i)) in S1.
  fold (cor i) (out i) in A. replace (arr (S i)) with s'; [exact A|]. unfold arr. rewrite S1, other_other; [reflexivity|].
  apply (across_dnext t Hc) in A. tauto.
Qed.
Lemma patch_inj c c' : In c l -> In c' l -> fst c = fst c' -> c = c'.
Proof.
  revert c c'. pose proof Hp as H. revert H. generalize l as l'. clear. intros l' ND c c' I1 I2 E. induction l' as [|x l' IH]; [destruct I1|].
  cbn [map] in ND. apply NoDup_cons_iff in ND. destruct ND as (NI & ND). destruct I1 as [->|I1], I2 as [->|I2].
  - reflexivity.
  - exfalso. apply NI. rewrite E. now apply in_map.
  - exfalso. apply NI. rewrite <- E. now apply in_map.
  - now apply IH.
Qed.
Lemma across_neq c s c' s' : across t c s c' s' -> c <> c'.
Proof. intros A E. subst c'. apply (across_dnext t Hc) in A. destruct A as (_ & D & _). apply (dnext_neq t Hc) in D; [congruence|destruct s; cbn; lia]. Qed.
Lemma patch_neq i : fst (cor i) <> fst (cor (S i)).
Proof. intros E. apply (across_neq _ _ _ _ (wd_across i)). apply patch_inj; [apply cor_in|apply cor_in|exact E]. Qed.

Lemma wd_N : wd N = wd 0. Proof. exact (proj1 (proj2 (walk_ring t Hc c0 Hv Hin))). Qed.
Lemma cor_N : cor N = cor 0. Proof. unfold cor. now rewrite wd_N. Qed.
Lemma out_N : out N = out 0. Proof. unfold out. now rewrite wd_N. Qed.
Lemma arr_N : arr N = arr 0. Proof. unfold arr. now rewrite cor_N, out_N. Qed.
Lemma N_pos : 2 <= N.
Proof.
  assert (NDL : NoDup l) by now apply cls_nodup. pose proof (across_neq _ _ _ _ (wd_across 0)) as Q. pose proof (cor_in 0) as I0. pose proof (cor_in 1) as I1.
  revert Q I0 I1. generalize (cor 0) (cor 1). clear. generalize l. intros [|a [|b l']] c c' Q I0 I1; cbn in *; [tauto| |lia]. destruct I0 as [->|[]], I1 as [->|[]]. congruence.
Qed.
Lemma cor_inj i j : i < N -> j < N -> cor i = cor j -> i = j.
Proof.
  intros Hi Hj E. destruct (walk_ring t Hc c0 Hv Hin) as (_ & _ & ND & LC).
  assert (M : map fst cs = map cor (seq 0 N)) by (unfold cseq; now rewrite map_map). rewrite M in ND.
  rewrite (NoDup_nth _ (cor 0)) in ND. rewrite map_length, seq_length in ND. apply ND; [exact Hi|exact Hj|].
  rewrite !map_nth, !seq_nth by assumption. exact E.
Qed.
Lemma cor_all c : In c l -> exists i, i < N /\ cor i = c.
Proof.
  intros I. destruct (walk_ring t Hc c0 Hv Hin) as ((P & _) & _). assert (J : In c (map fst cs)) by (eapply Permutation_in; [symmetry; exact P|exact I]).
  apply in_map_iff in J. destruct J as (x & <- & J). unfold cseq in J. apply in_map_iff in J. destruct J as (i & <- & J). apply in_seq in J. exists i. split; [lia|reflexivity].
Qed.
Lemma cs_nth i : i < N -> nth_error cs i = Some (cor i, out i).
Proof.
  intros K. unfold cseq. rewrite nth_error_map. rewrite (nth_error_nth' _ 0) by (rewrite seq_length; exact K). rewrite seq_nth by exact K. cbn [option_map]. unfold cor, out. now rewrite <- surjective_pairing.
Qed.
Lemma cs_len : length cs = N. Proof. apply (walk_ring t Hc c0 Hv Hin). Qed.

(** *** One step of the walk *)
Lemma contained c s : on_side c s = true <-> c = nth 0 (contained_corners s) SW \/ c = nth 1 (contained_corners s) SW.
Proof. destruct c, s; cbn; split; intros H; try discriminate; try reflexivity; auto; destruct H; discriminate. Qed.

Lemma findOther_ok i old : findOther l (fst (cor i), arr i) old = Some (cor i).
Proof.
  assert (T : forall c, In c l -> (pc_eqb c (fst (cor i), nth 0 (contained_corners (arr i)) SW) || pc_eqb c (fst (cor i), nth 1 (contained_corners (arr i)) SW) = true <-> c = cor i)).
  { intros c I. rewrite orb_true_iff, !pc_eqb_eq. split.
    - intros H. apply patch_inj; [exact I|apply cor_in|]. now destruct H as [-> | ->].
    - intros ->. pose proof (proj1 (contained _ _) (arr_on i)) as H. destruct (cor i) as [p c]. cbn [fst snd] in *. destruct H as [H|H]; [left|right]; now rewrite H at 1. }
  unfold findOther. cbn [fst snd]. pose proof (cor_in i) as I. revert T I old. generalize l as l'. intros l' T.
  assert (G : forall old, fold_left (fun o c => if pc_eqb c (fst (cor i), nth 0 (contained_corners (arr i)) SW) || pc_eqb c (fst (cor i), nth 1 (contained_corners (arr i)) SW) then Some c else o) l' old = if existsb (pc_eqb (cor i)) l' then Some (cor i) else old).
  { induction l' as [|c l' IH]; intros old; [reflexivity|]. cbn [fold_left existsb]. rewrite IH by (intros; apply T; now right).
    destruct (pc_eqb (cor i) c) eqn:E.
    - apply pc_eqb_eq in E. rewrite (proj2 (T c (or_introl eq_refl)) (eq_sym E)). cbn [orb]. destruct (existsb _ l'); now rewrite ?E.
    - cbn [orb]. destruct (pc_eqb c _ || pc_eqb c _) eqn:Q; [|reflexivity]. apply (T c (or_introl eq_refl)) in Q. subst c. rewrite (proj2 (pc_eqb_eq _ _) eq_refl) in E. discriminate. }
  intros I old. rewrite G. now rewrite (proj2 (existsb_pc (cor i) l') I).
Qed.

Definition ifc (i : nat) : iface := match getInterface t (fst (cor i), out i) with Some f => f | None => mkI (0, West) (0, West) false end.
Lemma ifc_spec i : getInterface t (fst (cor i), out i) = Some (ifc i) /\
  ((if1 (ifc i) = (fst (cor i), out i) /\ if2 (ifc i) = (fst (cor (S i)), arr (S i))) \/
   (if2 (ifc i) = (fst (cor i), out i) /\ if1 (ifc i) = (fst (cor (S i)), arr (S i)))) /\
  imapCorner (ifc i) (cor i) = Ok (cor (S i)).
Proof.
  destruct (wd_across i) as (f & u & F & E1 & E2 & H).
  assert (G : getInterface t (fst (cor i), out i) = Some f) by (apply (getInterface_of t Hc); [exact F|tauto]).
  unfold ifc. rewrite G. split; [reflexivity|]. split; [exact H|].
  pose proof (patch_neq i) as PN. pose proof (out_on i) as ON. unfold imapCorner. destruct H as [(A & B)|(A & B)]; rewrite A, B; cbn [fst snd].
  - rewrite Nat.eqb_refl, ON. cbn [andb]. f_equal. rewrite E1, pos_on_corner_at, <- xorb_assoc, xorb_nilpotent, xorb_false_l, <- E2. now destruct (cor (S i)).
  - rewrite (proj2 (Nat.eqb_neq _ _) PN). cbn [andb]. rewrite Nat.eqb_refl, ON. cbn [andb]. f_equal. rewrite E1, pos_on_corner_at, <- xorb_assoc, xorb_nilpotent, xorb_false_l, <- E2. now destruct (cor (S i)).
Qed.

Lemma ifc_nb i : getNeighbour t (fst (cor i), out i) = Ok (fst (cor (S i)), arr (S i)).
Proof.
  destruct (ifc_spec i) as (G & H & _). unfold getNeighbour. rewrite G. unfold iother. pose proof (patch_neq i) as PN. destruct H as [(A & B)|(A & B)]; rewrite A, B.
  - unfold ps_eqb. cbn [fst snd]. rewrite Nat.eqb_refl. destruct (out i); reflexivity.
  - unfold ps_eqb at 1. cbn [fst snd]. rewrite (proj2 (Nat.eqb_neq _ _) (not_eq_sym PN)). cbn [andb]. unfold ps_eqb. cbn [fst snd]. rewrite Nat.eqb_refl. destruct (out i); reflexivity.
Qed.

Definition wstN (n : nat) : wstate :=
  mkW (cor n) (fst (cor n), out n) (match n with 0 => None | _ => Some (cor n) end) (map (fun i => (fst (cor i), i)) (seq 0 n)) (map cor (seq 0 n)) (map ifc (seq 0 n)).

Lemma pinsert_new n : n < N -> pinsert (map (fun i => (fst (cor i), i)) (seq 0 n)) (fst (cor n)) n = map (fun i => (fst (cor i), i)) (seq 0 (S n)).
Proof.
  intros L. unfold pinsert. rewrite seq_S, map_app. cbn [map plus]. destruct (existsb _ _) eqn:E; [|reflexivity]. exfalso. apply existsb_exists in E. destruct E as (x & I & Q).
  apply in_map_iff in I. destruct I as (i & <- & I). apply in_seq in I. cbn [fst] in Q. apply Nat.eqb_eq in Q. apply patch_inj in Q; [|apply cor_in|apply cor_in]. apply cor_inj in Q; lia.
Qed.

Lemma walkStep_ok n : n < N -> walkStep t l (wstN n) n = Ok (wstN (S n)).
Proof.
  intros L. unfold walkStep, wstN at 1 2 3 4 5. cbn [w_side w_patches w_corners w_ifaces w_other w_corner fst]. rewrite pinsert_new by exact L.
  destruct (ifc_spec n) as (G & _ & _). rewrite G. rewrite ifc_nb. cbn [bind]. rewrite findOther_ok.
  assert (NS : (if ps_eqb (fst (cor (S n)), arr (S n)) (fst (cor (S n)), cside (snd (cor (S n))) 0) then Ok (fst (cor (S n)), cside (snd (cor (S n))) 1)
    else if ps_eqb (fst (cor (S n)), arr (S n)) (fst (cor (S n)), cside (snd (cor (S n))) 1) then Ok (fst (cor (S n)), cside (snd (cor (S n))) 0) else Err) = Ok (fst (cor (S n)), out (S n))).
  { unfold ps_eqb. cbn [fst snd]. rewrite Nat.eqb_refl. cbn [andb]. pose proof (out_on (S n)) as O1. unfold arr, otherSideAt. destruct (cor (S n)) as [p c]. cbn [fst snd] in *. revert O1. destruct c, (out (S n)); cbn; intros; try discriminate; reflexivity. }
  unfold wstN at 1. cbn [w_other]. rewrite NS. cbn [bind]. f_equal. unfold wstN. cbn [w_corners w_ifaces]. rewrite !seq_S, !map_app. reflexivity.
Qed.

Lemma walk_ok : walk t l = Ok (wstN N).
Proof.
  destruct (cornerList_ok t Hc c0 Hv) as (l' & E & _ & HD & _). assert (L : l' = l) by (unfold cls; now rewrite E). subst l'.
  transitivity (foldM (walkStep t l) (seq 0 N) (mkW c0 (fst c0, cside (snd c0) 0) None [] [] [])).
  { unfold walk. clear -HD. destruct l as [|c r]; [discriminate|]. injection HD as ->. reflexivity. }
  assert (S0 : mkW c0 (fst c0, cside (snd c0) 0) None [] [] [] = wstN 0) by reflexivity. rewrite S0.
  assert (G : forall n, n <= N -> foldM (walkStep t l) (seq 0 n) (wstN 0) = Ok (wstN n)).
  { induction n as [|n IH]; intros Ln; [reflexivity|]. rewrite seq_S, foldM_app, IH by lia. cbn [bind foldM plus]. rewrite walkStep_ok by lia. reflexivity. }
  apply G. lia.
Qed.

(** *** Lookup of the position *)
Lemma plook_pos i : i < N -> plook (w_patches (wstN N)) (fst (cor i)) = i.
Proof.
  intros L. unfold plook. cbn [w_patches wstN]. destruct (find _ _) as [e|] eqn:E.
  - apply find_some in E. destruct E as (I & Q). apply in_map_iff in I. destruct I as (j & <- & I). apply in_seq in I. cbn [fst snd] in *. apply Nat.eqb_eq in Q. apply patch_inj in Q; [|apply cor_in|apply cor_in]. apply cor_inj in Q; lia.
  - exfalso. pose proof (find_none _ _ E (fst (cor i), i)) as Q. cbn [fst] in Q. rewrite Nat.eqb_refl in Q. discriminate Q.
    apply in_map_iff. exists i. split; [reflexivity|]. apply in_seq. lia.
Qed.
Lemma plook_next i : i < N -> plook (w_patches (wstN N)) (fst (cor (S i))) = (i + 1) mod N.
Proof.
  intros L. destruct (Nat.eq_dec (S i) N) as [E|E].
  - rewrite E, cor_N, plook_pos by (pose proof N_pos; lia). replace (i + 1) with N by lia. now rewrite Nat.mod_same by (pose proof N_pos; lia).
  - rewrite plook_pos by lia. rewrite Nat.mod_small by lia. lia.
Qed.
Lemma corners_get i : i < N -> vget (w_corners (wstN N)) i = Ok (cor i).
Proof. intros L. unfold vget. cbn [w_corners wstN]. rewrite nth_error_map, (nth_error_nth' _ 0), seq_nth by (rewrite ?seq_length; exact L). reflexivity. Qed.
Lemma corner_look i : i < N -> vget (w_corners (wstN N)) (plook (w_patches (wstN N)) (fst (cor i))) = Ok (cor i).
Proof. intros L. rewrite plook_pos by exact L. now apply corners_get. Qed.
Lemma corner_look_next i : i < N -> vget (w_corners (wstN N)) (plook (w_patches (wstN N)) (fst (cor (S i)))) = Ok (cor (S i)).
Proof.
  intros L. destruct (Nat.eq_dec (S i) N) as [E|E]; [|apply corner_look; lia]. rewrite E, cor_N. apply corner_look. pose proof N_pos. lia.
Qed.

(** *** The index arrays *)
Section X.
Context (ix : nat -> pcorner -> side -> nat -> res nat) (m : nat -> nat -> res nat) (nm : pcorner -> nat -> nat -> nat).
Context (Hix : forall c s k, In c l -> on_side (snd c) s = true -> k = 1 \/ k = 2 -> exists x, ix k c s 1 = Ok x /\ m x (fst c) = Ok (along nm c s k 1)).

Definition getn (x : res nat) : nat := match x with Ok x => x | Err => 0 end.
Lemma ix_get c s k : In c l -> on_side (snd c) s = true -> k = 1 \/ k = 2 -> ix k c s 1 = Ok (getn (ix k c s 1)) /\ m (getn (ix k c s 1)) (fst c) = Ok (along nm c s k 1).
Proof. intros I O K. destruct (Hix c s k I O K) as (x & E & M). rewrite E. cbn. auto. Qed.

Definition X0 (i : nat) : nat := getn (ix 1 (cor i) (out i) 1).
Definition X1 (i : nat) : nat := getn (ix 2 (cor i) (arr i) 1).
Definition X2 (i : nat) : nat := getn (ix 2 (cor i) (out i) 1).

Lemma vset_nth (v : list nat) i x : i < length v -> exists v', vset v i x = Ok v' /\ length v' = length v /\ nth i v' 0 = x /\ forall j, j <> i -> nth j v' 0 = nth j v 0.
Proof.
  intros L. exists (upd v i x). split; [now apply vset_ok|]. revert i L. induction v as [|a v IH]; intros i L; cbn [length] in L; [lia|]. destruct i as [|i]; cbn.
  - split; [reflexivity|]. split; [reflexivity|]. intros [|j] NE; [lia|reflexivity].
  - destruct (IH i ltac:(lia)) as (L1 & E1 & F1). split; [now f_equal|]. split; [exact E1|]. intros [|j] NE; [reflexivity|]. apply F1. lia.
Qed.

Lemma cijs_inv n : n <= N -> exists a b c, foldM (cijStep ix (w_patches (wstN N))) (map (fun i => (cor i, ifc i)) (seq 0 n)) (repeat 0 N, repeat 0 N, repeat 0 N) = Ok (a, b, c) /\
  length a = N /\ length b = N /\ length c = N /\ forall j, j < n -> nth j a 0 = X0 j /\ nth ((j + 1) mod N) b 0 = X1 (S j) /\ nth j c 0 = X2 j.
Proof.
  pose proof N_pos as NP. induction n as [|n IH]; intros L.
  - exists (repeat 0 N), (repeat 0 N), (repeat 0 N). split; [reflexivity|]. rewrite repeat_length. repeat (split; [reflexivity|]). intros j J. lia.
  - destruct (IH ltac:(lia)) as (a & b & c & E & La & Lb & Lc & H). rewrite seq_S, map_app, foldM_app, E. cbn [bind foldM plus map].
    unfold cijStep at 1. destruct (ifc_spec n) as (_ & HS & IM). rewrite IM. cbn [bind].
    assert (SO : sidesOf (ifc n) (cor n) = ((fst (cor n), out n), (fst (cor (S n)), arr (S n)))).
    { unfold sidesOf. pose proof (patch_neq n) as PN. destruct HS as [(A & B)|(A & B)]; rewrite A, B; cbn [fst]; [now rewrite Nat.eqb_refl|now rewrite (proj2 (Nat.eqb_neq _ _) (not_eq_sym PN))]. }
    rewrite SO. cbn [fst snd]. rewrite plook_pos, plook_next by lia.
    rewrite (proj1 (ix_get (cor n) (out n) 1 (cor_in n) (out_on n) (or_introl eq_refl))). fold (X0 n). cbn [bind].
    destruct (vset_nth a n (X0 n) ltac:(lia)) as (a' & EA & LA & NA & FA). rewrite EA. cbn [bind].
    rewrite (proj1 (ix_get (cor (S n)) (arr (S n)) 2 (cor_in (S n)) (arr_on (S n)) (or_intror eq_refl))). fold (X1 (S n)). cbn [bind].
    assert (LM : (n + 1) mod N < N) by (apply Nat.mod_upper_bound; lia).
    destruct (vset_nth b ((n + 1) mod N) (X1 (S n)) ltac:(lia)) as (b' & EB & LB & NB & FB). rewrite EB. cbn [bind].
    rewrite (proj1 (ix_get (cor n) (out n) 2 (cor_in n) (out_on n) (or_intror eq_refl))). fold (X2 n). cbn [bind].
    destruct (vset_nth c n (X2 n) ltac:(lia)) as (c' & EC & LC & NC & FC). rewrite EC. cbn [bind].
    exists a', b', c'. split; [reflexivity|]. split; [lia|]. split; [lia|]. split; [lia|]. intros j J.
    destruct (Nat.eq_dec j n) as [->|NE]; [auto|]. destruct (H j ltac:(lia)) as (H1 & H2 & H3). rewrite FA, FB, FC; auto.
    (* (j+1) mod N <> (n+1) mod N *)
    destruct (Nat.eq_dec (n + 1) N) as [Q|Q]; [rewrite Q, Nat.mod_same by lia; rewrite Nat.mod_small by lia; lia|rewrite !Nat.mod_small by lia; lia].
Qed.

Definition CC (k i : nat) : nat := match k with 0 => nm (cor i) 1 1 | 1 => along nm (cor i) (arr i) 2 1 | _ => along nm (cor i) (out i) 2 1 end.

Lemma combine_map {A B C} (f : A -> B) (g : A -> C) (v : list A) : combine (map f v) (map g v) = map (fun x => (f x, g x)) v.
Proof. induction v as [|x v IH]; [reflexivity|]. cbn. now rewrite IH. Qed.

Lemma cijs_ok : cijs ix (wstN N) N = Ok (map X0 (seq 0 N), map X1 (seq 0 N), map X2 (seq 0 N)).
Proof.
  pose proof N_pos as NP. unfold cijs. cbn [w_corners w_ifaces wstN]. rewrite combine_map. destruct (cijs_inv N (le_n _)) as (a & b & c & E & La & Lb & Lc & H). cbn [wstN w_patches] in *. rewrite E.
  assert (G : forall (v : list nat) (F : nat -> nat), length v = N -> (forall j, j < N -> nth j v 0 = F j) -> v = map F (seq 0 N)).
  { intros v F L Q. apply (nth_ext _ _ 0 (F 0)); [rewrite map_length, seq_length; exact L|]. intros j J. rewrite map_nth, seq_nth by lia. apply Q. lia. }
  f_equal. f_equal; [f_equal|].
  - apply G; [exact La|]. intros j J. apply H. exact J.
  - apply G; [exact Lb|]. intros j J. destruct j as [|j].
    + destruct (H (N - 1) ltac:(lia)) as (_ & Q & _). replace (N - 1 + 1) with N in Q by lia. rewrite Nat.mod_same in Q by lia. rewrite Q. replace (S (N - 1)) with N by lia. unfold X1. now rewrite cor_N, arr_N.
    + destruct (H j ltac:(lia)) as (_ & Q & _). rewrite Nat.mod_small in Q by lia. now replace (j + 1) with (S j) in Q by lia.
  - apply G; [exact Lc|]. intros j J. apply H. exact J.
Qed.

Lemma numbered_ok : exists x, cijs ix (wstN N) N = Ok x /\ numbered3 m (wstN N) x = Ok (map (fun k => map (CC k) (seq 0 N)) (seq 0 3)).
Proof.
  exists (map X0 (seq 0 N), map X1 (seq 0 N), map X2 (seq 0 N)). split; [apply cijs_ok|]. unfold numbered3.
  assert (G : forall (X : nat -> nat) k, (forall i, m (X i) (fst (cor i)) = Ok (CC k i)) -> numbered m (wstN N) (map X (seq 0 N)) = Ok (map (CC k) (seq 0 N))).
  { intros X k H. unfold numbered. cbn [w_corners wstN]. rewrite combine_map. rewrite (mapM_ok _ (fun ci => getn (m (snd ci) (fst (fst ci))))).
    - rewrite map_map. f_equal. apply map_ext. intros i. cbn [fst snd]. now rewrite H.
    - intros x I. apply in_map_iff in I. destruct I as (i & <- & _). cbn [fst snd]. now rewrite H. }
  cbn [mapM]. rewrite (G X0 0), (G X1 1), (G X2 2); [reflexivity| | |]; intros i.
  - destruct (ix_get (cor i) (out i) 2 (cor_in i) (out_on i) (or_intror eq_refl)) as (_ & Q). exact Q.
  - destruct (ix_get (cor i) (arr i) 2 (cor_in i) (arr_on i) (or_intror eq_refl)) as (_ & Q). exact Q.
  - destruct (ix_get (cor i) (out i) 1 (cor_in i) (out_on i) (or_introl eq_refl)) as (_ & Q). unfold X0. rewrite Q. unfold along, CC. now destruct (side_dir (out i)).
Qed.
Lemma at2_ok k i : k < 3 -> i < N -> at2 (map (fun k => map (CC k) (seq 0 N)) (seq 0 3)) k i = CC k i.
Proof.
  intros K L. unfold at2.
  assert (E : nth k (map (fun k => map (CC k) (seq 0 N)) (seq 0 3)) [] = map (CC k) (seq 0 N)) by (destruct k as [|[|[|k]]]; [reflexivity..|lia]). rewrite E.
  rewrite (nth_indep _ 0 (CC k 0)) by (rewrite map_length, seq_length; exact L). now rewrite map_nth, seq_nth by exact L.
Qed.
End X.
End S.
