(** Proofs for C74: bases that match are left as they are. *)
From Coq Require Import Sorting.Sorted ZifyBool.
From Verif Require Import Common ListLemmas TopoModel TopoSpec IndexProofs TopoProofs HbModel HbSpec HbProofs HbProofs2 HbProofs3.

Lemma pside_lt t ps f : consistent t -> In f (tif t) -> if1 f = ps \/ if2 f = ps -> fst ps < tnp t.
Proof.
  intros (P & _) F E. assert (Q : In ps (all_sides (tnp t))). { apply (Permutation_in _ P). apply in_or_app. left. unfold iface_sides. apply in_flat_map. exists f. split; [exact F|]. cbn. destruct E as [-> | ->]; auto. }
  unfold all_sides in Q. apply in_flat_map in Q. destruct Q as (x & X & Q). apply in_seq in X. apply in_map_iff in Q. destruct Q as (y & Q & _). rewrite <- Q. cbn [fst]. lia.
Qed.
Lemma getInterface_joins t p s f : getInterface t (p, s) = Some f -> In f (tif t) /\ exists q s', iother f (p, s) = Ok (q, s') /\ joins f p s q s'.
Proof.
  intros G. apply getInterface_some in G. destruct G as (F & J). split; [exact F|]. unfold iother. destruct (ps_eqb (if1 f) (p, s)) eqn:E1.
  - apply ps_eqb_eq in E1. destruct (if2 f) as (q, s') eqn:E2. exists q, s'. split; [reflexivity|]. left. auto.
  - destruct J as [J|J]; [apply ps_eqb_eq in J; congruence|]. rewrite (proj2 (ps_eqb_eq _ _) J). destruct (if1 f) as (q, s') eqn:E2. exists q, s'. split; [reflexivity|]. right. auto.
Qed.

Lemma same_active_sym h s h' s' fl : (forall l, side_count h l s = side_count h' l s') -> same_active h s h' s' fl -> same_active h' s' h s fl.
Proof.
  intros C H l k L K. rewrite <- C in *. pose proof (H l (opposite fl (side_count h l s) k) L (opposite_lt fl _ k K)) as Q. rewrite opposite_inv in Q by exact K. symmetry. exact Q.
Qed.

Lemma matchLevel_same h n incr s sn fl x l : 1 <= l -> (1 <= hpu h) -> (1 <= hpv h) -> (forall l, side_count h l s = side_count n l sn) -> same_active h s n sn fl -> matchLevel h n incr s sn fl x l = Ok x.
Proof.
  intros L PU PV C S0. unfold matchLevel. cbv zeta. change (if fl then rev (activeBoundary n l sn) else activeBoundary n l sn) with (nbr_flags n l sn fl).
  rewrite activeBoundary_length, nbr_flags_length, C, Nat.leb_refl. cbn [ensure bind].
  assert (E : forall k, k < side_count n l sn -> nth k (nbr_flags n l sn fl) false = nth k (activeBoundary h l s) false).
  { intros k K. apply Bool.eq_iff_eq_true. rewrite nbr_flags_nth by assumption. rewrite activeBoundary_nth by (rewrite ?C; assumption). specialize (S0 l k L ltac:(rewrite C; exact K)). rewrite C in S0. symmetry. exact S0. }
  set (r := map _ _). set (m := existsb _ _).
  assert (Mf : m = false). { unfold m. apply Bool.not_true_iff_false. intros Q. apply existsb_exists in Q. destruct Q as (k & K & Q). apply in_seq in K. rewrite E in Q by lia. destruct (nth k (activeBoundary h l s) false); discriminate Q. }
  rewrite Mf. cbn [mark].
  assert (NE : r <> []). { intros Q. apply (f_equal (@length bool)) in Q. unfold r in Q. rewrite map_length, seq_length, <- C in Q. cbn [length] in Q. destruct s; cbn [side_count] in Q; lia. }
  destruct (scan_ok r NE) as (R & (HR & _) & Sc). rewrite Sc.
  assert (R0 : R = []). { destruct R as [|(a, b) R]; [reflexivity|]. exfalso. assert (Q : is_run r a b) by (apply HR; left; reflexivity). destruct Q as (Q & T & _). specialize (T a ltac:(lia)). unfold r in T, Q. rewrite map_length, seq_length in Q. rewrite nth_map_seq in T by lia. rewrite E in T by lia. destruct (nth a (activeBoundary h l s) false); discriminate T. }
  rewrite R0. cbn [foldM]. destruct x; reflexivity.
Qed.

Section DONE.
Context (t : topo) (incr : nat) (bs : list hbasis).
Hypothesis IN : hb_input t incr bs.
Hypothesis MT : matched t bs.

Lemma matchNeighbours_same p : p < length bs -> matchNeighbours t bs incr p = Ok ([], []).
Proof.
  intros L. unfold matchNeighbours. destruct (vget_lt bs p L) as (h & V). rewrite V. cbn [bind]. destruct (vget_nth_hb bs p h V) as (_ & N).
  assert (Hh : In h bs) by (rewrite <- N; apply nth_In; exact L). destruct (hi_degree _ _ _ IN h Hh) as (PU & PV).
  set (step := fun x s => _).
  assert (Q : forall s f, getInterface t (p, s) = Some f -> exists q s' n, iother f (p, s) = Ok (q, s') /\ vget bs q = Ok n /\ (forall l, side_count h l s = side_count n l s') /\ same_active h s n s' (ifflip f)).
  { intros s f G. apply getInterface_joins in G. destruct G as (F & q & s' & Io & J). assert (Lq : q < length bs). { rewrite <- (hi_np _ _ _ IN). change q with (fst (q, s')). apply (pside_lt t (q, s') f (hi_topo _ _ _ IN) F). destruct J as [(_ & J)|(_ & J)]; auto. }
    destruct (vget_lt bs q Lq) as (n & Vn). destruct (vget_nth_hb bs q n Vn) as (_ & Nn). pose proof (fun l => joins_count t incr bs IN f p s q s' l F J) as C. rewrite N, Nn in C.
    exists q, s', n. split; [exact Io|]. split; [exact Vn|]. split; [exact C|]. pose proof (MT f F) as S0. unfold at_iface in S0. destruct J as [(E1 & E2)|(E1 & E2)]; rewrite E1, E2 in S0; cbn [fst snd] in S0; rewrite N, Nn in S0; [exact S0|]. apply same_active_sym; [intros l; symmetry; apply C|exact S0]. }
  assert (St : forall ss x, foldM step ss x = Ok x).
  { induction ss as [|s ss IH]; intros x; [reflexivity|]. cbn [foldM].
    assert (E : step x s = Ok x).
    { unfold step. destruct (getInterface t (p, s)) as [f|] eqn:G; [|reflexivity]. destruct (Q s f G) as (q & s' & n & Io & Vn & C & Sa). rewrite Io. cbn [bind fst snd]. rewrite Vn. cbn [bind].
      assert (Hn : forall ls, (forall l, In l ls -> 1 <= l) -> foldM (matchLevel h n incr s s' (ifflip f)) ls x = Ok x).
      { induction ls as [|l ls IHl]; intros Ls; [reflexivity|]. cbn [foldM]. rewrite matchLevel_same by (auto; apply Ls; left; reflexivity). cbn [bind]. apply IHl. intros l' Hl'. apply Ls. right. exact Hl'. }
      apply Hn. intros l Hl. apply in_seq in Hl. lia. }
    rewrite E. cbn [bind]. apply IH. }
  rewrite St. cbn [bind fst snd].
  rewrite (mapM_ok _ (fun s => match getInterface t (p, s) with None => None | Some f => match iother f (p, s) with Ok ps => Some (fst ps) | Err => None end end)).
  - cbn. reflexivity.
  - intros s _. destruct (getInterface t (p, s)) as [f|] eqn:G; [|reflexivity]. destruct (Q s f G) as (q & s' & n & Io & _). rewrite Io. reflexivity.
Qed.

Lemma upd_nth_same (l : list hbasis) p : upd l p (nth p l nobasis) = l.
Proof. revert p. induction l as [|a l IH]; intros [|p]; cbn [upd nth]; try reflexivity. rewrite IH. reflexivity. Qed.

Hypothesis SU : forall p, p < length bs -> suitable t incr p (nth p bs nobasis).
Lemma repairLoop_done todo : todo <> [] -> (forall p, In p todo -> p < length bs) -> repairLoop (length todo) t incr bs todo = Ok bs.
Proof.
  induction todo as [|p todo IH]; intros NE Lt; [congruence|]. cbn [length]. rewrite repairLoop_round. pose proof (Lt p (or_introl eq_refl)) as L.
  assert (E : repairRound t incr bs p todo = Ok (bs, todo)).
  { unfold repairRound. destruct (vget_lt bs p L) as (h & V). rewrite V. cbn [bind]. destruct (vget_nth_hb bs p h V) as (_ & N). assert (Hh : In h bs) by (rewrite <- N; apply nth_In; exact L).
    destruct (hi_degree _ _ _ IN h Hh) as (PU & PV). destruct (hi_size _ _ _ IN h Hh) as (NU & NV).
    rewrite (proj2 (innerBoxes_suitable t incr p h PU PV NU NV)) by (rewrite <- N; apply SU; exact L). rewrite matchNeighbours_same by exact L. cbn [bind fst snd fold_left].
    replace (refineElements h []) with (nth p bs nobasis) by (rewrite N; unfold refineElements; rewrite app_nil_r; destruct h; reflexivity). rewrite vset_ok by exact L. cbn [bind]. rewrite upd_nth_same. reflexivity. }
  rewrite E. cbn [bind fst snd]. destruct todo as [|q todo]; [reflexivity|]. apply IH; [congruence|]. intros x Hx. apply Lt. right. exact Hx.
Qed.
End DONE.
