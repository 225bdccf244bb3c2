(** The refinement keeps the structure of the functions that are not changed. *)
From Coq Require Import Reals Lra.
From Verif Require Import Common ListLemmas TopoModel TopoSpec IndexProofs TopoProofs PiModel PiSpec PiProofs EvModel EvSpec EvWalk EvSteps EvProofs2.
Open Scope nat_scope.

Section T.
Context (t : topo) (Hc : consistent t) (evs : list (list pcorner)) (cl oc rw : pcorner -> nat -> nat -> nat) (tau : nat -> nat -> R) (n : nat) (A T : matrix).
Context (Hi : insertion tau) (Ht : transfer n T evs cl oc tau).
Notation B := (refined n A T).

Lemma refined_at r c a b : In c (concat evs) -> near a b -> B r (cl c a b) = rsum (S a) (fun a' => rsum (S b) (fun b' => tau a a' * tau b b' * A r (oc c a' b'))%R).
Proof. intros Ic NR. unfold refined. apply (Ht c a b Ic NR (A r)). Qed.
Lemma refined_along r c s k o : In c (concat evs) -> k <= 3 -> o <= 1 -> B r (along cl c s k o) = rsum (S k) (fun a' => (tau k a' * rsum (S o) (fun b' => tau o b' * A r (along oc c s a' b')))%R).
Proof.
  intros Ic K O. unfold along. destruct (side_dir s).
  - rewrite refined_at by (assumption || (unfold near; lia)). rewrite rsum_swap. apply rsum_ext. intros a' _. rewrite <- rsum_scal. apply rsum_ext. intros b' _. ring.
  - rewrite refined_at by (assumption || (unfold near; lia)). apply rsum_ext. intros a' _. rewrite <- rsum_scal. apply rsum_ext. intros b' _. ring.
Qed.

Context (c0 : pcorner) (Hv : fst c0 < tnp t) (Hin : vertex_inner t (cls t c0) = true) (Hl : In (cls t c0) evs).
Notation l := (cls t c0).

Lemma on_concat c : In c l -> In c (concat evs). Proof. intros Ic. apply in_concat. exists l. auto. Qed.

Lemma others_refined : others_ok t oc rw l A -> others_ok t cl rw l B.
Proof.
  intros H r NI. destruct (H r NI) as (Z & AV).
  assert (Z2 : forall c s, In c l -> on_side (snd c) s = true -> A r (along oc c s 2 0) = 0%R).
  { intros c s Ic ON. destruct (step_across t Hc c0 Hv Hin (c, s) (conj Ic ON)) as (s' & X & _ & (Ic' & _)). cbn [fst snd] in *.
    rewrite (AV 2 (or_introl eq_refl) c s _ s' Ic X). assert (AL : forall c s, In c l -> A r (along oc c s 2 1) = 0%R) by (intros e q Ie; unfold along; destruct (side_dir q); apply Z; (assumption || lia)). rewrite !AL by assumption. lra. }
  assert (Z3 : forall c a b, In c l -> a + b <= 3 -> a <= 2 -> b <= 2 -> A r (oc c a b) = 0%R).
  { intros c a b Ic L1 L2 L3. destruct a as [|[|[|a]]], b as [|[|[|b]]]; try lia; try (apply Z; (assumption || lia)).
    - pose proof (Z2 c (cside (snd c) 0) Ic (on_side_cside _ _)) as Q. unfold along in Q. rewrite side_dir_cside in Q by lia. exact Q.
    - pose proof (Z2 c (cside (snd c) 1) Ic (on_side_cside _ _)) as Q. unfold along in Q. rewrite side_dir_cside in Q by lia. exact Q. }
  split.
  - intros c a b Ic L1 L2 L3 L4. rewrite refined_at; [|now apply on_concat|unfold near; destruct a as [|[|[|a]]], b as [|[|[|b]]]; lia].
    rewrite (rsum_ext _ _ (fun _ => 0%R)); [rewrite rsum_const; ring|]. intros a' La. rewrite (rsum_ext _ _ (fun _ => 0%R)); [rewrite rsum_const; ring|]. intros b' Lb. rewrite Z3 by (assumption || lia). ring.
  - intros k K c s c' s' Ic X.
    assert (Ic' : In c' l). { apply (cls_closed t Hc c0 c Hv Ic). apply in_cn. apply (across_dnext t Hc) in X. destruct X as (_ & D & _). exists (side_dir s), (side_dir s'). split; [destruct s; cbn; lia|exact D]. }
    rewrite !refined_along by (try (now apply on_concat); lia). rewrite <- rsum_plus, <- rsum_scal. apply rsum_ext. intros a' La.
    assert (AA : A r (along oc c s a' 0) = (/ 2 * (A r (along oc c s a' 1%nat) + A r (along oc c' s' a' 1%nat)))%R /\ A r (along oc c' s' a' 0) = A r (along oc c s a' 0)).
    { destruct (le_lt_dec 2 a') as [G|G].
      - assert (KA : a' = 2 \/ a' = 3) by lia. rewrite (AV a' KA c s c' s' Ic X), (AV a' KA c' s' c s Ic' (across_sym t _ _ _ _ X)). split; [reflexivity|]. f_equal. apply Rplus_comm.
      - assert (AL : forall c s o, In c l -> o <= 1 -> A r (along oc c s a' o) = 0%R) by (intros e q o Ie Oo; unfold along; destruct (side_dir q); apply Z3; (assumption || lia)). rewrite !AL by (assumption || lia). split; lra. }
    destruct AA as (A1 & A2). cbn [rsum]. rewrite A2. pose proof (in_first _ Hi) as T0. pose proof (in_rows _ Hi 1 ltac:(lia)) as T1. cbn [rsum] in T1. 
    rewrite T0. set (x := A r (along oc c s a' 0)) in *. set (y := A r (along oc c s a' 1)) in *. set (z := A r (along oc c' s' a' 1)) in *.
    assert (TT : tau 1 0 = (1 - tau 1 1)%R) by lra. rewrite TT, A1. lra.
Qed.
End T.

(** *** The statements *)
Theorem vertices_pf (I : evin) (evs : list (list pcorner)) (cl rw : pcorner -> nat -> nat -> nat) (n : nat) (A T : matrix) :
  vertices (ev_t I) evs -> numbering I evs cl rw -> evs <> [] -> (ev_opt I = 0 \/ ev_opt I = 1)%Z ->
  (forall l, In l evs -> others_ok (ev_t I) cl rw l (refined n A T)) ->
  exists A', computeEVs I n A T evs = Ok A' /\
    (forall l, In l evs -> exists cs Pi, ring (ev_t I) l cs /\ makePi (ev_opt I) (ev_beta I) (ev_ref I) (length l) = Ok Pi /\
      (forall r, dpatch_at (ev_t I) cl (ev_beta I) (ev_ref I) cs A' r) /\
      (forall r x, x < 3 * length l -> A' r (starCol cl cs x) = papply (3 * length l) Pi (fun y => refined n A T r (starCol cl cs y)) x)) /\
    (forall r x, (forall l, In l evs -> ~ involved rw l r) \/ ~ written evs cl x -> A' r x = refined n A T r x).
Proof. intros V NB NE HO HK. destruct (evs_pf I evs cl rw (vt_top _ _ V) NB HO V n A T NE HK) as (A' & E & G & F). exists A'. split; [exact E|]. split; [exact G|exact F]. Qed.

Theorem unity_pf (I : evin) (evs : list (list pcorner)) (cl rw : pcorner -> nat -> nat -> nat) (n nr nf : nat) (A T A' : matrix) :
  vertices (ev_t I) evs -> numbering I evs cl rw -> evs <> [] -> (ev_opt I = 0 \/ ev_opt I = 1)%Z ->
  (forall l, In l evs -> others_ok (ev_t I) cl rw l (refined n A T)) ->
  (forall c a b, In c (concat evs) -> near a b -> cl c a b < nf) ->
  (forall k, k < n -> colSum nr A k = 1%R) -> (forall c, c < nf -> rsum n (T c) = 1%R) ->
  computeEVs I n A T evs = Ok A' -> forall c, c < nf -> colSum nr A' c = 1%R.
Proof.
  intros V NB NE HO HK HN HA HT EA. destruct (evs_pf I evs cl rw (vt_top _ _ V) NB HO V n A T NE HK) as (A2 & E & G & F). rewrite EA in E. injection E as <-.
  apply (evs_sum I evs cl rw (vt_top _ _ V) NB HO V (refined n A T) A' nr nf G); [intros r x NW; apply F; now right|exact HN|]. intros c C. apply colSum_refined; [exact HA|now apply HT].
Qed.

Theorem refined_pf (t : topo) (evs : list (list pcorner)) (cl oc rw : pcorner -> nat -> nat -> nat) (tau : nat -> nat -> R) (n : nat) (A T : matrix) :
  vertices t evs -> insertion tau -> transfer n T evs cl oc tau ->
  (forall l, In l evs -> others_ok t oc rw l A) -> forall l, In l evs -> others_ok t cl rw l (refined n A T).
Proof.
  intros V HI HT HA l Il. destruct (vt_vertex _ _ V l Il) as (c0 & Hv & EL & Hin). assert (L : l = cls t c0) by (unfold cls; now rewrite EL). specialize (HA l Il).
  rewrite L in *. exact (others_refined t (vt_top _ _ V) evs cl oc rw tau n A T HI HT c0 Hv Hin Il HA).
Qed.
