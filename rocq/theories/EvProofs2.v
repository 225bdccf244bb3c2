(** All vertices: structure at every vertex, frame, partition of unity. *)
From Coq Require Import Reals Lra ZifyBool.
From Verif Require Import Common ListLemmas TopoModel TopoSpec IndexProofs TopoProofs PiModel PiSpec PiProofs EvModel EvSpec EvWalk EvSteps EvProofs.
Open Scope nat_scope.

(** the matrices agree in the columns near the vertex *)
Definition agree (cl : pcorner -> nat -> nat -> nat) (l : list pcorner) (A A' : matrix) : Prop := forall r c a b, In c l -> near a b -> A' r (cl c a b) = A r (cl c a b).
Lemma agree_along cl l A A' r c s k o : agree cl l A A' -> In c l -> k <= 3 -> o <= 1 -> A' r (along cl c s k o) = A r (along cl c s k o).
Proof. intros G Ic K O. unfold along. destruct (side_dir s); apply G; unfold near; lia || assumption. Qed.

Section G.
Context (I : evin) (evs : list (list pcorner)) (cl rw : pcorner -> nat -> nat -> nat).
Notation t := (ev_t I).
Context (Hc : consistent t) (Hnb : numbering I evs cl rw) (HO : (ev_opt I = 0 \/ ev_opt I = 1)%Z).

Definition good (l : list pcorner) (B A' : matrix) : Prop := exists cs Pi, ring t l cs /\ makePi (ev_opt I) (ev_beta I) (ev_ref I) (length l) = Ok Pi /\
  (forall r, dpatch_at t cl (ev_beta I) (ev_ref I) cs A' r) /\
  (forall r x, x < 3 * length l -> A' r (starCol cl cs x) = papply (3 * length l) Pi (fun y => B r (starCol cl cs y)) x).

Lemma ring_across l cs i c s c' s' : ring t l cs -> nth_error cs i = Some (c, s) -> across t c s c' s' -> In c l /\ In c' l.
Proof.
  intros (P & R) E A. split.
  - eapply Permutation_in; [exact P|]. apply in_map_iff. exists (c, s). split; [reflexivity|]. now apply nth_error_In in E.
  - destruct (R i (c, s) E) as (_ & y & s2 & Ey & A2 & _). cbn [fst snd] in A2. destruct (across_det t Hc _ _ _ _ _ _ A A2) as (-> & _).
    eapply Permutation_in; [exact P|]. apply in_map. now apply nth_error_In in Ey.
Qed.

Lemma agree_dpatch l cs A A' r : ring t l cs -> agree cl l A A' -> dpatch_at t cl (ev_beta I) (ev_ref I) cs A r -> dpatch_at t cl (ev_beta I) (ev_ref I) cs A' r.
Proof.
  intros RG G (m & a & d & H). exists m, a, d. intros i c s c' s' E X phi t1 t2. destruct (ring_across l cs i c s c' s' RG E X) as (Ic & Ic'). specialize (H i c s c' s' E X).
  cbv zeta in H. fold phi t1 t2 in H. destruct H as (H1 & H2 & H3 & H4 & H5 & H6 & H7).
  repeat (rewrite (G r c) by (assumption || (unfold near; lia))). rewrite !(agree_along cl l A A' r) by (assumption || lia).
  repeat (split; [assumption|]). intros k K. rewrite !(agree_along cl l A A' r) by (assumption || lia). now apply H7.
Qed.

Lemma agree_star l cs A A' r x : ring t l cs -> l <> [] -> agree cl l A A' -> x < 3 * length l -> A' r (starCol cl cs x) = A r (starCol cl cs x).
Proof.
  intros (P & R) NE G X. unfold starCol. assert (LC : length cs = length l) by (rewrite <- (map_length fst); now apply Permutation_length). rewrite LC.
  assert (LP : 0 < length l) by (destruct l; [congruence|cbn; lia]).
  assert (LM : x mod length l < length cs) by (rewrite LC; apply Nat.mod_upper_bound; lia).
  destruct (nth_error cs (x mod length l)) as [[c s]|] eqn:E; [|apply nth_error_None in E; lia].
  assert (Ic : In c l) by (eapply Permutation_in; [exact P|]; apply in_map_iff; exists (c, s); split; [reflexivity|now apply nth_error_In in E]).
  destruct (x / length l) as [|[|q]]; [apply G; [exact Ic|unfold near; lia]| |]; apply (agree_along cl l A A'); (assumption || lia).
Qed.

Lemma agree_good l B A A' : l <> [] -> agree cl l A A' -> good l B A -> good l B A'.
Proof.
  intros NE G (cs & Pi & RG & EP & D & S). exists cs, Pi. split; [exact RG|]. split; [exact EP|]. split.
  - intros r. now apply (agree_dpatch l cs A).
  - intros r x X. rewrite (agree_star l cs A A') by assumption. now apply S.
Qed.

Section One.
Context (c0 : pcorner) (Hv : fst c0 < tnp t) (Hin : vertex_inner t (cls t c0) = true).
Notation l := (cls t c0).
Notation N := (length l).
Context (Hp : NoDup (map fst l)) (Hl : In l evs).

Lemma across_in c s c' s' : In c l -> across t c s c' s' -> In c' l.
Proof.
  intros Ic A. apply (cls_closed t Hc c0 c Hv Ic). apply in_cn. apply (across_dnext t Hc) in A. destruct A as (_ & D & _). exists (side_dir s), (side_dir s'). split; [destruct s; cbn; lia|exact D].
Qed.

Lemma agree_others A A' : agree cl l A A' -> others_ok t cl rw l A -> others_ok t cl rw l A'.
Proof.
  intros G H r NI. destruct (H r NI) as (H1 & H2). split.
  - intros c a b Ic H3 H4 H5 H6. rewrite G; [now apply H1|exact Ic|]. unfold near. destruct a as [|[|[|a]]], b as [|[|[|b]]]; cbn in H3, H6; lia.
  - intros k K c s c' s' Ic X. pose proof (across_in c s c' s' Ic X) as Ic'. rewrite !(agree_along cl l A A') by (assumption || lia). now apply (H2 k K c s c' s').
Qed.

Lemma star_index x : x < 3 * N -> x / N < 3 /\ x mod N < N /\ x mod N + (x / N) * N = x.
Proof.
  intros X. pose proof (N_pos t Hc c0 Hv Hin) as NP. split; [apply Nat.div_lt_upper_bound; lia|]. split; [apply Nat.mod_upper_bound; lia|]. pose proof (Nat.div_mod x N ltac:(lia)). lia.
Qed.

Lemma star_other r A : others_ok t cl rw l A -> ~ involved rw l r -> forall k j, k < 3 -> j < N -> A r (CC t c0 cl k j) = 0%R.
Proof.
  intros H NI k j K J. destruct (H r NI) as (H1 & _).
  assert (Ic : In (cor t c0 j) l) by (apply cor_in; assumption).
  destruct k as [|[|[|k]]]; [| | |lia]; cbn [CC]; unfold along; repeat destruct (side_dir _); apply H1; (assumption || lia).
Qed.

Lemma papply_zero n M x r : (forall c, c < n -> x c = 0%R) -> papply n M x r = 0%R.
Proof. intros H. unfold papply. rewrite (rsum_ext _ _ (fun _ => 0%R)); [|intros k K; rewrite H by exact K; ring]. rewrite rsum_const. ring. Qed.

Lemma step_good A A' : step I cl rw c0 A A' -> others_ok t cl rw l A -> good l A A'.
Proof.
  intros SS HOK. destruct (makePi_ok (ev_opt I) (ev_beta I) (ev_ref I) N HO) as (Pi & EP). pose proof (N_pos t Hc c0 Hv Hin) as NP.
  exists (cseq t c0), Pi. split; [exact (proj1 (walk_ring t Hc c0 Hv Hin))|]. split; [exact EP|].
  assert (DEC : forall r, involved rw l r \/ ~ involved rw l r).
  { intros r. unfold involved. clear. induction l as [|c l' IH]; [right; intros (c & [] & _)|].
    destruct IH as [(c' & Ic & H)|NH]; [left; exists c'; split; [now right|exact H]|].
    destruct (Nat.eq_dec r (rw c 1 1)) as [E|E]; [left; exists c; split; [now left|auto]|].
    destruct (Nat.eq_dec r (rw c 1 2)) as [E2|E2]; [left; exists c; split; [now left|auto]|].
    destruct (Nat.eq_dec r (rw c 2 1)) as [E3|E3]; [left; exists c; split; [now left|auto]|].
    right. intros (c' & [<-|Ic] & H); [tauto|]. apply NH. exists c'. auto. }
  assert (ST : forall r k j, k < 3 -> j < N -> A' r (CC t c0 cl k j) = projected I cl c0 A Pi r (j + k * N)).
  { intros r k j K J. destruct (DEC r) as [IR|NI]; [now apply (st_pi _ _ _ _ _ _ SS Pi EP)|]. rewrite (st_row _ _ _ _ _ _ SS r _ NI). rewrite (star_other r A HOK NI k j K J).
    unfold projected. symmetry. apply papply_zero. intros y Y. destruct (star_index y Y) as (Y1 & Y2 & _). now apply star_other. }
  split.
  - intros r. destruct (DEC r) as [IR|NI].
    + destruct (projected_plane (ev_opt I) (ev_beta I) (ev_ref I) N Pi NP EP (fun y => A r (CC t c0 cl (y / N) (y mod N)))) as (m & a & d & PP).
      exists m, a, d. intros i c s c' s' E X phi t1 t2. assert (Li : i < N) by (rewrite <- (cs_len t Hc c0 Hv Hin); apply nth_error_Some; congruence).
      rewrite (cs_nth t c0 i Li) in E. injection E as <- <-. destruct (across_det t Hc _ _ _ _ _ _ X (wd_across t Hc c0 Hv Hin i)) as (-> & ->).
      destruct (PP i Li) as (P0 & _ & P2). cbv zeta in P2.
      assert (M : A' r (cl (cor t c0 i) 1 1) = m) by (pose proof (ST r 0 i ltac:(lia) Li) as Q; cbn [CC] in Q; rewrite Q; unfold projected; replace (i + 0 * N) with i by lia; exact P0).
      pose proof (st_centre _ _ _ _ _ _ SS r i) as SC. rewrite (SC 0 0), (SC 0 1), (SC 1 0) by (assumption || (unfold centre; lia)). rewrite M. unfold t2, t1, phi. rewrite (cs_len t Hc c0 Hv Hin).
      do 4 (split; [reflexivity|]). split; [|split].
      * pose proof (ST r 2 i ltac:(lia) Li) as Q. cbn [CC] in Q. rewrite Q. unfold projected. replace (i + 2 * N) with (2 * N + i) by lia. exact P2.
      * destruct (Nat.eq_dec (S i) N) as [QN|QN].
        -- rewrite QN, (cor_N t Hc c0 Hv Hin), (arr_N t Hc c0 Hv Hin). pose proof (ST r 1 0 ltac:(lia) ltac:(lia)) as Q. cbn [CC] in Q. rewrite Q. unfold projected. replace (0 + 1 * N) with (N + 0) by lia.
           destruct (PP 0 ltac:(lia)) as (_ & P1 & _). cbv zeta in P1. rewrite P1. cbn [INR].
           replace (INR N * (2 * PI / INR N))%R with (2 * PI)%R by (field; apply not_0_INR; lia). rewrite cos_2PI, sin_2PI, Rmult_0_l, cos_0, sin_0. reflexivity.
        -- pose proof (ST r 1 (S i) ltac:(lia) ltac:(lia)) as Q. cbn [CC] in Q. rewrite Q. unfold projected. replace (S i + 1 * N) with (N + S i) by lia. destruct (PP (S i) ltac:(lia)) as (_ & P1 & _). exact P1.
      * intros k K. pose proof (st_line _ _ _ _ _ _ SS r i k IR Li K) as (Q1 & Q2). split; [exact Q1|exact Q2].
    + exists 0%R, 0%R, 0%R. intros i c s c' s' E X phi t1 t2. destruct (ring_across l (cseq t c0) i c s c' s') as (Ic & Ic'); [exact (proj1 (walk_ring t Hc c0 Hv Hin))|exact E|exact X|].
      destruct (HOK r NI) as (H1 & H2). rewrite !(st_row _ _ _ _ _ _ SS r _ NI).
      assert (AL : forall c s, In c l -> A r (along cl c s 2 1) = 0%R) by (intros e q Ie; unfold along; destruct (side_dir q); apply H1; (assumption || lia)).
      rewrite !H1 by (assumption || lia). rewrite !AL by assumption. repeat (split; [lra|]). intros k K. rewrite !(st_row _ _ _ _ _ _ SS r _ NI). split; [now apply (H2 k K c s c' s')|].
      rewrite (H2 k K c' s' c s Ic' (across_sym t _ _ _ _ X)). f_equal. apply Rplus_comm.
  - intros r x X. destruct (star_index x X) as (X1 & X2 & X3). rewrite (CC_star I cl Hc c0 Hv Hin x) by exact X. rewrite ST by assumption. rewrite X3. unfold projected. apply papply_ext. intros y Y. now rewrite (CC_star I cl Hc c0 Hv Hin y) by exact Y.
Qed.
End One.

Lemma written_cons l post x : written (l :: post) cl x <-> written [l] cl x \/ written post cl x.
Proof.
  unfold written. cbn [concat]. rewrite app_nil_r. split.
  - intros (c & a & b & Ic & H). apply in_app_iff in Ic. destruct Ic as [Ic|Ic]; [left|right]; exists c, a, b; auto.
  - intros [(c & a & b & Ic & H)|(c & a & b & Ic & H)]; exists c, a, b; (split; [apply in_app_iff; auto|exact H]).
Qed.

Context (Hvt : vertices t evs).

Lemma written_other post c a b : incl (concat post) (concat evs) -> In c (concat evs) -> ~ In c (concat post) -> near a b -> ~ written post cl (cl c a b).
Proof.
  intros HI Ic NI NR (c' & a' & b' & Ic' & NR' & _ & _ & E). apply (nb_inj _ _ _ _ Hnb) in E; [|exact Ic|apply HI; exact Ic'|exact NR|exact NR']. destruct E as (<- & _). tauto.
Qed.

Lemma concat_incl (post : list (list pcorner)) : incl post evs -> incl (concat post) (concat evs).
Proof. intros H c Ic. apply in_concat in Ic. destruct Ic as (l & Il & Ic). apply in_concat. exists l. auto. Qed.

Lemma all_vertices B : (forall l, In l evs -> others_ok t cl rw l B) -> forall post A E, incl post evs -> NoDup (concat post) -> settled E A -> (forall l, In l post -> agree cl l B A) ->
  exists A' E', foldM (computeEV I) post (A, E) = Ok (A', E') /\ (forall l, In l post -> good l B A') /\
    (forall r x, (forall l, In l post -> ~ involved rw l r) \/ ~ written post cl x -> A' r x = A r x).
Proof.
  intros HOK post. induction post as [|l post IH]; intros A E HI ND SE AG.
  - exists A, E. split; [reflexivity|]. split; [intros l []|reflexivity].
  - destruct (vt_vertex _ _ Hvt l (HI l (or_introl eq_refl))) as (c0 & Hv & EL & Hin). assert (L : l = cls t c0) by (unfold cls; now rewrite EL).
    assert (Hl : In l evs) by (apply HI; now left). pose proof (vt_patches _ _ Hvt l Hl) as Hp.
    cbn [concat] in ND. apply NoDup_app_iff in ND. destruct ND as (ND1 & ND2 & DJ).
    assert (HP : incl (concat post) (concat evs)) by (apply concat_incl; intros q Iq; apply HI; now right).
    assert (HL : forall c, In c l -> In c (concat evs)) by (intros c Ic; apply in_concat; exists l; auto).
    assert (LNE : l <> []). { rewrite L. intros Q. pose proof (cls_self t Hc c0 Hv) as IS. rewrite Q in IS. destruct IS. }
    rewrite L in Hin, Hp, Hl. destruct (computeEV_ok I evs cl rw Hc Hnb c0 Hv Hin Hp Hl A E HO SE) as (A1 & E1 & EV & ST & SE1). rewrite <- L in *.
    assert (FR : forall r x, ~ involved rw l r \/ ~ written [l] cl x -> A1 r x = A r x).
    { intros r x [NI|NW]; [rewrite L in NI; exact (st_row _ _ _ _ _ _ ST r x NI)|]. rewrite L in NW, Hin. exact (step_written I cl rw Hc c0 Hv Hin A A1 r x ST NW). }
    assert (G1 : good l B A1).
    { assert (GA : good l A A1). { rewrite L. rewrite L in Hin, Hp, Hl. apply step_good; try assumption. rewrite <- L. rewrite L. apply (agree_others c0 Hv Hin B); [rewrite <- L; apply AG; now left|]. rewrite <- L. apply HOK. apply HI. now left. }
      destruct GA as (cs & Pi & RG & EP & D & SS). exists cs, Pi. split; [exact RG|]. split; [exact EP|]. split; [exact D|]. intros r x X. rewrite SS by exact X. apply papply_ext. intros y Y.
      apply (agree_star l cs B A); [exact RG|exact LNE|apply AG; now left|exact Y]. }
    destruct (IH A1 E1) as (A' & E' & F & GD & FR2).
    + intros q Iq. apply HI. now right.
    + exact ND2.
    + exact SE1.
    + intros q Iq r c a b Ic NR. rewrite FR; [now apply (AG q (or_intror Iq))|]. right. apply (written_other [l]); [cbn [concat]; rewrite app_nil_r; exact HL|apply HP, in_concat; exists q; auto| |exact NR].
      cbn [concat]. rewrite app_nil_r. intros Il. apply (DJ c Il). apply in_concat. exists q. auto.
    + exists A', E'. split; [cbn [foldM]; rewrite EV; exact F|]. split.
      * intros q [<-|Iq]; [|now apply GD]. apply (agree_good l B A1); [exact LNE| |exact G1]. intros r c a b Ic NR. apply FR2. right. apply (written_other post); [exact HP|now apply HL|intros Ip; exact (DJ c Ic Ip)|exact NR].
      * intros r x H. rewrite FR2, FR; [reflexivity| |]; destruct H as [H|H].
        -- left. apply H. now left.
        -- right. intros Q. apply H. apply written_cons. now left.
        -- left. intros q Iq. apply H. now right.
        -- right. intros Q. apply H. apply written_cons. now right.
Qed.

Theorem evs_pf n A T : evs <> [] -> (forall l, In l evs -> others_ok t cl rw l (refined n A T)) ->
  exists A', computeEVs I n A T evs = Ok A' /\ (forall l, In l evs -> good l (refined n A T) A') /\
    (forall r x, (forall l, In l evs -> ~ involved rw l r) \/ ~ written evs cl x -> A' r x = refined n A T r x).
Proof.
  intros NE HOK. destruct (all_vertices (refined n A T) HOK evs (refined n A T) []) as (A' & E' & F & G & FR).
  - apply incl_refl.
  - apply (vt_once _ _ Hvt).
  - intros r c v [].
  - intros l Il r c a b _ _. reflexivity.
  - exists A'. split; [|auto]. transitivity (do st <- foldM (computeEV I) evs (refined n A T, []); Ok (fst st)); [clear -NE; unfold computeEVs; destruct evs; [congruence|reflexivity]|]. exact (f_equal (fun z => do st <- z; Ok (fst st)) F).
Qed.

Lemma colSum_refined nr n A T c : (forall k, k < n -> colSum nr A k = 1%R) -> rsum n (T c) = 1%R -> colSum nr (refined n A T) c = 1%R.
Proof.
  intros HA HT. unfold colSum, refined. rewrite rsum_swap. rewrite <- HT. apply rsum_ext. intros k K. rewrite (rsum_ext _ _ (fun r => (T c k * A r k)%R)) by (intros; ring). rewrite rsum_scal. fold (colSum nr A k). rewrite HA by exact K. ring.
Qed.

(** *** Partition of unity *)
Theorem evs_sum B A' nr nf : (forall l, In l evs -> good l B A') -> (forall r x, ~ written evs cl x -> A' r x = B r x) ->
  (forall c a b, In c (concat evs) -> near a b -> cl c a b < nf) ->
  (forall c, c < nf -> colSum nr B c = 1%R) -> forall c, c < nf -> colSum nr A' c = 1%R.
Proof.
  intros HG FR HN HB x X.
  assert (CS : forall x, x < nf -> ~ written evs cl x -> colSum nr A' x = 1%R) by (intros y Y NW; rewrite <- (HB y Y); unfold colSum; apply rsum_ext; intros r _; now apply FR).
  (* the columns at one vertex *)
  assert (V : forall l c a b, In l evs -> In c l -> near a b -> colSum nr A' (cl c a b) = 1%R).
  { intros l c a b Il Ic NR. destruct (HG l Il) as (cs & Pi & (P & R) & EP & D & SS).
    assert (LC : length cs = length l) by (rewrite <- (map_length fst); now apply Permutation_length).
    destruct (vt_vertex _ _ Hvt l Il) as (c0 & Hv & EL & Hin). assert (L : l = cls t c0) by (unfold cls; now rewrite EL).
    assert (NP : 2 <= length l) by (rewrite L in Hin |- *; now apply (N_pos t Hc c0 Hv)).
    assert (MEM : forall i e s, nth_error cs i = Some (e, s) -> In e l) by (intros i e s E; eapply Permutation_in; [exact P|]; apply in_map_iff; exists (e, s); split; [reflexivity|now apply nth_error_In in E]).
    assert (CN : forall e, In e l -> In e (concat evs)) by (intros e Ie; apply in_concat; exists l; auto).
    assert (SB : forall y, y < 3 * length l -> starCol cl cs y < nf).
    { intros y Y. unfold starCol. rewrite LC. destruct (nth_error cs (y mod length l)) as [[e s]|] eqn:E.
      - pose proof (MEM _ _ _ E) as Ie. unfold along. destruct (y / length l) as [|[|q]]; repeat destruct (side_dir _); apply HN; (now apply CN) || (unfold near; lia).
      - apply nth_error_None in E. pose proof (Nat.mod_upper_bound y (length l)). lia. }
    assert (STAR : forall y, y < 3 * length l -> colSum nr A' (starCol cl cs y) = 1%R).
    { intros y Y. unfold colSum. rewrite (rsum_ext _ _ (fun r => papply (3 * length l) Pi (fun z => B r (starCol cl cs z)) y)) by (intros r _; now apply SS).
      apply (pou_kept _ _ _ _ _ NP EP nr (fun r z => B r (starCol cl cs z))); [|exact Y]. intros z Z. apply HB. now apply SB. }
    assert (EX : exists i s, nth_error cs i = Some (c, s)).
    { assert (IM : In c (map fst cs)) by (eapply Permutation_in; [symmetry; exact P|exact Ic]). apply in_map_iff in IM. destruct IM as ([e s] & <- & IM). apply In_nth_error in IM. destruct IM as (i & E). exists i, s. exact E. }
    destruct EX as (i & s & E). assert (Li : i < length l) by (rewrite <- LC; apply nth_error_Some; congruence).
    destruct (R i (c, s) E) as (ON & y & s' & Ey & AC & YO). cbn [fst snd] in *.
    assert (SX : forall k, k < 3 -> starCol cl cs (k * length l + i) = match k with 0 => cl c 1 1 | 1 => along cl c (otherSideAt c s) 2 1 | _ => along cl c s 2 1 end).
    { intros k K. unfold starCol. rewrite LC. destruct (block_add (length l) k i Li) as (Q1 & Q2). rewrite Q1, Q2, E. destruct k as [|[|[|k]]]; reflexivity || lia. }
    assert (K1 : colSum nr A' (cl c 1 1) = 1%R) by (rewrite <- (SX 0) by lia; apply STAR; lia).
    assert (K2 : forall q, on_side (snd c) q = true -> colSum nr A' (along cl c q 2 1) = 1%R).
    { intros q OQ. destruct (two_sides c s q ON OQ) as [-> | ->]; [rewrite <- (SX 2) by lia|rewrite <- (SX 1) by lia]; apply STAR; lia. }
    assert (K3 : forall e q, In e l -> colSum nr A' (along cl e q 3 1) = 1%R).
    { intros e q Ie. apply CS; [unfold along; destruct (side_dir q); apply HN; (now apply CN) || (unfold near; lia)|].
      intros (e' & a' & b' & Ie' & NR' & N1 & N2 & EQ). unfold along in EQ. destruct (side_dir q); apply (nb_inj _ _ _ _ Hnb) in EQ; (now apply CN) || (unfold near; lia) || assumption || lia. }
    (* position of the corner after c and of the corner before c *)
    assert (LINE : forall k q, k = 2 \/ k = 3 -> on_side (snd c) q = true -> colSum nr A' (along cl c q k 0) = 1%R).
    { assert (GEN : forall j e u e' u' k, nth_error cs j = Some (e, u) -> across t e u e' u' -> k = 2 \/ k = 3 -> colSum nr A' (along cl e u k 1) = 1%R -> colSum nr A' (along cl e' u' k 1) = 1%R ->
        colSum nr A' (along cl e u k 0) = 1%R /\ colSum nr A' (along cl e' u' k 0) = 1%R).
      { intros j e u e' u' k Ej AE K S1 S2.
        assert (G : forall z, (forall r, A' r z = (/ 2 * (A' r (along cl e u k 1%nat) + A' r (along cl e' u' k 1%nat)))%R) -> colSum nr A' z = 1%R).
        { intros z Hz. unfold colSum in *. rewrite (rsum_ext _ _ (fun r => (/ 2 * (A' r (along cl e u k 1%nat) + A' r (along cl e' u' k 1%nat)))%R)) by (intros; apply Hz). rewrite rsum_scal, rsum_plus, S1, S2. lra. }
        split; apply G; intros r; destruct (D r) as (m & a' & d' & H); destruct (H j e u e' u' Ej AE) as (_ & _ & _ & _ & _ & _ & HK); apply (HK k K). }
      assert (ALLK1 : forall j e u k q, nth_error cs j = Some (e, u) -> k = 2 \/ k = 3 -> on_side (snd e) q = true -> colSum nr A' (along cl e q k 1) = 1%R).
      { intros j e u k q Ej K OQ. destruct K as [-> | ->]; [|apply K3; exact (MEM _ _ _ Ej)]. destruct (R j (e, u) Ej) as (ON' & _). cbn [fst snd] in ON'. assert (Lj : j < length l) by (rewrite <- LC; apply nth_error_Some; congruence).
        assert (SXj : forall k, k < 3 -> starCol cl cs (k * length l + j) = match k with 0 => cl e 1 1 | 1 => along cl e (otherSideAt e u) 2 1 | _ => along cl e u 2 1 end).
        { intros k K. unfold starCol. rewrite LC. destruct (block_add (length l) k j Lj) as (Q1 & Q2). rewrite Q1, Q2, Ej. destruct k as [|[|[|k]]]; reflexivity || lia. }
        destruct (two_sides e u q ON' OQ) as [-> | ->]; [rewrite <- (SXj 2) by lia|rewrite <- (SXj 1) by lia]; apply STAR; lia. }
      assert (ON2 : forall e u e' u', across t e u e' u' -> on_side (snd e) u = true /\ on_side (snd e') u' = true) by (intros e u e' u' AE; apply (across_dnext t Hc) in AE; tauto).
      intros k q K OQ. destruct (two_sides c s q ON OQ) as [-> | ->].
      - destruct y as [ey uy]. cbn [fst snd] in *. refine (proj1 (GEN i c s ey s' k E AC K _ _)); [exact (ALLK1 i c s k s E K ON)|]. exact (ALLK1 _ ey uy k s' Ey K (proj2 (ON2 _ _ _ _ AC))).
      - (* the corner before *)
        set (j := match i with 0 => length l - 1 | S i => i end). assert (Lj : j < length cs) by (unfold j; destruct i; lia).
        destruct (nth_error cs j) as [[e u]|] eqn:Ej; [|apply nth_error_None in Ej; lia]. destruct (R j (e, u) Ej) as (ON' & y' & s2 & Ey' & AC' & YO'). cbn [fst snd] in *.
        assert (JI : (j + 1) mod length cs = i).
        { rewrite LC. unfold j. destruct i as [|i']; [replace (length l - 1 + 1) with (length l) by lia; apply Nat.mod_same; lia|]. replace (i' + 1) with (S i') by lia. apply Nat.mod_small. lia. }
        rewrite JI, E in Ey'. injection Ey' as <-. cbn [fst snd] in *.
        assert (S2 : s2 = otherSideAt c s) by (rewrite YO', other_other; [reflexivity|exact (proj2 (ON2 _ _ _ _ AC'))]). rewrite <- S2.
        refine (proj2 (GEN j e u c s2 k Ej AC' K _ _)); [exact (ALLK1 j e u k u Ej K ON')|]. exact (ALLK1 i c s k s2 E K (proj2 (ON2 _ _ _ _ AC'))). }
    assert (CENT : forall a b, centre a b -> colSum nr A' (cl c a b) = 1%R).
    { intros a' b' CE. rewrite <- K1. unfold colSum. apply rsum_ext. intros r _. destruct (D r) as (m & g & d & H). destruct (H i c s (fst y) s' E AC) as (H1 & H2 & H3 & H4 & _). destruct CE as [(-> & ->)|[(-> & ->)|(-> & ->)]]; congruence. }
    assert (SIDES : forall k o, (k = 2 \/ k = 3) -> o <= 1 -> forall q, on_side (snd c) q = true -> colSum nr A' (along cl c q k o) = 1%R).
    { intros k o K O q OQ. destruct o as [|[|o]]; [now apply LINE| |lia]. destruct K as [-> | ->]; [now apply K2|now apply K3]. }
    assert (OC0 : on_side (snd c) (cside (snd c) 0) = true) by apply on_side_cside. assert (OC1 : on_side (snd c) (cside (snd c) 1) = true) by apply on_side_cside.
    assert (SA : forall k o, (k = 2 \/ k = 3) -> o <= 1 -> colSum nr A' (cl c o k) = 1%R /\ colSum nr A' (cl c k o) = 1%R).
    { intros k o K O. pose proof (SIDES k o K O _ OC0) as Q0. pose proof (SIDES k o K O _ OC1) as Q1. unfold along in Q0, Q1. rewrite side_dir_cside in Q0, Q1 by lia. auto. }
    unfold near in NR. destruct (le_lt_dec 2 a) as [LA|LA].
    - apply (SA a b); lia.
    - destruct (le_lt_dec 2 b) as [LB|LB]; [apply (SA b a); lia|]. destruct a as [|[|a]], b as [|[|b]]; try lia; try (apply CENT; unfold centre; lia). exact K1. }
  assert (NDEC : written evs cl x \/ ~ written evs cl x).
  { assert (G : forall L, (exists c a b, In c L /\ near a b /\ ~ (a = 3 /\ b = 1) /\ ~ (a = 1 /\ b = 3) /\ x = cl c a b) \/ ~ (exists c a b, In c L /\ near a b /\ ~ (a = 3 /\ b = 1) /\ ~ (a = 1 /\ b = 3) /\ x = cl c a b)).
    { induction L as [|c L IH]; [right; intros (c & a & b & [] & _)|]. destruct IH as [(c' & a & b & Ic & H)|NH]; [left; exists c', a, b; split; [now right|exact H]|].
      set (ps := filter (fun ab => (x =? cl c (fst ab) (snd ab)) && ((fst ab <=? 1) || (snd ab <=? 1)) && negb ((fst ab =? 3) && (snd ab =? 1)) && negb ((fst ab =? 1) && (snd ab =? 3))) (list_prod (seq 0 4) (seq 0 4))).
      destruct ps as [|[a b] r] eqn:Q.
      - right. intros (c' & a & b & [<-|Ic] & NR & N1 & N2 & EQ); [|apply NH; exists c', a, b; auto]. assert (IP : In (a, b) ps).
        { unfold ps. apply filter_In. split; [apply in_prod; apply in_seq; unfold near in NR; lia|]. cbn [fst snd]. unfold near in NR. lia. }
        rewrite Q in IP. destruct IP.
      - left. exists c, a, b. assert (IP : In (a, b) ps) by (rewrite Q; now left). unfold ps in IP. apply filter_In in IP. destruct IP as (IP & TT). apply in_prod_iff in IP. destruct IP as (I1 & I2). apply in_seq in I1, I2. cbn [fst snd] in TT. unfold near. split; [now left|]. lia. }
    apply (G (concat evs)). }
  destruct NDEC as [WR|NW]; [|now apply CS]. destruct WR as (c & a & b & Ic & NR & _ & _ & ->). apply in_concat in Ic. destruct Ic as (l & Il & Ic). now apply (V l c a b).
Qed.

End G.
