(** Proofs for C38, continued: the loop. *)
From Coq Require Import Sorted Wf_nat.
From Verif Require Import Common TopoModel TopoSpec VertexModel VertexSpec RepairModel RepairSpec ListLemmas TopoProofs VertexProofs VertexProofs2 VertexProofs3 RepairProofs RepairProofs2.
Open Scope nat_scope.

(** ** The set of patches *)
Lemma setInsert_in x l y : In y (setInsert x l) <-> x = y \/ In y l.
Proof.
  induction l as [|a l IH]; [cbn; tauto|]. cbn [setInsert]. destruct (x <? a); [cbn; tauto|]. destruct (Nat.eqb_spec x a) as [->|N]; [cbn; tauto|]. cbn [In]. rewrite IH. tauto.
Qed.
Lemma setInsert_sorted x l : StronglySorted lt l -> StronglySorted lt (setInsert x l).
Proof.
  induction 1 as [|a l S IH F]; [repeat constructor|]. cbn [setInsert]. rewrite Forall_forall in F. destruct (Nat.ltb_spec x a).
  - constructor; [constructor; [exact S|now apply Forall_forall]|]. apply Forall_forall. intros y [<-|Hy]; [assumption|]. specialize (F y Hy). lia.
  - destruct (Nat.eqb_spec x a) as [->|N]; [constructor; [exact S|now apply Forall_forall]|]. constructor; [exact IH|]. apply Forall_forall. intros y Hy. apply setInsert_in in Hy. destruct Hy as [<-|Hy]; [lia|now apply F].
Qed.
Lemma inserts_in chk : forall l y, In y (fold_left (fun l x => setInsert x l) chk l) <-> In y chk \/ In y l.
Proof. induction chk as [|x chk IH]; intros l y; cbn [fold_left]; [cbn; tauto|]. rewrite IH, setInsert_in. cbn. tauto. Qed.
Lemma inserts_sorted chk : forall l, StronglySorted lt l -> StronglySorted lt (fold_left (fun l x => setInsert x l) chk l).
Proof. induction chk as [|x chk IH]; intros l S; cbn [fold_left]; [exact S|]. apply IH. now apply setInsert_sorted. Qed.
Lemma count_insert (g : nat -> bool) x l : g x = false -> countb g (setInsert x l) = countb g l.
Proof.
  intros G. induction l as [|a l IH]; cbn [setInsert]; [rewrite countb_cons, G; reflexivity|]. destruct (x <? a); [rewrite countb_cons, G; reflexivity|]. destruct (x =? a); [reflexivity|]. rewrite !countb_cons, IH. reflexivity.
Qed.
Lemma count_inserts (g : nat -> bool) chk : forall l, (forall x, In x chk -> g x = false) -> countb g (fold_left (fun l x => setInsert x l) chk l) = countb g l.
Proof.
  induction chk as [|x chk IH]; intros l H; cbn [fold_left]; [reflexivity|]. rewrite IH by (intros; apply H; now right). apply count_insert, H. now left.
Qed.
Lemma sorted_bound n l : StronglySorted lt l -> (forall x, In x l -> x < n) -> length l <= n.
Proof.
  intros S H. assert (ND : NoDup l). { clear - S. induction S as [|x m ST IH F]; constructor; [|exact IH]. intros C. rewrite Forall_forall in F. specialize (F _ C). lia. }
  pose proof (NoDup_incl_length ND (l' := seq 0 n)) as I. rewrite seq_length in I. apply I. intros x Hx. apply in_seq. specialize (H x Hx). lia.
Qed.
Lemma countb_le {A} (g : A -> bool) l : countb g l <= length l.
Proof. unfold countb. induction l as [|a l IH]; cbn; [lia|]. destruct (g a); cbn; lia. Qed.
Lemma countb_mono {A} (g h : A -> bool) l : (forall x, In x l -> g x = true -> h x = true) -> countb g l <= countb h l.
Proof.
  induction l as [|a l IH]; intros H; [cbn; lia|]. rewrite !countb_cons. specialize (IH (fun x Hx => H x (or_intror Hx))). pose proof (H a (or_introl eq_refl)) as Ha. destruct (g a), (h a); try lia; discriminate (Ha eq_refl).
Qed.
Lemma countb_strict {A} (g h : A -> bool) l x : (forall x, In x l -> g x = true -> h x = true) -> In x l -> g x = false -> h x = true -> countb g l < countb h l.
Proof.
  induction l as [|a l IH]; intros H I G K; [destruct I|]. rewrite !countb_cons. pose proof (H a (or_introl eq_refl)) as Ha. destruct I as [->|I].
  - rewrite G, K. pose proof (countb_mono g h l (fun x Hx => H x (or_intror Hx))). lia.
  - specialize (IH (fun x Hx => H x (or_intror Hx)) I G K). destruct (g a), (h a); try lia; discriminate (Ha eq_refl).
Qed.
Lemma sumN_le {A} (f g : A -> nat) l : (forall x, In x l -> f x <= g x) -> sumN (map f l) <= sumN (map g l).
Proof. induction l as [|a l IH]; intros H; cbn; [lia|]. pose proof (H a (or_introl eq_refl)). specialize (IH (fun x Hx => H x (or_intror Hx))). lia. Qed.
Lemma sumN_lt {A} (f g : A -> nat) l x : (forall x, In x l -> f x <= g x) -> In x l -> f x < g x -> sumN (map f l) < sumN (map g l).
Proof.
  induction l as [|a l IH]; intros H I K; [destruct I|]. cbn. pose proof (H a (or_introl eq_refl)). destruct I as [->|I].
  - pose proof (sumN_le f g l (fun x Hx => H x (or_intror Hx))). lia.
  - specialize (IH (fun x Hx => H x (or_intror Hx)) I K). lia.
Qed.

Section R.
Context (t : topo) (Hc : consistent t) (L : nat -> nat -> Z) (D : nat -> nat -> nat) (B0 : list vbase).

Definition within (B : list vbase) : Prop := forall p dir x, dir < 2 -> has_knot B p dir x -> carried t L B0 p dir x.
Definition above (B : list vbase) : Prop := forall p dir x, dir < 2 -> has_knot B0 p dir x -> has_knot B p dir x.

Lemma wanted_carried B p dir x : shaped t L D B -> within B -> wanted_knot t L B p dir x -> carried t L B0 p dir x.
Proof.
  intros SH W (_ & s & q & s' & fl & <- & J & U). unfold view in U. apply W in U; [|apply along_lt]. pose proof (car_step t L B0 _ _ _ _ _ _ (joined_sym t L D _ _ _ _ _ J) U) as K.
  destruct (proj2 (proj2 SH) _ _ _ _ _ J) as (EL & _). destruct fl; [|exact K]. rewrite <- EL in K. replace (L p (along s) - (L p (along s) - x))%Z with x in K by lia. exact K.
Qed.

(** the finitely many knots that can occur *)
Definition pool : list Z := flat_map (fun b => vk0 b ++ vk1 b) B0.
Definition cand (p dir : nat) : list Z := pool ++ map (fun x => (L p dir - x)%Z) pool.
Lemma carried_cand : shaped t L D B0 -> forall p dir x, carried t L B0 p dir x -> In x (cand p dir).
Proof.
  intros SH p dir x H. induction H as [p dir x (b & E & I)|p s q s' fl x J H IH]; unfold cand in *; apply in_app_iff.
  - left. apply in_flat_map. exists b. split; [eapply nth_error_In; exact E|]. apply in_app_iff. destruct dir; [now left|now right].
  - apply in_app_iff in IH. destruct (proj2 (proj2 SH) _ _ _ _ _ J) as (EL & _). rewrite <- EL. destruct fl.
    + destruct IH as [I|I]; [right; apply in_map_iff; now exists x|]. left. apply in_map_iff in I. destruct I as (y & <- & Hy). replace (L p (along s) - (L p (along s) - y))%Z with y by lia. exact Hy.
    + exact IH.
Qed.

Definition hasb (B : list vbase) (p dir : nat) (x : Z) : bool := match nth_error B p with Some b => existsb (Z.eqb x) (knots b dir) | None => false end.
Lemma hasb_spec B p dir x : hasb B p dir x = true <-> has_knot B p dir x.
Proof.
  unfold hasb, has_knot. destruct (nth_error B p) as [b|]; [|split; [discriminate|intros (b & E & _); discriminate]]. rewrite existsb_exists. split.
  - intros (y & Hy & E). apply Z.eqb_eq in E. subst y. now exists b.
  - intros (b' & E & I). injection E as <-. exists x. split; [exact I|apply Z.eqb_refl].
Qed.
Definition places : list (nat * nat) := list_prod (seq 0 (tnp t)) [0; 1].
Definition lacking (B : list vbase) : nat := sumN (map (fun e => countb (fun x => negb (hasb B (fst e) (snd e) x)) (cand (fst e) (snd e))) places).

Lemma lacking_less B p i0 i1 dir x : shaped t L D B -> p < tnp t -> (forall x, In x i0 <-> wanted_knot t L B p 0 x) -> (forall x, In x i1 <-> wanted_knot t L B p 1 x) ->
  shaped t L D B0 -> within B -> wanted_knot t L B p dir x -> dir < 2 -> lacking (next B p i0 i1) < lacking B.
Proof.
  intros SH V H0 H1 SH0 W WK DL. assert (VB : p < length B) by (destruct SH as (-> & _); exact V). unfold lacking.
  assert (MONO : forall q d y, d < 2 -> negb (hasb (next B p i0 i1) q d y) = true -> negb (hasb B q d y) = true).
  { intros q d y DD. rewrite !negb_true_iff, <- !not_true_iff_false, !hasb_spec, (next_has L D B p i0 i1 d q y VB DD). tauto. }
  assert (IP : In (p, dir) places) by (apply in_prod; [apply in_seq; lia|destruct dir as [|[|]]; cbn; auto; lia]).
  assert (PL : forall e, In e places -> snd e < 2). { intros (q & d) He. apply in_prod_iff in He. destruct He as (_ & [<-|[<-|[]]]); cbn; lia. }
  apply (sumN_lt _ _ places (p, dir)).
  - intros e He. apply countb_mono. intros y _. apply MONO. now apply PL.
  - exact IP.
  - cbn [fst snd]. apply (countb_strict _ _ _ x).
    + intros y _. now apply MONO.
    + apply (carried_cand SH0). exact (wanted_carried B p dir x SH W WK).
    + apply negb_false_iff, hasb_spec. apply (next_has L D B p i0 i1 dir p x VB DL). right. split; [reflexivity|]. destruct dir as [|[|]]; [now apply H0|now apply H1|lia].
    + apply negb_true_iff, not_true_iff_false. rewrite hasb_spec. apply WK.
Qed.

Definition needs (B : list vbase) (p : nat) : bool :=
  match knotsMatchNeighbours t B p with Ok (i0, i1, _) => negb (match i0, i1 with [], [] => true | _, _ => false end) | Err => false end.

Definition measure (B : list vbase) (C : list nat) : nat := lacking B * (tnp t + 1) + countb (fun p => negb (needs B p)) C.

Theorem loop_pf : shaped t L D B0 -> forall m B C, measure B C = m -> C <> [] -> shaped t L D B -> StronglySorted lt C -> (forall p, In p C -> p < tnp t) -> pending t L B C -> within B -> above B ->
  exists B', (forall fuel, m < fuel -> repairLoop fuel t B C = Ok B') /\ shaped t L D B' /\ pending t L B' [] /\ within B' /\ above B'.
Proof.
  intros SH0 m. induction m as [m IH] using lt_wf_ind. intros B C EM NE SH ST VC PE WI AB. destruct C as [|p C]; [contradiction|]. assert (V : p < tnp t) by (apply VC; now left).
  assert (VB : p < length B) by (destruct SH as (-> & _); exact V).
  destruct (match_spec t Hc L D B p SH V) as (i0 & i1 & chk & E & N0 & N1 & H0 & H1 & HC).
  set (B1 := next B p i0 i1). set (C1 := fold_left (fun l x => setInsert x l) chk C).
  assert (HC1 : forall q, In q C1 <-> In q chk \/ In q C) by (intros; apply inserts_in).
  assert (SH1 : shaped t L D B1) by (apply next_shaped; assumption).
  assert (PE1 : pending t L B1 C1) by (apply (round t Hc L D B p C i0 i1 chk); assumption).
  assert (NH : forall q dir x, dir < 2 -> has_knot B1 q dir x <-> has_knot B q dir x \/ (q = p /\ wanted_knot t L B p dir x)).
  { intros q dir x DL. unfold B1. rewrite (next_has L D B p i0 i1 dir q x VB DL). destruct dir as [|[|]]; [rewrite H0; reflexivity|rewrite H1; reflexivity|lia]. }
  assert (WI1 : within B1). { intros q dir x DL H. apply (NH q dir x DL) in H. destruct H as [H|(-> & H)]; [now apply WI|]. exact (wanted_carried B p dir x SH WI H). }
  assert (AB1 : above B1). { intros q dir x DL H. apply (NH q dir x DL). left. now apply AB. }
  assert (ST1 : StronglySorted lt C1) by (apply inserts_sorted; now inversion ST).
  assert (VC1 : forall q, In q C1 -> q < tnp t).
  { intros q Hq. apply HC1 in Hq. destruct Hq as [Hq|Hq]; [|apply VC; now right]. apply HC in Hq. destruct Hq as (s & s' & fl & J & _). apply (joined_valid t Hc L D _ _ _ _ _ J). }
  assert (STEP : forall fuel, repairLoop (S fuel) t B (p :: C) = match C1 with [] => Ok B1 | _ => repairLoop fuel t B1 C1 end).
  { intros fuel. cbn [repairLoop]. rewrite E. cbn [bind]. unfold B1, next, vget. destruct (nth_error B p) as [b|] eqn:EB; [|apply nth_error_None in EB; lia]. cbn [bind]. rewrite vset_ok by exact VB. cbn [bind]. reflexivity. }
  assert (LESS : measure B1 C1 < m).
  { rewrite <- EM. unfold measure.
    assert (SM : forall B C, StronglySorted lt C -> (forall q, In q C -> q < tnp t) -> countb (fun p => negb (needs B p)) C <= tnp t).
    { intros B2 C2 S2 V2. pose proof (countb_le (fun p => negb (needs B2 p)) C2). pose proof (sorted_bound (tnp t) C2 S2 V2). lia. }
    destruct (match i0, i1 with [], [] => true | _, _ => false end) eqn:EMP.
    - assert (I0 : i0 = [] /\ i1 = []) by (destruct i0, i1; try discriminate; auto). destruct I0 as (-> & ->).
      assert (EB : B1 = B).
      { unfold B1, next. destruct (nth_error B p) as [b|] eqn:EB; [|reflexivity]. unfold insertKnots. cbn [fold_right]. replace (mkVB (vk0 b) (vk1 b) (vd0 b) (vd1 b)) with b by (destruct b; reflexivity).
        apply nth_ext'. intros j. rewrite nth_upd by exact VB. destruct (Nat.eqb_spec j p) as [->|]; [now rewrite EB|reflexivity]. }
      rewrite EB. unfold C1. rewrite count_inserts.
      + rewrite countb_cons. unfold needs at 2. rewrite E. cbn [negb]. lia.
      + intros q Hq. apply negb_false_iff. pose proof (proj1 (HC q) Hq) as (s & s' & fl & J & [(x & X & NV)|(x & q2 & s2 & fl2 & NX & J2 & U)]).
        * assert (Vq : q < tnp t) by apply (joined_valid t Hc L D _ _ _ _ _ J). destruct (match_spec t Hc L D B q SH Vq) as (j0 & j1 & chk' & E' & _ & _ & K0 & K1 & _). unfold needs. rewrite E'.
          assert (WQ : wanted_knot t L B q (along s') (if fl then (L p (along s) - x)%Z else x)).
          { split; [exact NV|]. exists s', p, s, fl. split; [reflexivity|]. split; [exact (joined_sym t L D _ _ _ _ _ J)|]. now apply (view_back t L D B p s q s' fl x SH J). }
          destruct (along s') as [|[|d]] eqn:A; [apply K0 in WQ; destruct j0; [destruct WQ|reflexivity]|apply K1 in WQ; destruct j0, j1; try reflexivity; destruct WQ|pose proof (along_lt s'); lia].
        * exfalso. assert (WP : wanted_knot t L B p (along s) x) by (split; [exact NX|]; exists (opp s), q2, s2, fl2; split; [apply along_opp|]; split; [exact J2|exact U]).
          destruct (along s) as [|[|d]] eqn:A; [now apply H0 in WP|now apply H1 in WP|pose proof (along_lt s); lia].
    - assert (WX : exists dir x, dir < 2 /\ wanted_knot t L B p dir x).
      { destruct i0 as [|x i0]; [|exists 0, x; split; [lia|apply H0; now left]]. destruct i1 as [|x i1]; [discriminate|]. exists 1, x. split; [lia|apply H1; now left]. }
      destruct WX as (dir & x & DL & WX). pose proof (lacking_less B p i0 i1 dir x SH V H0 H1 SH0 WI WX DL) as LL. fold B1 in LL. pose proof (SM B1 C1 ST1 VC1). nia. }
  destruct C1 as [|c C1'] eqn:EC1.
  - exists B1. split; [|auto]. intros fuel F. destruct fuel as [|fuel]; [lia|]. rewrite STEP. reflexivity.
  - destruct (IH (measure B1 (c :: C1')) LESS B1 (c :: C1') eq_refl) as (B' & F & R); try assumption; [discriminate|]. exists B'. split; [|exact R].
    intros fuel FU. destruct fuel as [|fuel]; [lia|]. rewrite STEP. apply F. lia.
Qed.

Lemma agree_match B f : shaped t L D B -> In f (tif t) -> (forall p s q s' fl, joined_sides t p s q s' fl -> agree L B p s q s' fl) -> knots_match B f.
Proof.
  intros SH Hf AG. destruct (if1 f) as (p, s) eqn:E1. destruct (if2 f) as (q, s') eqn:E2. assert (J : joined_sides t p s q s' (ifflip f)) by (exists f; auto).
  destruct (joined_valid t Hc L D _ _ _ _ _ J) as (Vp & Vq). pose proof SH as (LB & S1 & CO). rewrite <- LB in Vp, Vq. destruct (CO _ _ _ _ _ J) as (EL & ED).
  destruct (nth_error B p) as [b|] eqn:Eb; [|apply nth_error_None in Eb; lia]. destruct (nth_error B q) as [b'|] eqn:Eb'; [|apply nth_error_None in Eb'; lia].
  exists b, b'. rewrite E1, E2. cbn [fst snd]. split; [exact Eb|]. split; [exact Eb'|]. cbv zeta. change (1 - side_dir s) with (along s). change (1 - side_dir s') with (along s').
  destruct (S1 p b Eb (along s) (along_lt s)) as (DG & mid & SO). destruct (S1 q b' Eb' (along s') (along_lt s')) as (DG' & mid' & SO'). rewrite <- EL, <- ED in SO'.
  split; [rewrite DG, DG', ED; reflexivity|]. set (k := knots b (along s)) in *. set (k' := knots b' (along s')) in *.
  assert (K : k = if ifflip f then kreverse k' else k').
  { set (kN := if ifflip f then kreverse k' else k'). assert (SN : exists m, simple_open (D p (along s)) (L p (along s)) m kN) by (unfold kN; destruct (ifflip f); [eexists; apply simple_reverse; exact SO'|eexists; exact SO']). destruct SN as (mN & SN).
    assert (IFF : forall x, In x k <-> In x kN).
    { intros x. specialize (AG _ _ _ _ _ J x). unfold view in AG. rewrite (has_at B p b _ _ Eb), (has_at B q b' _ _ Eb') in AG. fold k k' in AG. rewrite AG. unfold kN. destruct (ifflip f); [|reflexivity].
      unfold kreverse. rewrite <- in_rev, in_map_iff, (simple_hd_last _ _ _ _ SO'). split; [intros H; exists (L p (along s) - x)%Z; split; [lia|exact H]|intros (y & <- & Hy); replace (L p (along s) - (L p (along s) - y))%Z with y by lia; exact Hy]. }
    destruct (simple_asc _ _ _ _ SO) as (_ & BK). destruct (simple_asc _ _ _ _ SN) as (_ & BN). assert (BN' : breakpoints k (0%Z :: mN ++ [L p (along s)])) by (split; [intros x; rewrite IFF; apply BN|apply BN]).
    pose proof (breakpoints_unique _ _ _ BK BN') as EQ. injection EQ as EQ. apply app_inj_tail in EQ. destruct EQ as (-> & _). destruct SO as (-> & _), SN as (-> & _). reflexivity. }
  split; [rewrite K; destruct (ifflip f); rewrite ?kreverse_length; reflexivity|]. intros i x X. assert (LI : i < length k) by (apply nth_error_Some; congruence). destruct (ifflip f).
  - assert (K' : k' = kreverse k) by (rewrite K, kreverse_invol; reflexivity). rewrite K'. rewrite kreverse_nth by lia. replace (length k - 1 - (length k - 1 - i)) with i by lia. rewrite X. reflexivity.
  - rewrite <- K. exact X.
Qed.

Theorem repair_general : shaped t L D B0 -> forall C, C <> [] -> StronglySorted lt C -> (forall p, In p C -> p < tnp t) -> pending t L B0 C ->
  exists N B', (forall fuel, N < fuel -> repairLoop fuel t B0 C = Ok B') /\ shaped t L D B' /\
    (forall f, In f (tif t) -> knots_match B' f) /\
    (forall p dir x, dir < 2 -> has_knot B' p dir x <-> carried t L B0 p dir x).
Proof.
  intros SH C NE ST VC PE. destruct (loop_pf SH (measure B0 C) B0 C eq_refl NE SH ST VC PE) as (B' & F & SH' & PE' & WI & AB).
  - intros p dir x _ H. now constructor.
  - intros p dir x _ H. exact H.
  - exists (measure B0 C), B'. split; [exact F|]. split; [exact SH'|].
    assert (AG : forall p s q s' fl, joined_sides t p s q s' fl -> agree L B' p s q s' fl) by (intros p s q s' fl J; destruct (PE' p s q s' fl J) as [A|[[]|[]]]; exact A).
    split; [intros f Hf; now apply agree_match|]. intros p dir x DL. split; [now apply WI|]. intros H. induction H as [p dir x H|p s q s' fl x J H IH]; [now apply AB|].
    specialize (IH (along_lt s)). apply (AG _ _ _ _ _ J) in IH. exact IH.
Qed.
End R.

Lemma seq_sorted n k : StronglySorted lt (seq k n).
Proof. revert k. induction n as [|n IH]; intros k; cbn; constructor; [apply IH|]. apply Forall_forall. intros x Hx. apply in_seq in Hx. lia. Qed.

Theorem repair_all_pf : forall t L D B, consistent t -> shaped t L D B -> 0 < tnp t ->
  exists N B', (forall fuel, N < fuel -> repairPatches fuel t B None = Ok B') /\ shaped t L D B' /\
    (forall f, In f (tif t) -> knots_match B' f) /\
    (forall p dir x, dir < 2 -> has_knot B' p dir x <-> carried t L B p dir x).
Proof.
  intros t L D B Hc SH V. unfold repairPatches. apply (repair_general t Hc L D B SH (seq 0 (length B))).
  - destruct SH as (-> & _). destruct (tnp t); [lia|discriminate].
  - apply seq_sorted.
  - intros p Hp. apply in_seq in Hp. destruct SH as (E & _). lia.
  - intros p s q s' fl J. right; left. apply in_seq. destruct SH as (E & _). destruct (joined_valid t Hc L D _ _ _ _ _ J). lia.
Qed.

Lemma match_agree t (Hc : consistent t) L D B p s q s' fl : shaped t L D B -> joined_sides t p s q s' fl -> (forall f, In f (tif t) -> if1 f = (p, s) /\ if2 f = (q, s') -> ifflip f = fl -> knots_match B f) ->
  (exists f, In f (tif t) /\ ifflip f = fl /\ if1 f = (p, s) /\ if2 f = (q, s')) -> agree L B p s q s' fl.
Proof.
  intros SH J KM (f & Hf & <- & E1 & E2) x. destruct (KM f Hf (conj E1 E2) eq_refl) as (b & b' & Eb & Eb' & M). rewrite E1, E2 in *. cbn [fst snd] in *. cbv zeta in M. change (1 - side_dir s) with (along s) in M. change (1 - side_dir s') with (along s') in M.
  destruct M as (_ & LE & M). destruct (proj1 (proj2 SH) p b Eb (along s) (along_lt s)) as (_ & mid & SO). rewrite (simple_hd_last _ _ _ _ SO) in M.
  unfold view. rewrite (has_at B p b _ _ Eb), (has_at B q b' _ _ Eb'). split; intros H; apply In_nth_error in H; destruct H as (i & Hi).
  - apply M in Hi. destruct (ifflip f); eapply nth_error_In; exact Hi.
  - assert (LI : i < length (knots b (along s))) by (rewrite LE; apply nth_error_Some; congruence). destruct (ifflip f).
    + destruct (nth_error (knots b (along s)) (length (knots b (along s)) - 1 - i)) as [y|] eqn:Y; [|apply nth_error_None in Y; lia]. pose proof (M _ _ Y) as Z. replace (length (knots b (along s)) - 1 - (length (knots b (along s)) - 1 - i)) with i in Z by lia.
      rewrite Z in Hi. injection Hi as Hi. replace x with y by lia. eapply nth_error_In; exact Y.
    + destruct (nth_error (knots b (along s)) i) as [y|] eqn:Y; [|apply nth_error_None in Y; lia]. pose proof (M _ _ Y) as Z. rewrite Z in Hi. injection Hi as ->. eapply nth_error_In; exact Y.
Qed.

Theorem repair_from_pf : forall t L D B p, consistent t -> shaped t L D B -> p < tnp t -> (forall f, In f (tif t) -> away_from p f -> knots_match B f) ->
  exists N B', (forall fuel, N < fuel -> repairPatches fuel t B (Some p) = Ok B') /\ shaped t L D B' /\
    (forall f, In f (tif t) -> knots_match B' f) /\
    (forall p dir x, dir < 2 -> has_knot B' p dir x <-> carried t L B p dir x).
Proof.
  intros t L D B p Hc SH V AW. unfold repairPatches. apply (repair_general t Hc L D B SH [p]); [discriminate|repeat constructor|intros q [<-|[]]; exact V|].
  intros a s q s' fl J. destruct (Nat.eq_dec a p) as [->|NA]; [right; left; now left|]. destruct (Nat.eq_dec q p) as [->|NQ]; [right; right; now left|]. left.
  pose proof J as (f & Hf & Ef & [(E1 & E2)|(E2 & E1)]).
  - apply (match_agree t Hc L D B); try assumption; [|exists f; auto]. intros g Hg (G1 & G2) _. apply AW; [exact Hg|]. split; [rewrite G1|rewrite G2]; assumption.
  - apply (agree_sym t L D B q s' a s fl SH (joined_sym t L D _ _ _ _ _ J)). apply (match_agree t Hc L D B); try assumption; [exact (joined_sym t L D _ _ _ _ _ J)| |exists f; auto]. intros g Hg (G1 & G2) _. apply AW; [exact Hg|]. split; [rewrite G1|rewrite G2]; assumption.
Qed.
