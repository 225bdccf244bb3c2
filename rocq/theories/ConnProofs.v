(** Proofs for C37. *)
From Verif Require Import Common TopoModel MapModel MapSpec ListLemmas MapProofs ConnModel ConnSpec.
Open Scope Z_scope.

Section S.
Context (bs : list mbase) (POS : forall b, In b bs -> 0 < mb_u b /\ 0 < mb_v b).

Lemma size_nonneg b : In b bs -> 0 <= mb_size b.
Proof. intros H. destruct (POS b H). unfold mb_size. nia. Qed.

Lemma placed_read l p i j : placed bs l p i j -> exists b, nth_error bs p = Some b /\ getPatch bs l = p /\
  getPatchIndex bs l = Ok (i + mb_u b * j) /\ patchPar b (i + mb_u b * j) false = i /\ patchPar b (i + mb_u b * j) true = j.
Proof.
  intros (b & E & I & J & ->). exists b. split; [exact E|].
  assert (K : 0 <= i + mb_u b * j < mb_size b) by (unfold mb_size; nia).
  pose proof (getPatch_spec bs size_nonneg p _ b E K) as G. rewrite <- Z.add_assoc, G. split; [reflexivity|]. split.
  - rewrite getPatchIndex_ok, G. f_equal. lia.
  - unfold patchPar. rewrite Z.add_comm, Z.mul_comm. split.
    + rewrite Z.add_comm, Z.mod_add by lia. apply Z.mod_small. lia.
    + rewrite Z.div_add_l by lia. rewrite Z.div_small by lia. lia.
Qed.

Lemma placed_exists l : 0 <= l < before bs (length bs) -> exists p i j, placed bs l p i j.
Proof.
  intros L. assert (H : (getPatch bs l < length bs)%nat).
  { pose proof (getPatch_le bs l). destruct (Nat.eq_dec (getPatch bs l) (length bs)) as [N|]; [|lia].
    apply (getPatch_end bs size_nonneg) in N; lia. }
  destruct (getPatch_inv bs l) as (b & E & K); [lia|exact H|].
  set (k := l - before bs (getPatch bs l)) in *. destruct (POS b (nth_error_In _ _ E)) as (U & V).
  exists (getPatch bs l), (k mod mb_u b), (k / mb_u b), b. split; [exact E|]. split; [apply Z.mod_pos_bound; lia|]. split.
  - split; [apply Z.div_pos; lia|]. apply Z.div_lt_upper_bound; [lia|]. unfold mb_size in K. lia.
  - pose proof (Z.div_mod k (mb_u b)). unfold k in *. lia.
Qed.

Definition valid l := 0 <= l < before bs (length bs).

Lemma local_spec a b : valid a -> valid b -> exists r, isLocallyConnected bs a b = Ok r /\ (r = true <-> neighbours bs a b).
Proof.
  intros A B. destruct (placed_exists a A) as (p & i & j & PA). destruct (placed_exists b B) as (q & i' & j' & PB).
  destruct (placed_read _ _ _ _ PA) as (ba & EA & GA & IA & XA & YA). destruct (placed_read _ _ _ _ PB) as (bb & EB & GB & IB & XB & YB).
  assert (U : forall x y p0 i0 j0 p1 i1 j1, placed bs x p0 i0 j0 -> placed bs y p1 i1 j1 -> x = y -> p0 = p1 /\ i0 = i1 /\ j0 = j1).
  { intros x y p0 i0 j0 p1 i1 j1 P Q ->. destruct (placed_read _ _ _ _ P) as (b0 & E0 & G0 & I0 & X0 & Y0). destruct (placed_read _ _ _ _ Q) as (b1 & E1 & G1 & I1 & X1 & Y1).
    assert (Q01 : p0 = p1) by congruence. rewrite Q01 in E0. rewrite E0 in E1. injection E1 as <-. rewrite I0 in I1. injection I1 as I1. split; [exact Q01|]. split; [rewrite <- X0, <- X1; congruence|rewrite <- Y0, <- Y1; congruence]. }
  assert (N : neighbours bs a b <-> p = q /\ Z.abs (i - i') + Z.abs (j - j') = 1).
  { split.
    - intros (p0 & i0 & j0 & i1 & j1 & P0 & P1 & H). destruct (U _ _ _ _ _ _ _ _ PA P0 eq_refl) as (<- & <- & <-).
      destruct (U _ _ _ _ _ _ _ _ PB P1 eq_refl) as (<- & <- & <-). split; [reflexivity|]. lia.
    - intros (<- & H). exists p, i, j, i', j'. split; [exact PA|]. split; [exact PB|]. lia. }
  unfold isLocallyConnected. rewrite GA, GB. destruct (Nat.eqb_spec p q) as [->|NE].
  - unfold vget. rewrite EA. cbn [bind]. rewrite IA, IB. cbn [bind]. rewrite EA in EB. injection EB as <-. rewrite XA, YA, XB, YB.
    eexists. split; [reflexivity|]. rewrite N, Z.eqb_eq. tauto.
  - exists false. split; [reflexivity|]. rewrite N. split; [discriminate|]. intros (Q & _). contradiction.
Qed.

Lemma neighbours_sym a b : neighbours bs a b -> neighbours bs b a.
Proof. intros (p & i & j & i' & j' & A & B & H). exists p, i', j', i, j. split; [exact B|]. split; [exact A|]. lia. Qed.
Lemma neighbours_irrefl a : ~ neighbours bs a a.
Proof.
  intros (p & i & j & i' & j' & A & B & H). destruct (placed_read _ _ _ _ A) as (b & E & _ & I & X & Y).
  destruct (placed_read _ _ _ _ B) as (b' & E' & _ & I' & X' & Y'). rewrite E in E'. injection E' as <-. rewrite I in I'. injection I' as Q. rewrite Q in X, Y. lia.
Qed.

Lemma existsM_spec {A} (f : A -> res bool) (P : A -> Prop) l : (forall x, In x l -> exists r, f x = Ok r /\ (r = true <-> P x)) ->
  exists r, existsM f l = Ok r /\ (r = true <-> exists x, In x l /\ P x).
Proof.
  induction l as [|x l IH]; intros H; cbn [existsM].
  - exists false. split; [reflexivity|]. split; [discriminate|]. intros (x & [] & _).
  - destruct (H x (or_introl eq_refl)) as (r & E & HR). rewrite E. cbn [bind]. destruct r.
    + exists true. split; [reflexivity|]. split; [|reflexivity]. intros _. exists x. split; [now left|]. now apply HR.
    + destruct IH as (r & E' & HR'); [intros; apply H; now right|]. exists r. split; [exact E'|]. rewrite HR'. split.
      * intros (y & Hy & Py). exists y. split; [now right|exact Py].
      * intros (y & [<-|Hy] & Py); [apply HR in Py; discriminate|]. now exists y.
Qed.
Lemma forallM_spec {A} (f : A -> res bool) (P : A -> Prop) l : (forall x, In x l -> exists r, f x = Ok r /\ (r = true <-> P x)) ->
  exists r, forallM f l = Ok r /\ (r = true <-> forall x, In x l -> P x).
Proof.
  induction l as [|x l IH]; intros H; cbn [forallM].
  - exists true. split; [reflexivity|]. split; [intros _ x []|reflexivity].
  - destruct (H x (or_introl eq_refl)) as (r & E & HR). rewrite E. cbn [bind]. destruct r.
    + destruct IH as (r & E' & HR'); [intros; apply H; now right|]. exists r. split; [exact E'|]. rewrite HR'. split.
      * intros Q y [<-|Hy]; [now apply HR|now apply Q].
      * intros Q y Hy. apply Q. now right.
    + exists false. split; [reflexivity|]. split; [discriminate|]. intros Q. apply HR, Q. now left.
Qed.

(** set_intersection of ascending lists *)
Lemma inter_spec : forall fuel a b, StronglySorted Z.lt a -> StronglySorted Z.lt b -> (length a + length b <= fuel)%nat ->
  NoDup (setIntersection fuel a b) /\ forall x, In x (setIntersection fuel a b) <-> In x a /\ In x b.
Proof.
  induction fuel as [|n IH]; intros a b SA SB F.
  - destruct a; [|cbn in F; lia]. split; [constructor|]. cbn. tauto.
  - destruct a as [|x a]; [split; [constructor|cbn; tauto]|]. destruct b as [|y b]; [split; [constructor|cbn; tauto]|].
    cbn [setIntersection]. cbn [length] in F. pose proof (StronglySorted_inv SA) as (SA' & FA). pose proof (StronglySorted_inv SB) as (SB' & FB).
    rewrite Forall_forall in FA, FB.
    destruct (Z.ltb_spec x y); [|destruct (Z.ltb_spec y x)].
    + destruct (IH a (y :: b) SA' SB) as (N & E); [cbn; lia|]. split; [exact N|]. intros z. rewrite E. split; [intros (A & B); split; [now right|exact B]|].
      intros ([<-|A] & B); [|tauto]. exfalso. destruct B as [->|B]; [lia|]. specialize (FB _ B). lia.
    + destruct (IH (x :: a) b SA SB') as (N & E); [cbn; lia|]. split; [exact N|]. intros z. rewrite E. split; [intros (A & B); split; [exact A|now right]|].
      intros (A & [<-|B]); [|tauto]. exfalso. destruct A as [->|A]; [lia|]. specialize (FA _ A). lia.
    + assert (x = y) by lia. subst y. destruct (IH a b SA' SB') as (N & E); [lia|]. split.
      * constructor; [|exact N]. rewrite E. intros (A & _). specialize (FA _ A). lia.
      * intros z. cbn [In]. rewrite E. split; [tauto|]. intros ([->|A] & [B|B]); tauto.
Qed.

Lemma sorted_nodup l : StronglySorted Z.lt l -> NoDup l.
Proof.
  induction 1 as [|x l S IH F]; constructor; [|exact IH]. intros H. rewrite Forall_forall in F. specialize (F _ H). lia.
Qed.

Lemma count_spec a b I : NoDup a -> NoDup I -> (forall x, In x I <-> In x a /\ In x b) -> (length I + 1 = length a)%nat <-> shares_all_but_one a b.
Proof.
  intros NA NI E. assert (D : forall x : Z, {In x b} + {~ In x b}) by (intros; apply in_dec, Z.eq_dec).
  set (R := filter (fun x => if D x then false else true) a).
  assert (RI : forall x, In x R <-> In x a /\ ~ In x b).
  { intros x. unfold R. rewrite filter_In. destruct (D x); intuition congruence. }
  assert (LEN : (length I + length R = length a)%nat).
  { rewrite <- app_length. apply Nat.le_antisymm.
    - apply NoDup_incl_length.
      + apply NoDup_app_iff. split; [exact NI|]. split; [now apply NoDup_filter|]. intros x H1 H2. apply E in H1. apply RI in H2. tauto.
      + intros x H. apply in_app_iff in H. destruct H as [H|H]; [apply E in H; tauto|apply RI in H; tauto].
    - apply NoDup_incl_length; [exact NA|]. intros x H. apply in_app_iff. destruct (D x); [left; apply E; tauto|right; apply RI; tauto]. }
  split.
  - intros L. assert (L1 : length R = 1%nat) by lia. destruct R as [|x [|]] eqn:ER; try discriminate. exists x.
    destruct (proj1 (RI x) (or_introl eq_refl)) as (A & B). split; [exact A|]. split; [exact B|].
    intros y Hy N. destruct (D y) as [|NB]; [assumption|]. destruct (proj2 (RI y) (conj Hy NB)) as [->|[]]. contradiction.
  - intros (x & A & B & C). assert (NR : NoDup R) by now apply NoDup_filter.
    assert (R1 : length R = 1%nat).
    { apply Nat.le_antisymm.
      - apply (NoDup_incl_length (l' := [x]) NR). intros y Hy. apply RI in Hy. destruct Hy as (H1 & H2). destruct (Z.eq_dec y x) as [->|N]; [now left|]. exfalso. apply H2, C; assumption.
      - assert (H : In x R) by now apply RI. destruct R; [contradiction|cbn; lia]. }
    lia.
Qed.

Theorem connected_pf : forall li lj, locals_ok bs li -> locals_ok bs lj ->
  exists r, isConnected bs li lj = Ok r /\ (r = true <-> joined bs li lj).
Proof.
  intros li lj (Ni & Si & Vi) (Nj & Sj & Vj).
  assert (LOC : forall x y, In x li -> In y lj -> exists r, isLocallyConnected bs x y = Ok r /\ (r = true <-> neighbours bs x y))
    by (intros; apply local_spec; [now apply Vi|now apply Vj]).
  assert (LOC' : forall x y, In x li -> In y lj -> exists r, isLocallyConnected bs y x = Ok r /\ (r = true <-> neighbours bs y x))
    by (intros; apply local_spec; [now apply Vj|now apply Vi]).
  destruct li as [|x [|x2 li]]; [contradiction| |].
  - (* single on the left *)
    destruct lj as [|y [|y2 lj]]; [contradiction| |].
    + destruct (LOC x y (or_introl eq_refl) (or_introl eq_refl)) as (r & E & H). exists r. split; [exact E|]. rewrite H. cbn [joined]. split.
      * intros Q. exists y. split; [now left|exact Q].
      * now intros (z & [<-|[]] & Q).
    + unfold isConnected. cbn [length vget nth_error bind]. replace (Z.of_nat 1 =? 1) with true by reflexivity.
      replace (Z.of_nat (S (S (length lj))) =? 1) with false by (symmetry; apply Z.eqb_neq; lia). cbn [andb orb].
      apply existsM_spec. intros y' Hy. apply LOC; [now left|exact Hy].
  - destruct lj as [|y [|y2 lj]]; [contradiction| |].
    + unfold isConnected. cbn [length vget nth_error bind]. replace (Z.of_nat 1 =? 1) with true by reflexivity.
      replace (Z.of_nat (S (S (length li))) =? 1) with false by (symmetry; apply Z.eqb_neq; lia). cbn [andb orb].
      apply existsM_spec. intros x' Hx. apply LOC'; [exact Hx|now left].
    + set (A := x :: x2 :: li) in *. set (B := y :: y2 :: lj) in *.
      assert (LA : (2 <= length A)%nat) by (cbn; lia). assert (LB : (2 <= length B)%nat) by (cbn; lia).
      unfold isConnected. replace (Z.of_nat (length A) =? 1) with false by (symmetry; apply Z.eqb_neq; lia).
      replace (Z.of_nat (length B) =? 1) with false by (symmetry; apply Z.eqb_neq; lia). cbn [andb orb].
      destruct (inter_spec (length A + length B) A B Si Sj (le_n _)) as (NI & EI). set (I := setIntersection _ A B) in *.
      pose proof (count_spec A B I (sorted_nodup _ Si) NI EI) as CA.
      assert (CB : (length I + 1 = length B)%nat <-> shares_all_but_one B A) by (apply count_spec; [now apply sorted_nodup|exact NI|intros z; rewrite EI; tauto]).
      assert (J : joined bs A B <-> shares_all_but_one A B \/ shares_all_but_one B A \/ ((forall x, In x A -> ~ In x B) /\ (covered bs A B \/ covered bs B A))) by reflexivity.
      destruct ((Z.of_nat (length I) =? Z.of_nat (length A) - 1) || (Z.of_nat (length I) =? Z.of_nat (length B) - 1)) eqn:T.
      * exists true. split; [reflexivity|]. split; [|reflexivity]. intros _. apply J. apply orb_prop in T. rewrite !Z.eqb_eq in T.
        destruct T as [T|T]; [left; apply CA; lia|right; left; apply CB; lia].
      * apply orb_false_elim in T. rewrite !Z.eqb_neq in T. destruct T as (T1 & T2).
        assert (N1 : ~ shares_all_but_one A B) by (rewrite <- CA; lia). assert (N2 : ~ shares_all_but_one B A) by (rewrite <- CB; lia).
        destruct (Z.eqb_spec (Z.of_nat (length I)) 0) as [Z0|NZ].
        -- assert (DJ : forall z, In z A -> ~ In z B). { intros z HA HB. assert (H : In z I) by now apply EI. destruct I; [contradiction|cbn in Z0; lia]. }
           destruct (forallM_spec (fun i => existsM (fun j => isLocallyConnected bs i j) B) (fun i => exists j, In j B /\ neighbours bs i j) A) as (r & E & H).
           { intros i Hi. apply existsM_spec. intros j Hj. now apply LOC. }
           rewrite E. cbn [bind]. destruct r.
           ++ exists true. split; [reflexivity|]. split; [|reflexivity]. intros _. apply J. right; right. split; [exact DJ|]. left. intros i Hi. now apply H.
           ++ destruct (forallM_spec (fun j => existsM (fun i => isLocallyConnected bs i j) A) (fun j => exists i, In i A /\ neighbours bs i j) B) as (r & E' & H').
              { intros j Hj. apply existsM_spec. intros i Hi. now apply LOC. }
              exists r. split; [exact E'|]. rewrite J. split.
              ** intros Q. right; right. split; [exact DJ|]. right. intros j Hj. destruct (proj1 H' Q j Hj) as (i & Hi & Ni'). exists i. split; [exact Hi|now apply neighbours_sym].
              ** intros [Q|[Q|(_ & [Q|Q])]]; [contradiction|contradiction| |].
                 --- exfalso. enough (false = true) by discriminate. apply H. exact Q.
                 --- apply H'. intros j Hj. destruct (Q j Hj) as (i & Hi & Ni'). exists i. split; [exact Hi|now apply neighbours_sym].
        -- exists false. split; [reflexivity|]. split; [discriminate|]. rewrite J. intros [Q|[Q|(Q & _)]]; [contradiction|contradiction|].
           exfalso. destruct I as [|z I'] eqn:EQ; [cbn in NZ; lia|]. destruct (proj1 (EI z) (or_introl eq_refl)) as (H1 & H2). exact (Q z H1 H2).
Qed.

Lemma joined_sym l l' : joined bs l l' -> joined bs l' l.
Proof.
  assert (W : forall x y z, In y [x] -> neighbours bs z y -> neighbours bs x z) by (intros x y z [<-|[]]; apply neighbours_sym).
  destruct l as [|x [|x2 l]], l' as [|y [|y2 l']]; cbn [joined]; intros J; try exact J;
    try (destruct J as [Q|[Q|(A & Q)]]; [tauto|tauto|right; right; split; [intros z H1 H2; exact (A z H2 H1)|tauto]]).
  - destruct J as (z & [<-|[]] & Q). exists x. split; [now left|now apply neighbours_sym].
Qed.

Theorem symmetric_pf : forall li lj, locals_ok bs li -> locals_ok bs lj -> isConnected bs li lj = isConnected bs lj li.
Proof.
  intros li lj A B. destruct (connected_pf li lj A B) as (r & E & H). destruct (connected_pf lj li B A) as (r' & E' & H'). rewrite E, E'. f_equal.
  assert (W : joined bs li lj <-> joined bs lj li) by (split; apply joined_sym). destruct r, r'; try reflexivity.
  - symmetry. apply H', W, H. reflexivity.
  - apply H, W, H'. reflexivity.
Qed.

Theorem irreflexive_pf : forall l, locals_ok bs l -> isConnected bs l l = Ok false.
Proof.
  intros l A. destruct (connected_pf l l A A) as (r & -> & H). destruct r; [|reflexivity]. exfalso.
  pose proof (proj1 H eq_refl) as J. clear H. destruct A as (N & S & V).
  destruct l as [|x [|x2 l]]; [contradiction| |].
  - destruct J as (y & [<-|[]] & Q). exact (neighbours_irrefl _ Q).
  - destruct J as [(y & P1 & P2 & _)|[(y & P1 & P2 & _)|(D & _)]]; [contradiction|contradiction|]. apply (D x); now left.
Qed.

Theorem single_pf : forall a b, valid a -> valid b -> exists r, isConnected bs [a] [b] = Ok r /\ (r = true <-> neighbours bs a b).
Proof. intros a b A B. exact (local_spec a b A B). Qed.

Lemma mapM_concat {A B} (f : A -> res (list B)) l : (forall x, In x l -> exists y, f x = Ok y) ->
  exists ll, mapM f l = Ok ll /\ forall b, In b (concat ll) <-> exists x y, In x l /\ f x = Ok y /\ In b y.
Proof.
  induction l as [|x l IH]; intros H; [exists []; split; [reflexivity|]; intros b; split; [intros []|intros (x & y & [] & _)]|].
  destruct (H x (or_introl eq_refl)) as (y & E). destruct IH as (ll & EE & Q); [intros; apply H; now right|].
  exists (y :: ll). cbn [mapM]. rewrite E, EE. split; [reflexivity|]. intros b. cbn [concat]. rewrite in_app_iff, Q. split.
  - intros [K|(x' & y' & K1 & K2 & K3)]; [exists x, y; split; [now left|now split]|exists x', y'; split; [now right|now split]].
  - intros (x' & y' & [<-|K1] & K2 & K3); [left; congruence|right; exists x', y'; now repeat split].
Qed.
Lemma mapM_concat_nodup {A B} (f : A -> res (list B)) l ll : mapM f l = Ok ll -> NoDup l ->
  (forall x y, In x l -> f x = Ok y -> NoDup y) ->
  (forall x x' y y' b, In x l -> In x' l -> f x = Ok y -> f x' = Ok y' -> In b y -> In b y' -> x = x') -> NoDup (concat ll).
Proof.
  revert ll. induction l as [|x l IH]; intros ll E N D1 D2; cbn [mapM] in E; [injection E as <-; constructor|].
  destruct (f x) as [y|] eqn:F; [|discriminate]. destruct (mapM f l) as [l2|] eqn:M; [|discriminate]. injection E as <-.
  apply NoDup_cons_iff in N. destruct N as (N1 & N2). cbn [concat]. apply NoDup_app_iff. split; [now apply (D1 x); [left|]|]. split.
  - apply IH; [reflexivity|exact N2|intros; eapply D1; [right|]; eassumption|intros; eapply D2; try (right; eassumption); eassumption].
  - intros b Hb Hb'. apply in_concat in Hb'. destruct Hb' as (y' & Hy' & Hb').
    assert (G : exists x', In x' l /\ f x' = Ok y').
    { clear - M Hy'. revert l2 M Hy'. induction l as [|z l IH]; intros l2 M H; cbn [mapM] in M; [injection M as <-; destruct H|].
      destruct (f z) as [w|] eqn:F; [|discriminate]. destruct (mapM f l) as [l3|] eqn:M3; [|discriminate]. injection M as <-.
      destruct H as [->|H]; [exists z; split; [now left|exact F]|]. destruct (IH l3 eq_refl H) as (x' & P & Q). exists x'. split; [now right|exact Q]. }
    destruct G as (x' & P & Q). apply N1. rewrite (D2 x x' y y' b (or_introl eq_refl) (or_intror P) F Q Hb Hb'). exact P.
Qed.

Theorem edges_pf : forall locals, (forall l, In l locals -> locals_ok bs l) ->
  exists E, connectivity bs locals = Ok E /\ NoDup E /\
    forall i j, In (i, j) E <-> (i < j)%nat /\ exists a b, nth_error locals i = Some a /\ nth_error locals j = Some b /\ joined bs a b.
Proof.
  intros L OK.
  assert (GET : forall i, (i < length L)%nat -> exists a, nth_error L i = Some a /\ vget L i = Ok a).
  { intros i H. apply nth_error_Some in H. destruct (nth_error L i) as [a|] eqn:E; [|congruence]. exists a. unfold vget. now rewrite E. }
  set (inner := fun i j => do a <- vget L i; do b <- vget L j; do c <- isConnected bs a b; Ok (if c then [(i, j)] else [])).
  assert (IN : forall i j, (i < length L)%nat -> (j < length L)%nat -> exists y, inner i j = Ok y /\ NoDup y /\
     (forall e, In e y <-> e = (i, j) /\ exists a b, nth_error L i = Some a /\ nth_error L j = Some b /\ joined bs a b)).
  { intros i j Hi Hj. destruct (GET i Hi) as (a & Ea & Ga). destruct (GET j Hj) as (b & Eb & Gb). unfold inner. rewrite Ga, Gb. cbn [bind].
    destruct (connected_pf a b (OK _ (nth_error_In _ _ Ea)) (OK _ (nth_error_In _ _ Eb))) as (r & -> & H). cbn [bind]. destruct r.
    - eexists. split; [reflexivity|]. split; [repeat constructor; intros []|]. intros e. split.
      + intros [<-|[]]. split; [reflexivity|]. exists a, b. repeat split; try assumption. now apply H.
      + intros (-> & _). now left.
    - eexists. split; [reflexivity|]. split; [constructor|]. intros e. split; [intros []|]. intros (_ & a' & b' & E1 & E2 & J). assert (a' = a) by congruence. assert (b' = b) by congruence. subst. apply H in J. discriminate. }
  set (outer := fun i => do lj <- mapM (inner i) (seq (i + 1) (length L - (i + 1))); Ok (concat lj)).
  assert (OUT : forall i, (i < length L)%nat -> exists y, outer i = Ok y /\ NoDup y /\
     forall e, In e y <-> exists j, (i < j)%nat /\ e = (i, j) /\ exists a b, nth_error L i = Some a /\ nth_error L j = Some b /\ joined bs a b).
  { intros i Hi. unfold outer.
    assert (R : forall j, In j (seq (i + 1) (length L - (i + 1))) -> exists y, inner i j = Ok y).
    { intros j Hj. apply in_seq in Hj. destruct (IN i j Hi) as (y & E & _); [lia|]. now exists y. }
    destruct (mapM_concat _ _ R) as (ll & E & Q). rewrite E. cbn [bind]. eexists. split; [reflexivity|]. split.
    - apply (mapM_concat_nodup _ _ _ E); [apply seq_NoDup| |].
      + intros j y Hj Ej. apply in_seq in Hj. destruct (IN i j Hi) as (y' & E' & N' & _); [lia|]. congruence.
      + intros j j' y y' e Hj Hj' Ej Ej' He He'. apply in_seq in Hj, Hj'. destruct (IN i j Hi) as (z & F & _ & P); [lia|]. destruct (IN i j' Hi) as (z' & F' & _ & P'); [lia|].
        assert (z = y) by congruence. assert (z' = y') by congruence. subst. apply P in He. apply P' in He'. destruct He as (-> & _), He' as (He' & _). congruence.
    - intros e. rewrite Q. split.
      + intros (j & y & Hj & Ej & He). apply in_seq in Hj. destruct (IN i j Hi) as (z & F & _ & P); [lia|]. assert (z = y) by congruence. subst. apply P in He. exists j. split; [lia|]. exact He.
      + intros (j & Lt & -> & a & b & Ea & Eb & J). assert (Hj : (j < length L)%nat) by (apply nth_error_Some; congruence).
        destruct (IN i j Hi Hj) as (z & F & _ & P). exists j, z. split; [apply in_seq; lia|]. split; [exact F|]. apply P. split; [reflexivity|]. now exists a, b. }
  assert (R : forall i, In i (seq 0 (length L)) -> exists y, outer i = Ok y).
  { intros i Hi. apply in_seq in Hi. destruct (OUT i) as (y & E & _); [lia|]. now exists y. }
  destruct (mapM_concat _ _ R) as (ll & E & Q).
  exists (concat ll). split; [unfold connectivity; change (mapM _ (seq 0 (length L))) with (mapM outer (seq 0 (length L))); rewrite E; reflexivity|]. split.
  - apply (mapM_concat_nodup _ _ _ E); [apply seq_NoDup| |].
    + intros i y Hi Ei. apply in_seq in Hi. destruct (OUT i) as (z & F & N & _); [lia|]. congruence.
    + intros i i' y y' e Hi Hi' Ei Ei' He He'. apply in_seq in Hi, Hi'. destruct (OUT i) as (z & F & _ & P); [lia|]. destruct (OUT i') as (z' & F' & _ & P'); [lia|].
      assert (z = y) by congruence. assert (z' = y') by congruence. subst. apply P in He. apply P' in He'. destruct He as (j & _ & -> & _), He' as (j' & _ & He' & _). congruence.
  - intros i j. rewrite Q. split.
    + intros (i' & y & Hi & Ei & He). apply in_seq in Hi. destruct (OUT i') as (z & F & _ & P); [lia|]. assert (z = y) by congruence. subst. apply P in He.
      destruct He as (j' & Lt & EQ & H). injection EQ as -> ->. split; [exact Lt|exact H].
    + intros (Lt & a & b & Ea & Eb & J). assert (Hi : (i < length L)%nat) by (apply nth_error_Some; congruence). destruct (OUT i Hi) as (z & F & _ & P).
      exists i, z. split; [apply in_seq; lia|]. split; [exact F|]. apply P. exists j. split; [exact Lt|]. split; [reflexivity|]. now exists a, b.
Qed.
End S.
