(** Proofs for C38. *)
From Coq Require Import Sorted.
From Verif Require Import Common TopoModel TopoSpec VertexModel VertexSpec RepairModel RepairSpec ListLemmas TopoProofs VertexProofs VertexProofs2 VertexProofs3.
Open Scope nat_scope.

(** ** Lists of knots *)
Lemma strict_sorted u : (forall i j a b, i < j -> nth_error u i = Some a -> nth_error u j = Some b -> (a < b)%Z) <-> StronglySorted Z.lt u.
Proof.
  induction u as [|x u IH]; [split; [constructor|intros _ i j a b _ A; destruct i; discriminate]|]. rewrite strict_cons, IH. split.
  - intros (A & B). constructor; [exact A|]. apply Forall_forall. exact B.
  - intros H. inversion H as [|? ? A B]; subst. split; [exact A|]. now apply Forall_forall.
Qed.
Lemma le_asc l : StronglySorted Z.le l -> ascending l.
Proof.
  induction 1 as [|a l S IH F]; intros [|i] [|j] x y L X Y; try discriminate; try lia.
  - injection X as <-. injection Y as <-. lia.
  - injection X as <-. rewrite Forall_forall in F. apply F. eapply nth_error_In; exact Y.
  - apply (IH i j); [lia|exact X|exact Y].
Qed.
Lemma zsort_in l x : In x (zsort l) <-> In x l.
Proof. induction l as [|a l IH]; [reflexivity|]. cbn [zsort fold_right]. change (fold_right zinsert [] l) with (zsort l). rewrite zinsert_in, IH. cbn. tauto. Qed.
Lemma sortUnique_spec l : StronglySorted Z.lt (sortUnique l) /\ forall x, In x (sortUnique l) <-> In x l.
Proof.
  pose proof (uniques_breakpoints (zsort l) (le_asc _ (zsort_sorted l))) as (A & B). split; [now apply strict_sorted|]. intros x. unfold sortUnique. rewrite A. apply zsort_in.
Qed.

Definition inside (L : Z) (m : list Z) : Prop := StronglySorted Z.lt m /\ forall x, In x m -> (0 < x < L)%Z.
Lemma simple_inside p L mid k : simple_open p L mid k <-> k = repeat 0%Z (p + 1) ++ mid ++ repeat L (p + 1) /\ (0 < L)%Z /\ inside L mid.
Proof.
  split.
  - intros (E & H). destruct (simple_strict L mid H) as (A & B & C). split; [exact E|]. split; [exact A|]. split; [|exact B]. now apply strict_sorted.
  - intros (E & P & S & B). split; [exact E|]. split; [tauto|]. apply strict_sorted. constructor.
    + clear E. induction S as [|x m S IH F]; [repeat constructor|]. cbn. constructor; [apply IH; intros; apply B; now right|]. apply Forall_app. split; [exact F|]. constructor; [apply B; now left|constructor].
    + apply Forall_forall. intros x Hx. apply in_app_iff in Hx. destruct Hx as [Hx|[<-|[]]]; [now apply B|exact P].
Qed.
Lemma simple_in p L mid k x : simple_open p L mid k -> In x k <-> x = 0%Z \/ x = L \/ In x mid.
Proof.
  intros (-> & _). rewrite !in_app_iff. split.
  - intros [H|[H|H]]; [left; now apply repeat_spec in H|tauto|right; left; now apply repeat_spec in H].
  - intros [->|[->|H]]; [left|right; right|tauto]; rewrite Nat.add_1_r; now left.
Qed.
Lemma simple_hd_last p L mid k : simple_open p L mid k -> (hd 0 k + last k 0)%Z = L.
Proof. intros (-> & _). rewrite app_assoc, last_app_repeat. rewrite Nat.add_1_r. reflexivity. Qed.

(** ** Comparing *)
Lemma cmp_cons x k y kN : compareKnots (x :: k) (y :: kN) =
  if (x =? y)%Z then compareKnots k kN else if (x <? y)%Z then do r <- compareKnots k (y :: kN); Ok (true, snd r) else do r <- compareKnots (x :: k) kN; Ok (fst r, y :: snd r).
Proof. reflexivity. Qed.
Lemma cmp_same T a b : compareKnots (T ++ a) (T ++ b) = compareKnots a b.
Proof. induction T as [|x T IH]; [reflexivity|]. cbn [app]. now rewrite cmp_cons, Z.eqb_refl. Qed.

Lemma cmp_spec L q m : inside L m -> forall mN, inside L mN ->
  exists e l, compareKnots (m ++ repeat L (S q)) (mN ++ repeat L (S q)) = Ok (e, l) /\
    (e = true <-> exists x, In x m /\ ~ In x mN) /\ forall y, In y l <-> In y mN /\ ~ In y m.
Proof.
  induction m as [|x m IH]; intros IM.
  - induction mN as [|y mN IHN]; intros IN.
    + exists false, []. split; [|split; [split; [discriminate|intros (x & [] & _)]|cbn; tauto]].
      cbn [app]. rewrite <- (app_nil_r (repeat L (S q))). now rewrite cmp_same.
    + destruct IN as (S & B). inversion S as [|? ? S' F]; subst. destruct IHN as (e & l & E & HE & HL); [split; [exact S'|intros; apply B; now right]|].
      exists e, (y :: l). cbn [app repeat] in *. rewrite cmp_cons. specialize (B y (or_introl eq_refl)).
      replace (L =? y)%Z with false by (symmetry; apply Z.eqb_neq; lia). replace (L <? y)%Z with false by (symmetry; apply Z.ltb_ge; lia). rewrite E. cbn [bind fst snd].
      split; [reflexivity|]. split.
      * rewrite HE. split; intros (z & [] & _).
      * intros z. cbn [In]. rewrite HL. cbn [In]. tauto.
  - destruct IM as (SM & BM). inversion SM as [|? ? SM' FM]; subst. rewrite Forall_forall in FM.
    assert (IM' : inside L m) by (split; [exact SM'|intros; apply BM; now right]). specialize (IH IM'). pose proof (BM x (or_introl eq_refl)) as Bx.
    induction mN as [|y mN IHN]; intros IN.
    + destruct (IH [] IN) as (e & l & E & HE & HL). exists true, l. cbn [app repeat] in *. rewrite cmp_cons.
      replace (x =? L)%Z with false by (symmetry; apply Z.eqb_neq; lia). replace (x <? L)%Z with true by (symmetry; apply Z.ltb_lt; lia). rewrite E. cbn [bind snd].
      split; [reflexivity|]. split; [split; [intros _; exists x; split; [now left|intros []]|reflexivity]|]. intros z. rewrite HL. cbn [In]. tauto.
    + destruct IN as (SN & BN). inversion SN as [|? ? SN' FN]; subst. rewrite Forall_forall in FN.
      assert (IN' : inside L mN) by (split; [exact SN'|intros; apply BN; now right]). cbn [app]. rewrite cmp_cons. destruct (Z.eqb_spec x y) as [->|NE].
      * destruct (IH mN IN') as (e & l & E & HE & HL). exists e, l. split; [exact E|]. split.
        -- rewrite HE. split; intros (z & A & B).
           ++ exists z. split; [now right|]. intros [<-|C]; [specialize (FM _ A); lia|contradiction].
           ++ exists z. destruct A as [<-|A]; [exfalso; apply B; now left|]. split; [exact A|]. intros C. apply B. now right.
        -- intros z. rewrite HL. cbn [In]. split; intros (A & B).
           ++ split; [now right|]. intros [<-|C]; [specialize (FN _ A); lia|contradiction].
           ++ destruct A as [<-|A]; [exfalso; apply B; now left|]. split; [exact A|tauto].
      * destruct (Z.ltb_spec x y) as [LT|GE].
        -- destruct (IH (y :: mN) (conj SN BN)) as (e & l & E & HE & HL). cbn [app] in E. rewrite E. cbn [bind snd]. exists true, l. split; [reflexivity|].
           assert (NX : ~ In x (y :: mN)) by (intros [->|C]; [lia|specialize (FN _ C); lia]). split; [split; [intros _; exists x; split; [now left|exact NX]|reflexivity]|].
           intros z. rewrite HL. split; intros (A & B); (split; [exact A|]); [intros [<-|C]; contradiction|]. intros C. apply B. now right.
        -- destruct (IHN IN') as (e & l & E & HE & HL). rewrite app_comm_cons, E. cbn [bind fst snd]. exists e, (y :: l). split; [reflexivity|].
           assert (NY : ~ In y (x :: m)) by (intros [->|C]; [lia|specialize (FM _ C); lia]). split.
           ++ rewrite HE. split; intros (z & A & B); exists z; (split; [exact A|]); [intros [<-|C]; contradiction|]. intros C. apply B. now right.
           ++ intros z. cbn [In]. rewrite HL. split; [intros [<-|(A & B)]; [split; [now left|exact NY]|split; [now right|exact B]]|]. intros ([<-|A] & B); [now left|right; split; assumption].
Qed.

Lemma cmp_simple p L m mN k kN : simple_open p L m k -> simple_open p L mN kN ->
  exists e l, compareKnots k kN = Ok (e, l) /\ (e = true <-> exists x, In x k /\ ~ In x kN) /\ forall y, In y l <-> In y kN /\ ~ In y k.
Proof.
  intros A B. pose proof simple_in as IA. pose proof A as A'. pose proof B as B'. apply simple_inside in A', B'. destruct A' as (-> & PL & IM), B' as (-> & _ & IN).
  destruct (cmp_spec L p m IM mN IN) as (e & l & E & HE & HL). exists e, l. rewrite cmp_same. rewrite Nat.add_1_r at 1 2. split; [exact E|].
  assert (N0 : ~ In 0%Z m /\ ~ In 0%Z mN /\ ~ In L m /\ ~ In L mN) by (repeat split; intros C; [apply IM in C|apply IN in C|apply IM in C|apply IN in C]; lia). destruct N0 as (N1 & N2 & N3 & N4).
  split.
  - rewrite HE. split; intros (x & X & Y); exists x; rewrite (IA _ _ _ _ _ A), (IA _ _ _ _ _ B) in *.
    + split; [tauto|]. intros [->|[->|C]]; contradiction.
    + destruct X as [->|[->|X]]; [exfalso; tauto|exfalso; tauto|]. split; [exact X|tauto].
  - intros y. rewrite HL, (IA _ _ _ _ _ A), (IA _ _ _ _ _ B). split.
    + intros (X & Y). split; [tauto|]. intros [->|[->|C]]; contradiction.
    + intros ([->|[->|X]] & Y); [exfalso; tauto|exfalso; tauto|]. split; [exact X|tauto].
Qed.

(** ** Inserting *)
Lemma zinsert_lt y l : StronglySorted Z.lt l -> ~ In y l -> StronglySorted Z.lt (zinsert y l).
Proof.
  induction 1 as [|a l S IH F]; intros N; [repeat constructor|]. cbn [zinsert]. rewrite Forall_forall in F. destruct (Z.ltb_spec a y).
  - constructor; [apply IH; intros C; apply N; now right|]. apply Forall_forall. intros z Hz. apply zinsert_in in Hz. destruct Hz as [<-|Hz]; [lia|now apply F].
  - assert (y < a)%Z by (destruct (Z.eq_dec a y) as [->|]; [exfalso; apply N; now left|lia]). constructor; [constructor; [exact S|now apply Forall_forall]|]. apply Forall_forall. intros z [<-|Hz]; [assumption|]. specialize (F z Hz). lia.
Qed.
Lemma zinsert_mid' p y m L : (0 < y < L)%Z -> zinsert y (repeat 0%Z (p + 1) ++ m ++ repeat L (p + 1)) = repeat 0%Z (p + 1) ++ zinsert y m ++ repeat L (p + 1).
Proof.
  intros Y. assert (Q : forall j, zinsert y (repeat 0%Z j ++ m ++ repeat L (p + 1)) = repeat 0%Z j ++ zinsert y m ++ repeat L (p + 1)).
  { induction j as [|j IH].
    - cbn [repeat app]. rewrite Nat.add_1_r. induction m as [|a m IHm]; cbn [app repeat zinsert].
      + replace (L <? y)%Z with false by (symmetry; apply Z.ltb_ge; lia). reflexivity.
      + destruct (a <? y)%Z; [|reflexivity]. cbn [app]. f_equal. exact IHm.
    - cbn [repeat app zinsert]. replace (0 <? y)%Z with true by (symmetry; apply Z.ltb_lt; lia). f_equal. exact IH. }
  apply Q.
Qed.
Lemma insert_in ins k x : In x (fold_right zinsert k ins) <-> In x ins \/ In x k.
Proof. induction ins as [|y ins IH]; cbn [fold_right]; [cbn; tauto|]. rewrite zinsert_in, IH. cbn. tauto. Qed.
Lemma insert_simple p L ins : forall mid k, simple_open p L mid k -> NoDup ins -> (forall y, In y ins -> (0 < y < L)%Z /\ ~ In y k) ->
  exists mid', simple_open p L mid' (fold_right zinsert k ins).
Proof.
  induction ins as [|y ins IH]; intros mid k S N H; [now exists mid|]. cbn [fold_right]. inversion N as [|? ? N1 N2]; subst.
  destruct (IH mid k S N2) as (mid' & S'); [intros; apply H; now right|]. destruct (H y (or_introl eq_refl)) as (Y & NY).
  assert (NM : ~ In y mid'). { intros C. assert (K : In y (fold_right zinsert k ins)) by (apply (simple_in _ _ _ _ y S'); tauto). apply insert_in in K. tauto. }
  exists (zinsert y mid'). apply simple_inside in S'. destruct S' as (E & PL & I1 & I2). apply simple_inside. split; [|split; [exact PL|split]].
  - rewrite E. now apply zinsert_mid'.
  - now apply zinsert_lt.
  - intros x Hx. apply zinsert_in in Hx. destruct Hx as [<-|Hx]; [exact Y|now apply I2].
Qed.
