(** Proofs for C62: inner knots of the geometry. *)
From Coq Require Import Reals Qreals Lra ZifyBool Sorted.
From Verif Require Import Common BaseModel ReparamModel C1Model SpaceModel SpaceSpec PolyProofs SpaceProofs.
Open Scope Z_scope.

Lemma Qeqb_iff x y : Qeq_bool x y = true <-> (x == y)%Q. Proof. split; [apply Qeq_bool_eq|apply Qeq_eq_bool]. Qed.
Lemma Qeqb_false x y : Qeq_bool x y = false <-> ~ (x == y)%Q. Proof. rewrite <- Qeqb_iff. destruct (Qeq_bool x y); split; congruence. Qed.
Lemma Qleb_false x y : (y < x)%Q -> Qle_bool x y = false.
Proof. intros L. destruct (Qle_bool x y) eqn:E; [|reflexivity]. apply Qle_bool_iff in E. exfalso. apply (Qlt_not_le _ _ L E). Qed.

Lemma split_at l x : knots_ok l -> (0 < mult l x)%nat -> exists l1 x' l2, l = l1 ++ (x', mult l x) :: l2 /\ (x' == x)%Q /\ Forall (fun a => (fst a < x)%Q) l1 /\ Forall (fun a => (x < fst a)%Q) l2.
Proof.
  intros (S & P). induction S as [|(y & m) l S IH F]; cbn [mult]; [lia|]. inversion P as [|? ? P1 P2]; subst. destruct (Qeq_bool y x) eqn:E.
  - intros _. apply Qeqb_iff in E. exists [], y, l. split; [reflexivity|]. split; [exact E|]. split; [constructor|]. revert F. apply Forall_impl. intros a L. cbn in L. rewrite <- E. exact L.
  - intros M. destruct (IH P2 M) as (l1 & x' & l2 & EL & EX & A & B). exists ((y, m) :: l1), x', l2. split; [cbn; congruence|]. split; [exact EX|]. split; [|exact B]. constructor; [|exact A]. cbn. rewrite <- EX.
    rewrite EL in F. rewrite Forall_forall in F. apply (F (x', mult l x)). apply in_or_app. right. left. reflexivity.
Qed.
Lemma mult_none l x : Forall (fun a => ~ (fst a == x)%Q) l -> mult l x = 0%nat.
Proof. intros F. induction F as [|(y & m) l N F IH]; [reflexivity|]. cbn [mult]. replace (Qeq_bool y x) with false; [exact IH|]. symmetry. apply Qeqb_false. exact N. Qed.
Lemma mult_app l1 l2 x : mult (l1 ++ l2) x = if (mult l1 x =? 0)%nat && negb (existsb (fun a => Qeq_bool (fst a) x) l1) then mult l2 x else mult l1 x.
Proof.
  induction l1 as [|(y & m) l IH]; [reflexivity|]. cbn [app mult existsb fst]. destruct (Qeq_bool y x); cbn [orb negb]; [rewrite andb_false_r; reflexivity|exact IH].
Qed.
Lemma less_ne (l : list (Q * nat)) x : Forall (fun a => (fst a < x)%Q) l -> Forall (fun a => ~ (fst a == x)%Q) l.
Proof. apply Forall_impl. intros a L E. rewrite E in L. apply (Qlt_irrefl x L). Qed.
Lemma more_ne (l : list (Q * nat)) x : Forall (fun a => (x < fst a)%Q) l -> Forall (fun a => ~ (fst a == x)%Q) l.
Proof. apply Forall_impl. intros a L E. rewrite E in L. apply (Qlt_irrefl x L). Qed.
Lemma none_exists (l : list (Q * nat)) x : Forall (fun a => ~ (fst a == x)%Q) l -> existsb (fun a => Qeq_bool (fst a) x) l = false.
Proof. intros F. induction F as [|a l N F IH]; [reflexivity|]. cbn [existsb]. rewrite IH. apply Qeqb_false in N. rewrite N. reflexivity. Qed.

Lemma uFind_split l1 x' m l2 x : (x' == x)%Q -> Forall (fun a => (fst a < x)%Q) l1 -> Forall (fun a => (x < fst a)%Q) l2 -> uFind (l1 ++ (x', m) :: l2) x = Some (length l1).
Proof.
  intros E A B. induction A as [|(y & k) l1 L A IH]; cbn [app uFind length].
  - replace (Qle_bool x' x) with true by (symmetry; apply Qle_bool_iff; rewrite E; apply Qle_refl). destruct l2 as [|(z & k) l2]; [reflexivity|]. inversion B as [|? ? B1 B2]; subst. cbn [uFind]. rewrite (Qleb_false z x B1). reflexivity.
  - cbn in L. replace (Qle_bool y x) with true by (symmetry; apply Qle_bool_iff, Qlt_le_weak; exact L). rewrite IH. reflexivity.
Qed.
Lemma kinsert_split l1 x' m l2 x n : (x' == x)%Q -> Forall (fun a => (fst a < x)%Q) l1 -> kinsert (l1 ++ (x', m) :: l2) x n = l1 ++ (x', m + n)%nat :: l2.
Proof.
  intros E A. induction A as [|(y & k) l1 L A IH]; cbn [app kinsert].
  - apply Qeqb_iff in E. rewrite E. reflexivity.
  - cbn in L. replace (Qeq_bool y x) with false by (symmetry; apply Qeqb_false; intros E'; rewrite E' in L; apply (Qlt_irrefl x L)). replace (Qle_bool y x) with true by (symmetry; apply Qle_bool_iff, Qlt_le_weak; exact L). rewrite IH. reflexivity.
Qed.
Lemma kremove_split l1 x' m l2 n : kremove (l1 ++ (x', m) :: l2) (length l1) n = l1 ++ (if (m <=? n)%nat then [] else [(x', m - n)%nat]) ++ l2.
Proof. induction l1 as [|(y & k) l1 IH]; cbn [app kremove length]; [destruct (m <=? n)%nat; reflexivity|]. rewrite IH. reflexivity. Qed.

(** replace the multiplicity of one knot *)
Definition with_mult (l1 : list (Q * nat)) (x' : Q) (m : nat) (l2 : list (Q * nat)) : list (Q * nat) := l1 ++ (if (m =? 0)%nat then [] else [(x', m)]) ++ l2.
Lemma with_mult_ok l1 x' m l2 k x : knots_ok (l1 ++ (x', k) :: l2) -> (x' == x)%Q -> Forall (fun a => (fst a < x)%Q) l1 -> Forall (fun a => (x < fst a)%Q) l2 ->
  knots_ok (with_mult l1 x' m l2) /\ forall y, mult (with_mult l1 x' m l2) y = if Qeq_bool x y then m else mult (l1 ++ (x', k) :: l2) y.
Proof.
  intros (S & P) E A B. unfold with_mult. split.
  - split.
    + revert S. clear. induction l1 as [|a l1 IH]; cbn [app]; intros S; inversion S as [|? ? S1 S2]; subst.
      * destruct (m =? 0)%nat; cbn [app]; [exact S1|]. constructor; [exact S1|exact S2].
      * constructor; [exact (IH S1)|]. rewrite Forall_app in *. destruct S2 as (S2 & S3). inversion S3; subst. split; [exact S2|]. destruct (m =? 0)%nat; cbn [app]; [assumption|constructor; assumption].
    + rewrite Forall_app in *. destruct P as (P1 & P2). inversion P2; subst. split; [exact P1|]. destruct (m =? 0)%nat eqn:EM; cbn [app]; [assumption|constructor; [cbn; lia|assumption]].
  - intros y. rewrite !mult_app. destruct (Qeq_bool x y) eqn:EY.
    + apply Qeqb_iff in EY. assert (NA : Forall (fun a => ~ (fst a == y)%Q) l1) by (apply less_ne; revert A; apply Forall_impl; intros a L; rewrite <- EY; exact L). rewrite (mult_none l1 y NA), (none_exists l1 y NA). cbn [Nat.eqb negb andb].
      destruct (Nat.eqb_spec m 0) as [->|NM]; cbn [app mult existsb fst negb]; [apply mult_none, more_ne; revert B; apply Forall_impl; intros a L; rewrite <- EY; exact L|].
      assert (E' : Qeq_bool x' y = true) by (apply Qeqb_iff; rewrite E; exact EY). rewrite E'. cbn [orb negb]. rewrite andb_false_r. reflexivity.
    + assert (E' : Qeq_bool x' y = false) by (apply Qeqb_false; apply Qeqb_false in EY; intros H; apply EY; rewrite <- E; exact H). destruct (m =? 0)%nat; cbn [app mult existsb fst]; rewrite E'; [reflexivity|]. cbn [orb negb Nat.eqb andb]. reflexivity.
Qed.

Definition target (minus : bool) (pg pb mg m : nat) : nat :=
  let rgeo := Z.of_nat pg - Z.of_nat mg - (if minus then 1 else 0) in
  if minus && (Z.of_nat pb - Z.of_nat m =? 0) && (rgeo =? 0) then (m - 1)%nat else Z.to_nat (Z.of_nat pb - rgeo).
Lemma geoStep_ok minus pg pb l x mg : knots_ok l -> (0 < mult l x)%nat -> exists l', geoStep minus pg pb l (x, mg) = Ok l' /\ knots_ok l' /\ forall y, mult l' y = if Qeq_bool x y then target minus pg pb mg (mult l x) else mult l y.
Proof.
  intros K M. destruct (split_at l x K M) as (l1 & x' & l2 & EL & EX & A & B). remember (mult l x) as m eqn:EM. clear EM. subst l. unfold geoStep, target. cbn [fst snd]. set (rgeo := _ - _ - _).
  rewrite (uFind_split l1 x' m l2 x EX A B). unfold vget. rewrite nth_error_app2, Nat.sub_diag by lia. cbn [nth_error bind snd].
  assert (W : forall k, knots_ok (with_mult l1 x' k l2) /\ forall y, mult (with_mult l1 x' k l2) y = if Qeq_bool x y then k else mult (l1 ++ (x', m) :: l2) y) by (intros k; exact (with_mult_ok l1 x' k l2 m x K EX A B)).
  destruct (Z.ltb_spec rgeo (Z.of_nat pb - Z.of_nat m)) as [G|G].
  - rewrite (kinsert_split l1 x' m l2 x _ EX A). eexists. split; [reflexivity|]. replace (minus && (Z.of_nat pb - Z.of_nat m =? 0) && (rgeo =? 0)) with false by (destruct minus; lia).
    replace (l1 ++ (x', (m + Z.to_nat (Z.of_nat pb - Z.of_nat m - rgeo))%nat) :: l2) with (with_mult l1 x' (Z.to_nat (Z.of_nat pb - rgeo)) l2); [apply W|]. unfold with_mult. replace (Z.to_nat (Z.of_nat pb - rgeo) =? 0)%nat with false by lia. cbn [app]. f_equal. f_equal. f_equal. lia.
  - destruct (Z.ltb_spec (Z.of_nat pb - Z.of_nat m) rgeo) as [G'|G'].
    + rewrite kremove_split. eexists. split; [reflexivity|]. replace (minus && (Z.of_nat pb - Z.of_nat m =? 0) && (rgeo =? 0)) with false by (destruct minus; lia).
      replace (l1 ++ (if (m <=? Z.to_nat (rgeo - (Z.of_nat pb - Z.of_nat m)))%nat then [] else [(x', (m - Z.to_nat (rgeo - (Z.of_nat pb - Z.of_nat m)))%nat)]) ++ l2) with (with_mult l1 x' (Z.to_nat (Z.of_nat pb - rgeo)) l2); [apply W|]. unfold with_mult.
      destruct (Nat.leb_spec m (Z.to_nat (rgeo - (Z.of_nat pb - Z.of_nat m)))) as [L|L]; [replace (Z.to_nat (Z.of_nat pb - rgeo) =? 0)%nat with true by lia; reflexivity|]. replace (Z.to_nat (Z.of_nat pb - rgeo) =? 0)%nat with false by lia. cbn [app]. f_equal. f_equal. f_equal. lia.
    + assert (EQ : rgeo = Z.of_nat pb - Z.of_nat m) by lia. destruct (minus && (Z.of_nat pb - Z.of_nat m =? 0) && (rgeo =? 0)) eqn:EC.
      * rewrite kremove_split. eexists. split; [reflexivity|]. replace (l1 ++ (if (m <=? 1)%nat then [] else [(x', (m - 1)%nat)]) ++ l2) with (with_mult l1 x' (m - 1) l2); [apply W|]. unfold with_mult. replace (m - 1 =? 0)%nat with (m <=? 1)%nat by lia. reflexivity.
      * eexists. split; [reflexivity|]. assert (WM : with_mult l1 x' m l2 = l1 ++ (x', m) :: l2) by (unfold with_mult; replace (m =? 0)%nat with false by lia; reflexivity). destruct (W m) as (W1 & W2). rewrite WM in W1, W2. split; [exact W1|]. intros y. etransitivity; [exact (W2 y)|]. replace (Z.to_nat (Z.of_nat pb - rgeo)) with m by lia. reflexivity.
Qed.

(** the loops *)
Lemma fold_steps (step : list (Q * nat) -> Q * nat -> res (list (Q * nat))) (T : nat -> nat -> nat) :
  (forall l x mg, knots_ok l -> (0 < mult l x)%nat -> exists l', step l (x, mg) = Ok l' /\ knots_ok l' /\ forall y, mult l' y = if Qeq_bool x y then T mg (mult l x) else mult l y) ->
  forall g l, knots_ok g -> knots_ok l -> (forall x, (0 < mult g x)%nat -> (0 < mult l x)%nat) ->
  exists l', foldM step g l = Ok l' /\ knots_ok l' /\ forall y, mult l' y = if (0 <? mult g y)%nat then T (mult g y) (mult l y) else mult l y.
Proof.
  intros ST g. induction g as [|(x & mg) g IH]; intros l (SG & PG) K H; cbn [foldM].
  - exists l. split; [reflexivity|]. split; [exact K|]. intros y. reflexivity.
  - inversion SG as [|? ? S1 S2]; subst. inversion PG as [|? ? P1 P2]; subst. cbn [snd] in P1.
    assert (RX : Qeq_bool x x = true) by (apply Qeqb_iff; reflexivity).
    destruct (ST l x mg K) as (l' & E & K' & M'); [apply H; cbn [mult]; rewrite RX; exact P1|]. rewrite E. cbn [bind].
    assert (NX : forall y, (x == y)%Q -> mult g y = 0%nat). { intros y EQ. apply mult_none, more_ne. revert S2. apply Forall_impl. intros a L. cbn in L. rewrite <- EQ. exact L. }
    destruct (IH l' (conj S1 P2) K') as (l'' & E'' & K'' & M'').
    + intros y G. rewrite M'. destruct (Qeq_bool x y) eqn:EY; [apply Qeqb_iff in EY; rewrite (NX y EY) in G; lia|]. apply H. cbn [mult]. rewrite EY. exact G.
    + exists l''. split; [exact E''|]. split; [exact K''|]. intros y. rewrite M'', M'. cbn [mult]. destruct (Qeq_bool x y) eqn:EY; [|reflexivity]. apply Qeqb_iff in EY. rewrite (NX y EY). replace (0 <? 0)%nat with false by reflexivity. replace (0 <? mg)%nat with true by lia.
      f_equal. clear -EY. induction l as [|(z & k) l IH]; [reflexivity|]. cbn [mult]. replace (Qeq_bool z y) with (Qeq_bool z x); [rewrite IH; reflexivity|]. apply Bool.eq_iff_eq_true. rewrite !Qeqb_iff, EY. reflexivity.
Qed.
Lemma gluingStep_ok pg rt l x mg : knots_ok l -> (0 < mult l x)%nat -> exists l', gluingStep pg rt l (x, mg) = Ok l' /\ knots_ok l' /\
  forall y, mult l' y = if Qeq_bool x y then (let r0 := Z.of_nat pg - Z.of_nat mg - 1 in Z.to_nat (Z.of_nat (mult l x) + rt - (if (r0 =? 0)%Z then 1 else r0))) else mult l y.
Proof.
  intros K M. destruct (split_at l x K M) as (l1 & x' & l2 & EL & EX & A & B). remember (mult l x) as m eqn:EM. clear EM. subst l. unfold gluingStep. cbn [fst snd]. cbv zeta. set (rgeo := if (Z.of_nat pg - Z.of_nat mg - 1 =? 0) then 1 else Z.of_nat pg - Z.of_nat mg - 1).
  assert (W : forall k, knots_ok (with_mult l1 x' k l2) /\ forall y, mult (with_mult l1 x' k l2) y = if Qeq_bool x y then k else mult (l1 ++ (x', m) :: l2) y) by (intros k; exact (with_mult_ok l1 x' k l2 m x K EX A B)).
  destruct (Z.ltb_spec rgeo rt) as [G|G].
  - eexists. split; [reflexivity|]. rewrite (kinsert_split l1 x' m l2 x _ EX A). replace (l1 ++ (x', (m + Z.to_nat (rt - rgeo))%nat) :: l2) with (with_mult l1 x' (Z.to_nat (Z.of_nat m + rt - rgeo)) l2); [apply W|]. unfold with_mult. replace (Z.to_nat (Z.of_nat m + rt - rgeo) =? 0)%nat with false by lia. cbn [app]. f_equal. f_equal. f_equal. lia.
  - destruct (Z.ltb_spec rt rgeo) as [G'|G'].
    + rewrite (uFind_split l1 x' m l2 x EX A B), kremove_split. eexists. split; [reflexivity|]. replace (l1 ++ (if (m <=? Z.to_nat (rgeo - rt))%nat then [] else [(x', (m - Z.to_nat (rgeo - rt))%nat)]) ++ l2) with (with_mult l1 x' (Z.to_nat (Z.of_nat m + rt - rgeo)) l2); [apply W|]. unfold with_mult.
      destruct (Nat.leb_spec m (Z.to_nat (rgeo - rt))) as [L|L]; [replace (Z.to_nat (Z.of_nat m + rt - rgeo) =? 0)%nat with true by lia; reflexivity|]. replace (Z.to_nat (Z.of_nat m + rt - rgeo) =? 0)%nat with false by lia. cbn [app]. f_equal. f_equal. f_equal. lia.
    + eexists. split; [reflexivity|]. assert (WM : with_mult l1 x' m l2 = l1 ++ (x', m) :: l2) by (unfold with_mult; replace (m =? 0)%nat with false by lia; reflexivity). destruct (W m) as (W1 & W2). rewrite WM in W1, W2. split; [exact W1|]. intros y. etransitivity; [exact (W2 y)|]. replace (Z.to_nat (Z.of_nat m + rt - rgeo)) with m by lia. reflexivity.
Qed.
