(** Proofs for C62: geometries without inner knots. *)
From Coq Require Import Reals Qreals Lra ZifyBool Sorted.
From Verif Require Import Common BaseModel ReparamModel C1Model SpaceModel SpaceSpec PolyProofs.
Open Scope Z_scope.

Definition remap (f : nat -> nat) (l : list (Q * nat)) : list (Q * nat) := map (fun xm => (fst xm, f (snd xm))) l.
Lemma mult_remap f l x : Forall (fun xm => (0 < snd xm)%nat) l -> mult (remap f l) x = if (mult l x =? 0)%nat then 0%nat else f (mult l x).
Proof.
  intros P. induction P as [|(y & m) l P F IH]; [reflexivity|]. cbn [remap map mult fst snd] in *. destruct (Qeq_bool y x); [|exact IH]. replace (m =? 0)%nat with false by lia. reflexivity.
Qed.
Lemma remap_id l : remap (fun m => m) l = l.
Proof. induction l as [|(x & m) l IH]; [reflexivity|]. cbn. unfold remap in IH. rewrite IH. reflexivity. Qed.
Lemma remap_ext f g l : Forall (fun xm => f (snd xm) = g (snd xm)) l -> remap f l = remap g l.
Proof. intros P. induction P as [|xm l E F IH]; [reflexivity|]. cbn. unfold remap in IH. rewrite E, IH. reflexivity. Qed.
Lemma reduce_remap red l : Forall (fun xm => (0 < red (snd xm))%nat) l -> reduceInner red l = remap red l.
Proof. intros P. unfold reduceInner, remap. induction P as [|xm l E F IH]; [reflexivity|]. cbn [map filter snd]. replace (0 <? red (snd xm))%nat with true by lia. rewrite IH. reflexivity. Qed.
Lemma mult_least m l x : Forall (fun xm => (m <= snd xm)%nat) l -> (0 < mult l x)%nat -> (m <= mult l x)%nat.
Proof. intros F. induction F as [|(y & k) l E F IH]; cbn [mult]; [lia|]. cbn [snd] in E. destruct (Qeq_bool y x); auto. Qed.

Section B.
Context (redn : nat -> nat -> nat) (RD : reduces redn) (b : kvec) (KO : knots_ok (kvin b)) (FL : first_least b).
Let m0 := multAfterEnd b.
Let d := if (m0 =? 1)%nat then 0%nat else 1%nat.

Lemma all_least : kvin b <> [] -> Forall (fun xm => (m0 <= snd xm)%nat) (kvin b) /\ (0 < m0)%nat.
Proof.
  intros N. unfold m0, multAfterEnd, first_least in *. destruct KO as (_ & P). destruct (kvin b) as [|(x & m) l]; [congruence|]. inversion P as [|? ? P1 P2]; subst. cbn in P1. split; [constructor; [cbn; lia|exact FL]|exact P1].
Qed.
Lemma all_pos : Forall (fun xm => (0 < snd xm)%nat) (kvin b). Proof. exact (proj2 KO). Qed.

Lemma inner_eq : (if (multAfterEnd b =? 1)%nat then kvin b else reduceInner (redn 1%nat) (kvin b)) = remap (fun m => m - d)%nat (kvin b).
Proof.
  fold m0. unfold d. destruct (m0 =? 1)%nat eqn:E1; [symmetry; etransitivity; [|apply remap_id]; apply remap_ext; apply Forall_forall; intros xm _; lia|].
  destruct (kvin b) as [|e l] eqn:EK; [reflexivity|]. rewrite <- EK in *. destruct all_least as (A & P0); [congruence|].
  assert (A' : Forall (fun xm => redn 1%nat (snd xm) = snd xm - 1 /\ 0 < snd xm - 1)%nat (kvin b)).
  { revert A. apply Forall_impl. intros xm L. split; [apply RD; lia|lia]. }
  rewrite reduce_remap; [apply remap_ext|]; revert A'; apply Forall_impl; intros xm (E & P); lia.
Qed.

Context (geo : kvec) (NG : kvin geo = []).
Lemma plus_eq : createPlusSpace (redn 1%nat) geo b = Ok (mkKV (kvdeg b) (kvlo b) (kvhi b) (remap (fun m => m - d)%nat (kvin b))).
Proof. unfold createPlusSpace. rewrite NG, inner_eq. reflexivity. Qed.
Lemma minus_eq : (1 <= kvdeg b)%nat -> createMinusSpace (redn 1%nat) geo b = Ok (mkKV (kvdeg b - 1) (kvlo b) (kvhi b) (remap (fun m => m - d)%nat (kvin b))).
Proof. intros P. unfold createMinusSpace. rewrite NG, inner_eq. replace (0 <? kvdeg b)%nat with true by lia. reflexivity. Qed.
Lemma gluing_eq pt rt gd : gluingSpace geo b pt rt = Ok gd -> exists m, (1 <= m)%nat /\ gd = mkKV (kvdeg gd) (kvlo b) (kvhi b) (remap (fun _ => m) (kvin b)) /\
  (pt <> -1 -> Z.of_nat (kvdeg gd) = pt) /\ (pt = -1 -> Z.of_nat (kvdeg gd) = Z.of_nat (kvdeg b) - 1) /\ Z.of_nat m = Z.of_nat (kvdeg gd) - (if rt =? -1 then Z.of_nat (kvdeg gd) - 1 else rt).
Proof.
  unfold gluingSpace. rewrite NG. cbn [foldM]. set (p := if pt =? -1 then _ else pt). set (r := if rt =? -1 then _ else rt). destruct (0 <=? p) eqn:P0; [|discriminate]. destruct (r <? p) eqn:PR; [|discriminate]. cbn [andb ensure bind]. intros H. injection H as <-. cbn [kvdeg].
  exists (Z.to_nat (p - r)). split; [lia|]. split; [reflexivity|]. unfold r, p in *. destruct (pt =? -1) eqn:E; [apply Z.eqb_eq in E|apply Z.eqb_neq in E]; (split; [intros; lia|]); (split; [intros; lia|]); destruct (rt =? -1); lia.
Qed.

(** all multiplicities changed by the same amount *)
Lemma setRegularity_eq p r : r < Z.of_nat p -> 
  setRegularity redn (setDegree b p) r = mkKV p (kvlo b) (kvhi b) (remap (fun m => Z.to_nat (Z.of_nat m + Z.of_nat p - Z.of_nat m0 - r)) (kvin b)).
Proof.
  intros L. pose proof all_least as AL. assert (M0 : m0 = match kvin b with [] => (kvdeg b + 1)%nat | (_, m) :: _ => m end) by reflexivity. clearbody m0. unfold setRegularity, setDegree, reduceCont, elevateCont, regularity. cbn [kvdeg kvlo kvhi kvin]. unfold multAfterEnd. cbn [kvdeg kvin].
  destruct (kvin b) as [|(x & m1) l] eqn:EK.
  - destruct (_ <? _); [reflexivity|]. destruct (_ <? _); reflexivity.
  - destruct AL as (A & P0); [congruence|]. subst m0.
    destruct (Z.ltb_spec r (Z.of_nat p - Z.of_nat m1)) as [G|G]; [|destruct (Z.ltb_spec (Z.of_nat p - Z.of_nat m1) r) as [G'|G']].
    + f_equal. change (map (fun xm => (fst xm, snd xm + ?n)%nat) ?l) with (remap (fun m => m + n)%nat l). apply remap_ext. apply Forall_forall. intros xm _. lia.
    + f_equal. assert (A' : Forall (fun xm => redn (Z.to_nat (r - (Z.of_nat p - Z.of_nat m1))) (snd xm) = Z.to_nat (Z.of_nat (snd xm) + Z.of_nat p - Z.of_nat m1 - r) /\ (0 < Z.to_nat (Z.of_nat (snd xm) + Z.of_nat p - Z.of_nat m1 - r))%nat) ((x, m1) :: l)).
      { revert A. apply Forall_impl. intros xm Lx. split; [rewrite RD by lia; lia|lia]. }
      rewrite reduce_remap; [apply remap_ext|]; revert A'; apply Forall_impl; intros xm (E & P); lia.
    + f_equal. symmetry. etransitivity; [|apply remap_id]. apply remap_ext. apply Forall_forall. intros xm _. lia.
Qed.
Lemma geoCheck_eq k : geoCheck geo k = Ok k.
Proof. unfold geoCheck. rewrite NG. destruct k. reflexivity. Qed.
Lemma regularity_remap p f : kvin b <> [] -> regularity (mkKV p (kvlo b) (kvhi b) (remap f (kvin b))) = Z.of_nat p - Z.of_nat (f m0).
Proof. intros N. unfold regularity, m0, multAfterEnd. clear -N. cbn [kvdeg kvin]. destruct (kvin b) as [|(x & m) l]; [congruence|]. reflexivity. Qed.
Lemma d_le : kvin b <> [] -> (d < m0)%nat.
Proof. intros N. destruct (all_least N) as (_ & P). unfold d. destruct (m0 =? 1)%nat eqn:E; lia. Qed.

(** The multiplicities of the created space. *)
Definition grown (p : nat) (r : Z) : list (Q * nat) := remap (fun m => Z.to_nat (Z.of_nat m + Z.of_nat p - Z.of_nat m0 - r)) (kvin b).
Lemma fits p r q f x : (forall m, (0 < m)%nat -> (m0 <= m)%nat -> 1 + r + Z.of_nat m0 - Z.of_nat m <= Z.of_nat q + 1 - Z.of_nat (f m)) -> r < Z.of_nat p ->
  (mult (grown p r) x = 0%nat -> mult (remap f (kvin b)) x = 0%nat) /\
  ((0 < mult (grown p r) x)%nat -> (p + 1 - mult (grown p r) x <= q + 1 - mult (remap f (kvin b)) x)%nat).
Proof.
  intros H L. unfold grown. rewrite !mult_remap by apply all_pos. destruct (Nat.eqb_spec (mult (kvin b) x) 0) as [E|E]; [split; [reflexivity|lia]|].
  assert (N : kvin b <> []) by (intros N; apply E; rewrite N; reflexivity). destruct (all_least N) as (A & P). assert (LM : (m0 <= mult (kvin b) x)%nat) by (apply mult_least; [exact A|lia]).
  specialize (H (mult (kvin b) x) ltac:(lia) LM). split; lia.
Qed.
End B.

Lemma regularity_empty p l h : regularity (mkKV p l h []) = -1.
Proof. unfold regularity, multAfterEnd. cbn [kvdeg kvin]. lia. Qed.

(** At an interface. *)
Theorem edge_space_pf : forall redn geo b pt rt gd, reduces redn -> knots_ok (kvin b) -> first_least b -> kvin geo = [] -> (1 <= kvdeg b)%nat -> gluingSpace geo b pt rt = Ok gd ->
  exists plus minus E, createPlusSpace (redn 1%nat) geo b = Ok plus /\ createMinusSpace (redn 1%nat) geo b = Ok minus /\ edgeSpace redn geo b plus minus gd = Ok E /\
    kvdeg plus = kvdeg b /\ kvdeg minus = (kvdeg b - 1)%nat /\ kvdeg E = (kvdeg b + kvdeg gd - 1)%nat /\
    (forall x, (0 < mult (kvin b) x)%nat -> Z.of_nat (mult (kvin E) x) = Z.of_nat (kvdeg E) - Z.min (regularity gd) (Z.of_nat (kvdeg b) - Z.of_nat (multAfterEnd b) - (if (multAfterEnd b =? 1)%nat then 1 else 0)) + Z.of_nat (mult (kvin b) x) - Z.of_nat (multAfterEnd b)) /\
    (forall x, mult (kvin b) x = 0%nat -> mult (kvin E) x = 0%nat) /\
    forall P P' M al be s, space_of plus P -> space_of minus M -> space_of gd al -> space_of gd be -> derivative P P' ->
      (product be P' s -> space_of E s) /\ (product al M s -> space_of E s) /\ ((1 <= kvdeg gd)%nat -> space_of E P).
Proof.
  intros redn geo b pt rt gd RD KO FL NG P1 GD. set (d := if (multAfterEnd b =? 1)%nat then 0%nat else 1%nat).
  destruct (gluing_eq b geo NG pt rt gd GD) as (mg & MG & EG & _). set (pg := kvdeg gd) in *.
  exists (mkKV (kvdeg b) (kvlo b) (kvhi b) (remap (fun m => m - d)%nat (kvin b))), (mkKV (kvdeg b - 1) (kvlo b) (kvhi b) (remap (fun m => m - d)%nat (kvin b))).
  set (plus := mkKV (kvdeg b) _ _ _). set (minus := mkKV (kvdeg b - 1) _ _ _).
  set (r := Z.min (regularity gd) (Z.min (regularity plus - 1) (regularity minus))). set (pe := (kvdeg b + pg - 1)%nat).
  assert (LR : r < Z.of_nat pe).
  { assert (regularity gd < Z.of_nat pe). { rewrite EG. destruct (kvin b) as [|e l] eqn:EK; [cbn [remap map]; rewrite regularity_empty; unfold pe; lia|]. rewrite <- EK. rewrite (regularity_remap b pg (fun _ => mg)) by congruence. unfold pe. lia. } unfold r. lia. }
  exists (mkKV pe (kvlo b) (kvhi b) (grown b pe r)). split; [exact (plus_eq redn RD b KO FL geo NG)|]. split; [exact (minus_eq redn RD b KO FL geo NG P1)|]. split.
  { unfold edgeSpace. change (kvdeg plus) with (kvdeg b). fold pg. replace (1 <=? kvdeg b + pg)%nat with true by lia. cbn [ensure bind]. fold r pe. rewrite (setRegularity_eq redn RD b KO FL pe r LR). apply (geoCheck_eq geo NG). }
  split; [reflexivity|]. split; [reflexivity|]. split; [reflexivity|]. cbn [kvdeg kvin].
  assert (RV : kvin b <> [] -> r = Z.min (Z.of_nat pg - Z.of_nat mg) (Z.of_nat (kvdeg b) - 1 - Z.of_nat (multAfterEnd b - d)) /\ regularity gd = Z.of_nat pg - Z.of_nat mg /\ (d < multAfterEnd b)%nat).
  { intros N. pose proof (d_le b KO FL N) as DL. unfold r, plus, minus. rewrite !(regularity_remap b _ (fun m => m - d)%nat N). rewrite EG at 1 2. rewrite (regularity_remap b pg (fun _ => mg) N). split; [lia|]. split; [reflexivity|exact DL]. }
  split; [|split].
  - intros x Lx. assert (N : kvin b <> []) by (intros N; rewrite N in Lx; cbn in Lx; lia). destruct (RV N) as (R1 & R2 & R3). unfold grown. rewrite mult_remap by apply (all_pos b KO). replace (mult (kvin b) x =? 0)%nat with false by lia.
    destruct (all_least b KO FL N) as (A & _). pose proof (mult_least _ _ x A Lx) as LM. rewrite Z2Nat.id by lia. rewrite R2, R1. unfold d in *. destruct (multAfterEnd b =? 1)%nat eqn:E1; lia.
  - intros x Zx. unfold grown. rewrite mult_remap by apply (all_pos b KO). rewrite Zx. reflexivity.
  - assert (FIT : forall q f, (forall m, (0 < m)%nat -> (multAfterEnd b <= m)%nat -> kvin b <> [] -> 1 + r + Z.of_nat (multAfterEnd b) - Z.of_nat m <= Z.of_nat q + 1 - Z.of_nat (f m)) -> forall x, (mult (grown b pe r) x = 0%nat -> mult (remap f (kvin b)) x = 0%nat) /\ ((0 < mult (grown b pe r) x)%nat -> (pe + 1 - mult (grown b pe r) x <= q + 1 - mult (remap f (kvin b)) x)%nat)).
    { intros q f H x. destruct (kvin b) as [|e l] eqn:EK; [split; [reflexivity|]; unfold grown; rewrite EK; cbn; lia|]. rewrite <- EK in *. apply (fits b KO FL pe r q f x); [|exact LR]. intros m L1 L2. apply H; [exact L1|exact L2|congruence]. }
    assert (FG : forall x, _) by (apply (FIT pg (fun _ => mg)); intros m L1 L2 N; destruct (RV N) as (R1 & _ & R3); lia).
    assert (FP : forall x, _) by (apply (FIT (kvdeg b - 1)%nat (fun m => m - d)%nat); intros m L1 L2 N; destruct (RV N) as (R1 & _ & R3); lia).
    assert (FV : forall x, _) by (apply (FIT (kvdeg b) (fun m => m - d)%nat); intros m L1 L2 N; destruct (RV N) as (R1 & _ & R3); lia).
    intros P P' M al be s SP SM SA SB DP. unfold space_of in *. rewrite EG in SA, SB. cbn [kvdeg kvin plus minus] in *. split; [|split].
    + intros PR. apply (product_in pg (remap (fun _ => mg) (kvin b)) (kvdeg b - 1) (remap (fun m => m - d)%nat (kvin b)) pe _ be P' s SB); [apply (derivative_in _ _ P); assumption|exact PR|unfold pe; lia| |].
      * intros z Z0. split; [apply (FG z), Z0|apply (FP z), Z0].
      * intros x X0. split; [apply (FG x), X0|apply (FP x), X0].
    + intros PR. apply (product_in pg (remap (fun _ => mg) (kvin b)) (kvdeg b - 1) (remap (fun m => m - d)%nat (kvin b)) pe _ al M s SA SM PR); [unfold pe; lia| |].
      * intros z Z0. split; [apply (FG z), Z0|apply (FP z), Z0].
      * intros x X0. split; [apply (FG x), X0|apply (FP x), X0].
    + intros L. apply (larger_in (kvdeg b) (remap (fun m => m - d)%nat (kvin b)) pe _ P SP); [unfold pe; lia| |]; intros x; apply (FV x).
Qed.
