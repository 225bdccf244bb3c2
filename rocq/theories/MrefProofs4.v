(** Proofs for C72: uniform refinement and the constructors of gsMPBESSpline. *)
From Coq Require Import Sorted ZifyBool.
From Verif Require Import Common TopoModel TopoSpec VertexModel VertexSpec RepairModel RepairSpec ListLemmas SplineModel BoehmModel BoehmSpec VertexProofs2 VertexProofs3 RepairProofs RepairProofs2 RepairProofs3 MrefModel MrefSpec MrefProofs MrefProofs2 MrefProofs3.
Open Scope nat_scope.

(** a span is a pair of knots without a knot in between *)
Lemma span_set k a b : StronglySorted Z.le k -> span_of k a b <-> In a k /\ In b k /\ (a < b)%Z /\ forall x, In x k -> ~ (a < x < b)%Z.
Proof.
  intros ST. split.
  - intros H. pose proof H as (i & A & B & LT). split; [eapply nth_error_In; exact A|]. split; [eapply nth_error_In; exact B|]. split; [exact LT|]. intros x Hx C. exact (span_gap k a b x ST H C Hx).
  - induction ST as [|u r ST IH F]; intros (A & B & LT & G); [destruct A|]. rewrite Forall_forall in F. destruct r as [|v r]; [exfalso; destruct A as [<-|[]], B as [<-|[]]; lia|]. apply span_cons.
    assert (LO : forall y, In y (v :: r) -> (v <= y)%Z). { inversion ST as [|? ? _ F']; subst. rewrite Forall_forall in F'. intros y [<-|Hy]; [lia|now apply F']. }
    destruct (in_dec Z.eq_dec a (v :: r)) as [HA|NA].
    + right. apply IH. split; [exact HA|]. split; [destruct B as [<-|B]; [specialize (F a HA); lia|exact B]|]. split; [exact LT|]. intros x Hx. apply G. now right.
    + left. destruct A as [<-|A]; [|contradiction]. destruct B as [<-|B]; [lia|]. assert (V : u <> v) by (intros ->; apply NA; now left). pose proof (F v (or_introl eq_refl)). pose proof (LO b B). specialize (G v (or_intror (or_introl eq_refl))). split; [reflexivity|]. lia.
Qed.

Section R.
Context (t : topo) (Hc : consistent t) (L : nat -> nat -> Z) (D : nat -> nat -> nat).
Context (B : list vbase) (SH : shaped t L D B).

(** ** The constructors *)
Theorem spline_pf cs : fits B cs -> 0 < tnp t ->
  exists N B' c', (forall fuel, N < fuel -> splineOf boehm2 fuel t B cs = Ok (B', c')) /\ shaped t L D B' /\
  (forall f, In f (tif t) -> knots_match B' f) /\ (forall p dir x, dir < 2 -> has_knot B' p dir x <-> carried t L B p dir x) /\ same_surfaces B (concat cs) B' c'.
Proof.
  intros FI V. destruct (repair_all_pf t L D B Hc SH V) as (N & B' & F & SH' & KM & HK).
  assert (LOOP : forall fuel, N < fuel -> exists cs', repairLoopC boehm2 fuel t B cs (seq 0 (length B)) = Ok (B', cs') /\ kept B cs B' cs').
  { intros fuel FU. apply (loopC_pf t Hc L D); [exact SH|exact FI|intros p Hp; apply in_seq in Hp; destruct SH as (<- & _); lia|]. exact (F fuel FU). }
  destruct (LOOP (S N) ltac:(lia)) as (cs' & EL & K). assert (ALL : forall fuel, N < fuel -> repairLoopC boehm2 fuel t B cs (seq 0 (length B)) = Ok (B', cs')).
  { intros fuel FU. replace fuel with (fuel - S N + S N) by lia. induction (fuel - S N) as [|k IH]; [exact EL|]. cbn [Nat.add]. now apply loopC_more. }
  exists N, B', (concat cs'). split; [|split; [exact SH'|split; [exact KM|split; [exact HK|exact (kept_same _ _ _ _ _ FI eq_refl K)]]]].
  intros fuel FU. unfold splineOf, repairPatchesC. rewrite (ALL fuel FU). cbn [bind fst snd]. rewrite (join_ok B' cs' (proj1 K)). reflexivity.
Qed.
(** the other constructor works when no knots are missing, and only then *)
Theorem splineC0_pf (cs : list (list R)) : fits B cs -> 0 < tnp t ->
  exists N B', (forall fuel, N < fuel -> repairPatches fuel t B None = Ok B') /\
  forall fuel, N < fuel -> match splineWithC0 fuel t B cs with Ok r => map vsize B' = map vsize B | Err => map vsize B' <> map vsize B end.
Proof.
  intros FI V. destruct (repair_all_pf t L D B Hc SH V) as (N & B' & F & SH' & _ & _). exists N, B'. split; [exact F|]. intros fuel FU. unfold splineWithC0. rewrite (F fuel FU). cbn [bind].
  assert (LE : length B' = length B) by (destruct SH as (-> & _), SH' as (-> & _); reflexivity). clear - FI LE. revert B' LE. induction FI as [|b c B cs H FI IH]; intros [|b' B'] LE; try discriminate; [reflexivity|]. cbn [joinC map].
  specialize (IH B' ltac:(now injection LE)). destruct (Nat.eqb_spec (length c) (vsize b')) as [E|E]; cbn [ensure bind].
  - destruct (joinC B' cs) as [r|]; cbn [bind] in *; [rewrite <- E, H; congruence|]. intros C. apply IH. congruence.
  - intros C. injection C as C _. congruence.
Qed.

(** ** Uniform refinement *)
Context (num : nat) (DV : forall p b dir, nth_error B p = Some b -> dir < 2 -> divisible (num + 1) (knots b dir)).
Lemma uni_good p b dir : nth_error B p = Some b -> dir < 2 -> goodIns L B p b dir (uniKnots num 1 (knots b dir)).
Proof.
  intros E DL. pose proof (shaped_sorted t L D B p b dir SH E DL) as ST. pose proof (DV p b dir E DL) as DD. pose proof (uni_between num 1 _ DD) as BE. split; [now apply uni_nodup|]. intros y Hy. rewrite uni_fill in Hy.
  split; [|exact (fill_new _ _ ST BE y Hy)]. apply fill_in in Hy. destruct Hy as (a & c & SP & Hy). exact (shaped_mid t L D B p b dir y a c SH E DL SP (BE _ _ _ SP Hy)).
Qed.
Notation B' := (uniformRefine B num 1).
Lemma uni_nth mul p : nth_error (uniformRefine B num mul) p = match nth_error B p with Some b => Some (insertKnots b (uniKnots num mul (vk0 b)) (uniKnots num mul (vk1 b))) | None => None end.
Proof. unfold uniformRefine. rewrite nth_error_map. now destruct (nth_error B p). Qed.
Lemma uni_shaped : shaped t L D B'.
Proof.
  pose proof SH as (LB & S1 & CO). split; [unfold uniformRefine; now rewrite map_length|]. split; [|exact CO]. intros p b' E dir DL. rewrite uni_nth in E. destruct (nth_error B p) as [b|] eqn:Eb; [|discriminate]. injection E as <-.
  destruct (S1 p b Eb dir DL) as (DG & mid & SO). destruct (uni_good p b dir Eb DL) as (N & H). destruct dir as [|[|]]; [| |lia]; cbn [degree knots insertKnots vk0 vk1 vd0 vd1] in *; (split; [exact DG|]); exact (insert_simple _ _ _ mid _ SO N H).
Qed.
Lemma uni_has p dir x : dir < 2 -> has_knot B' p dir x <-> has_knot B p dir x \/ exists b, nth_error B p = Some b /\ division num (knots b dir) x.
Proof.
  intros DL. unfold has_knot. rewrite uni_nth. destruct (nth_error B p) as [b|] eqn:Eb; [|split; [intros (b & C & _); discriminate|intros [(b & C & _)|(b & C & _)]; discriminate]].
  assert (K : In x (knots (insertKnots b (uniKnots num 1 (vk0 b)) (uniKnots num 1 (vk1 b))) dir) <-> division num (knots b dir) x \/ In x (knots b dir)).
  { rewrite <- (uni_in num 1 _ x (DV p b dir Eb DL)) by lia. destruct dir as [|[|]]; [| |lia]; cbn [knots insertKnots vk0 vk1]; apply insert_in. }
  split.
  - intros (b' & [= <-] & H). apply K in H. destruct H as [H|H]; [right|left]; exists b; auto.
  - intros H. eexists. split; [reflexivity|]. apply K. destruct H as [(b' & [= <-] & H)|(b' & [= <-] & H)]; auto.
Qed.
(** the division points across an interface *)
Lemma division_over p s q s' fl x b b' : joined_sides t p s q s' fl -> agree L B p s q s' fl -> nth_error B p = Some b -> nth_error B q = Some b' ->
  division num (knots b (along s)) x -> division num (knots b' (along s')) (if fl then L p (along s) - x else x)%Z.
Proof.
  intros J AG Eb Eb' (u & v & j & SP & Lj & E). pose proof (shaped_sorted t L D B p b _ SH Eb (along_lt s)) as ST. pose proof (shaped_sorted t L D B q b' _ SH Eb' (along_lt s')) as ST'. apply (span_set _ _ _ ST) in SP. destruct SP as (U & V & LT & G).
  assert (TR : forall y, In y (knots b (along s)) <-> In (if fl then L p (along s) - y else y)%Z (knots b' (along s'))). { intros y. specialize (AG y). unfold view in AG. now rewrite (has_at B p b _ _ Eb), (has_at B q b' _ _ Eb') in AG. }
  destruct fl.
  - exists (L p (along s) - v)%Z, (L p (along s) - u)%Z, (num + 1 - j). split; [|split; [lia|]].
    + apply (span_set _ _ _ ST'). split; [now apply TR|]. split; [now apply TR|]. split; [lia|]. intros y Hy C. assert (Y : In (L p (along s) - y)%Z (knots b (along s))) by (apply TR; replace (L p (along s) - (L p (along s) - y))%Z with y by lia; exact Hy). apply (G _ Y). lia.
    + nia.
  - exists u, v, j. split; [|auto]. apply (span_set _ _ _ ST'). split; [now apply TR|]. split; [now apply TR|]. split; [lia|]. intros y Hy. apply G. now apply TR.
Qed.
Theorem uniform_pf : (forall f, In f (tif t) -> knots_match B f) ->
  shaped t L D B' /\ (forall f, In f (tif t) -> knots_match B' f) /\ (forall p dir x, dir < 2 -> has_knot B' p dir x <-> has_knot B p dir x \/ exists b, nth_error B p = Some b /\ division num (knots b dir) x).
Proof.
  intros KM. split; [exact uni_shaped|]. split; [|exact uni_has].
  assert (AG : forall p s q s' fl, joined_sides t p s q s' fl -> agree L B p s q s' fl).
  { intros p s q s' fl J. pose proof J as (f & Hf & Ef & [(E1 & E2)|(E2 & E1)]).
    - apply (match_agree t Hc L D B); [exact SH|exact J|intros g Hg _ _; now apply KM|exists f; auto].
    - apply (agree_sym t L D B q s' p s fl SH (joined_sym t L D _ _ _ _ _ J)). apply (match_agree t Hc L D B); [exact SH|exact (joined_sym t L D _ _ _ _ _ J)|intros g Hg _ _; now apply KM|exists f; auto]. }
  assert (OVER : forall p s q s' fl x, joined_sides t p s q s' fl -> has_knot B' p (along s) x -> has_knot B' q (along s') (if fl then L p (along s) - x else x)%Z).
  { intros p s q s' fl x J H. apply (uni_has p _ x (along_lt s)) in H. apply (uni_has q _ _ (along_lt s')). destruct H as [H|(b & Eb & H)]; [left; now apply (AG _ _ _ _ _ J)|right].
    destruct (joined_valid t Hc L D _ _ _ _ _ J) as (_ & Vq). destruct (nth_error B q) as [b'|] eqn:Eb'; [|apply nth_error_None in Eb'; destruct SH as (LB & _); lia]. exists b'. split; [reflexivity|]. exact (division_over p s q s' fl x b b' J (AG _ _ _ _ _ J) Eb Eb' H). }
  intros f Hf. apply (agree_match t Hc L D B' f uni_shaped Hf). intros p s q s' fl J x. split; [now apply OVER|]. intros H. unfold view in H. pose proof (joined_sym t L D _ _ _ _ _ J) as J'. apply (OVER q s' p s fl _ J') in H. destruct (proj2 (proj2 SH) _ _ _ _ _ J) as (EL & _). rewrite EL in *. destruct fl; [|exact H].
  replace (L q (along s') - (L q (along s') - x))%Z with x in H by lia. exact H.
Qed.
Theorem uniformC_pf mul c : length c = total B -> exists c', uniformRefineC boehm2 B c num mul = Ok (uniformRefine B num mul, c') /\ same_surfaces B c (uniformRefine B num mul) c'.
Proof.
  intros LC. destruct (split_ok B c LC) as (cs & ES & FI & EC). unfold uniformRefineC. rewrite ES. cbn [bind].
  assert (OP : forall p b, nth_error B p = Some b -> opened b (L p 0) (L p 1) /\ (forall y, In y (uniKnots num mul (vk0 b)) -> (0 < y < L p 0)%Z) /\ (forall y, In y (uniKnots num mul (vk1 b)) -> (0 < y < L p 1)%Z)).
  { intros p b E. split; [exact (shaped_opened t L D B p b SH E)|]. assert (G : forall dir y, dir < 2 -> In y (uniKnots num mul (knots b dir)) -> (0 < y < L p dir)%Z).
    { intros dir y DL Hy. rewrite uni_fill in Hy. apply fill_in in Hy. destruct Hy as (a & d & SP & Hy). exact (shaped_mid t L D B p b dir y a d SH E DL SP (uni_between num mul _ (DV p b dir E DL) _ _ _ SP Hy)). }
    split; intros y; [apply (G 0); lia|apply (G 1); lia]. }
  assert (K : exists cs', mapM (fun x => let '(b, d) := x in boehm2 b (uniKnots num mul (vk0 b)) (uniKnots num mul (vk1 b)) d) (combine B cs) = Ok cs' /\ kept B cs (uniformRefine B num mul) cs').
  { assert (G : forall B0 cs0, fits B0 cs0 -> (forall b, In b B0 -> exists L0 L1, opened b L0 L1 /\ (forall y, In y (uniKnots num mul (vk0 b)) -> (0 < y < L0)%Z) /\ (forall y, In y (uniKnots num mul (vk1 b)) -> (0 < y < L1)%Z)) ->
      exists cs', mapM (fun x => let '(b, d) := x in boehm2 b (uniKnots num mul (vk0 b)) (uniKnots num mul (vk1 b)) d) (combine B0 cs0) = Ok cs' /\ kept B0 cs0 (uniformRefine B0 num mul) cs').
    { induction 1 as [|b d B0 cs0 H F IH]; intros OO; [exists []; split; [reflexivity|]; apply kept_refl; constructor|]. destruct IH as (cs' & E & (KF & KL & KS)); [intros; apply OO; now right|]. destruct (OO b (or_introl eq_refl)) as (L0 & L1 & O & U0 & U1).
      destruct (boehm2_ok b L0 L1 _ _ d O U0 U1 H) as (d' & Ed & Ld & Sd). exists (d' :: cs'). cbn [combine mapM]. rewrite Ed. cbn [bind]. rewrite E. split; [reflexivity|]. split; [constructor; [exact Ld|exact KF]|]. split; [cbn; unfold uniformRefine in KL; now rewrite KL|].
      intros [|p] x x' e e' X X' E1 E2; [cbn in X, X', E1, E2; injection X as <-; injection X' as <-; injection E1 as <-; injection E2 as <-; exact Sd|exact (KS p x x' e e' X X' E1 E2)]. }
    apply G; [exact FI|]. intros b Hb. apply In_nth_error in Hb. destruct Hb as (p & E). exists (L p 0), (L p 1). now apply OP. }
  destruct K as (cs' & E & K). rewrite E. cbn [bind]. exists (concat cs'). split; [reflexivity|]. exact (kept_same _ _ _ _ _ FI EC K).
Qed.
End R.

(** multiplicity 0 *)
Theorem smooth_idle_pf {C} (refC : vbase -> list Z -> list Z -> list C -> res (list C)) B c num r : uniformRefineAndSmooth refC B c num = Ok r -> fst r = B.
Proof.
  unfold uniformRefineAndSmooth, uniformRefineC. destruct (splitC B c) as [cs|]; [|discriminate]. cbn [bind]. destruct (mapM _ (combine B cs)) as [cs'|]; [|discriminate]. cbn [bind]. intros E. injection E as <-. cbn [fst].
  unfold uniformRefine. induction B as [|b B IH]; [reflexivity|]. cbn [map]. rewrite !uni_zero. f_equal; [destruct b; reflexivity|]. clear IH. induction B as [|b' B IH]; [reflexivity|]. cbn [map]. rewrite !uni_zero. f_equal; [destruct b'; reflexivity|exact IH].
Qed.
