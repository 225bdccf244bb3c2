(** Proofs for C72: refining all patches at once. *)
From Coq Require Import Sorted ZifyBool.
From Verif Require Import Common TopoModel TopoSpec VertexModel VertexSpec RepairModel RepairSpec ListLemmas SplineModel BoehmModel BoehmSpec VertexProofs2 VertexProofs3 RepairProofs RepairProofs2 RepairProofs3 MrefModel MrefSpec MrefProofs MrefProofs2 MrefProofs3 MrefProofs4.
Open Scope nat_scope.

Lemma same_refl B c : length c = total B -> same_surfaces B c B c.
Proof. intros H. split; [reflexivity|]. split; [exact H|]. intros. congruence. Qed.
Lemma same_trans B c B1 c1 B2 c2 : same_surfaces B c B1 c1 -> same_surfaces B1 c1 B2 c2 -> same_surfaces B c B2 c2.
Proof.
  intros (L1 & T1 & K1) (L2 & T2 & K2). split; [congruence|]. split; [exact T2|]. intros p b b' Eb Eb' x y. assert (LP : p < length B) by (apply nth_error_Some; congruence). destruct (nth_error B1 p) as [b1|] eqn:E1; [|apply nth_error_None in E1; lia].
  rewrite (K2 p b1 b' E1 Eb' x y). exact (K1 p b b1 Eb E1 x y).
Qed.

Section R.
Context (t : topo) (Hc : consistent t) (L : nat -> nat -> Z) (D : nat -> nat -> nat) (B : list vbase) (SH : shaped t L D B) (VT : 0 < tnp t).
Context (vs : list (list Z)) (bx : nat -> list box) (LV : length vs = length B).
Context (HB : forall p v, nth_error vs p = Some v -> boxesVectorToMatrix v = Ok (bx p)).
Context (DV : forall p b dir, nth_error B p = Some b -> dir < 2 -> divisible 2 (knots b dir)) (AP : forall p b, nth_error B p = Some b -> apart b (bx p)).

Definition done_upto (i : nat) (X : list vbase) : Prop :=
  shaped t L D X /\ (forall q, i <= q -> nth_error X q = nth_error B q) /\
  forall p dir x, dir < 2 -> has_knot X p dir x <-> has_knot B p dir x \/ (p < i /\ exists b, nth_error B p = Some b /\ midpoint (knots b dir) x /\ exists Y, In Y (bx p) /\ in_range dir x Y).

Lemma fold_all fuel c : length c = total B -> forall n i X d, i + n = length B -> done_upto i X -> same_surfaces B c X d ->
  exists X' d', foldM (fun s x => let '(p, v) := x in refineElementsC boehm2 fuel t (fst s) (snd s) p v false) (combine (seq i n) (skipn i vs)) (X, d) = Ok (X', d') /\ done_upto (length B) X' /\ same_surfaces B c X' d'.
Proof.
  intros LC. induction n as [|n IH]; intros i X d EN (SX & UN & HK) SS.
  - cbn [seq combine foldM]. exists X, d. split; [reflexivity|]. replace i with (length B) in * by lia. split; [|exact SS]. split; [exact SX|]. split; [exact UN|exact HK].
  - destruct (nth_error vs i) as [v|] eqn:Ev; [|apply nth_error_None in Ev; lia]. assert (SK : skipn i vs = v :: skipn (S i) vs). { clear - Ev. revert i Ev. induction vs as [|w ws IH]; intros [|i] E; try discriminate; [now injection E as ->|]. cbn [skipn]. rewrite (IH i E). reflexivity. }
    rewrite SK. cbn [seq combine foldM]. destruct (nth_error B i) as [b|] eqn:Eb; [|apply nth_error_None in Eb; lia]. assert (EX : nth_error X i = Some b) by (rewrite UN by lia; exact Eb).
    assert (DD : forall dir, dir < 2 -> divisible 2 (knots b dir)) by (intros dir DL; exact (DV i b dir Eb DL)). unfold refineElementsC. rewrite (HB i v Ev). cbn [bind fst snd].
    destruct (refineC_idle_pf t L D X i b (bx i) SX EX DD (AP i b Eb) fuel d (proj1 (proj2 SS))) as (d' & E & SS'). rewrite E. cbn [bind]. apply IH; [lia| |exact (same_trans _ _ _ _ _ _ SS SS')].
    split; [exact (B1_shaped t L D X i b (bx i) SX EX DD (AP i b Eb))|]. split.
    + intros q Lq. rewrite nth_upd by (apply nth_error_Some; congruence). replace (q =? i) with false by lia. apply UN. lia.
    + intros p dir x DL. rewrite (B1_has L D X i b (bx i) EX DD p dir x DL), (HK p dir x DL). split.
      * intros [[H|(P & H)]|(-> & M & H)]; [now left|right; split; [lia|exact H]|right; split; [lia|]; exists b; auto].
      * intros [H|(P & b' & Eb' & M & H)]; [left; now left|]. destruct (Nat.eq_dec p i) as [->|N]; [right; rewrite Eb in Eb'; injection Eb' as <-; auto|]. left. right. split; [lia|]. now exists b'.
Qed.
Lemma carried_all X p dir x : done_upto (length B) X -> dir < 2 -> carried t L X p dir x <-> refined_all t L B bx p dir x.
Proof.
  intros (_ & _ & HK) DL. split.
  - intros H. induction H as [p dir x H|p s q s' fl x J H IH]; [|apply all_step; [exact J|apply IH, along_lt]]. apply (HK p dir x DL) in H. destruct H as [H|(_ & b & Eb & M & Y & HY & I')]; [now apply all_own|]. exact (all_mid t L B bx p b Y dir x Eb M HY I').
  - intros H. induction H as [p dir x H|p b Y dir x E M HY I'|p s q s' fl x J H IH].
    + apply car_own, (HK p dir x DL). now left.
    + apply car_own, (HK p dir x DL). right. split; [apply nth_error_Some; congruence|]. exists b. split; [exact E|]. split; [exact M|]. now exists Y.
    + apply car_step; [exact J|apply IH, along_lt].
Qed.
Theorem refineAll_pf c : length c = total B -> exists N B' c', (forall fuel, N < fuel -> refineAllElements boehm2 fuel t B c vs = Ok (B', c')) /\ shaped t L D B' /\
  (forall f, In f (tif t) -> knots_match B' f) /\ (forall p dir x, dir < 2 -> has_knot B' p dir x <-> refined_all t L B bx p dir x) /\ same_surfaces B c B' c'.
Proof.
  intros LC. assert (D0 : done_upto 0 B) by (split; [exact SH|]; split; [reflexivity|]; intros p dir x _; split; [now left|intros [H|(C & _)]; [exact H|lia]]).
  destruct (fold_all 0 c LC (length B) 0 B c eq_refl D0 (same_refl B c LC)) as (X & d & E0 & DX & SX).
  assert (FE : forall fuel, foldM (fun s x => let '(p, v) := x in refineElementsC boehm2 fuel t (fst s) (snd s) p v false) (combine (seq 0 (length vs)) vs) (B, c) = Ok (X, d)).
  { intros fuel. rewrite LV. rewrite <- E0. change (skipn 0 vs) with vs. generalize (combine (seq 0 (length B)) vs) as l. generalize (B, c) as s. intros s l. revert s. induction l as [|(p, v) l IH]; intros s; [reflexivity|]. cbn [foldM].
    replace (refineElementsC boehm2 fuel t (fst s) (snd s) p v false) with (refineElementsC boehm2 0 t (fst s) (snd s) p v false); [destruct (refineElementsC boehm2 0 t (fst s) (snd s) p v false); [apply IH|reflexivity]|]. unfold refineElementsC. destruct (boxesVectorToMatrix v); reflexivity. }
  destruct (repair_all_pf t L D X Hc (proj1 DX) VT) as (N & B' & F & SH' & KM & HK). destruct (split_ok X d (proj1 (proj2 SX))) as (cs & ES & FI & EC).
  assert (LOOP : forall fuel, N < fuel -> exists cs', repairLoopC boehm2 fuel t X cs (seq 0 (length X)) = Ok (B', cs') /\ kept X cs B' cs').
  { intros fuel FU. apply (loopC_pf t Hc L D); [exact (proj1 DX)|exact FI|intros p Hp; apply in_seq in Hp; destruct DX as ((<- & _) & _); lia|]. exact (F fuel FU). }
  destruct (LOOP (S N) ltac:(lia)) as (cs' & EL & K). assert (ALL : forall fuel, N < fuel -> repairLoopC boehm2 fuel t X cs (seq 0 (length X)) = Ok (B', cs')).
  { intros fuel FU. replace fuel with (fuel - S N + S N) by lia. induction (fuel - S N) as [|k IH]; [exact EL|]. cbn [Nat.add]. now apply loopC_more. }
  exists N, B', (concat cs'). split; [|split; [exact SH'|split; [exact KM|split]]].
  - intros fuel FU. unfold refineAllElements. rewrite LV, Nat.eqb_refl. cbn [ensure bind]. rewrite <- LV, FE. cbn [bind fst snd]. unfold repairPatchesM. rewrite ES. cbn [bind]. unfold repairPatchesC. rewrite (ALL fuel FU). cbn [bind fst snd]. rewrite (join_ok B' cs' (proj1 K)). reflexivity.
  - intros p dir x DL. rewrite (HK p dir x DL). now apply carried_all.
  - exact (same_trans _ _ _ _ _ _ SX (kept_same _ _ _ _ _ FI EC K)).
Qed.
End R.

(** the vector of numbers that describes boxes with their levels *)
Definition encode (bs : list (Z * box)) : list Z := flat_map (fun x => [fst x; bLo0 (snd x); bLo1 (snd x); bHi0 (snd x); bHi1 (snd x)]) bs.
Lemma encode_read bs : boxesVectorToMatrix (encode bs) = Ok (map snd bs).
Proof. induction bs as [|(l, x) bs IH]; [reflexivity|]. cbn [encode flat_map app map fst snd]. cbn [boxesVectorToMatrix]. fold (encode bs). rewrite IH. destruct x; reflexivity. Qed.
Lemma elements_boxes : forall fuel t B P bs upd, refineElements fuel t B P (encode bs) upd = refineBoxes fuel t B P (map snd bs) upd /\
  forall c, refineElementsC boehm2 fuel t B c P (encode bs) upd = refineBoxesC boehm2 fuel t B c P (map snd bs) upd.
Proof. intros. unfold refineElements, refineElementsC. rewrite encode_read. split; reflexivity. Qed.
Lemma quiet_boxes : forall fuel t B P b boxes, nth_error B P = Some b ->
  refineBoxes fuel t B P boxes false = Ok (upd B P (insertKnots b (fst (boxToRefineKnots b boxes)) (snd (boxToRefineKnots b boxes)))).
Proof.
  intros fuel t B P b boxes E. unfold refineBoxes, vget. rewrite E. cbn [bind]. destruct (boxToRefineKnots b boxes) as (u, v). unfold refineKnots, vget. rewrite E. cbn [bind fst snd]. unfold vset. rewrite (proj2 (Nat.ltb_lt _ _)) by (apply nth_error_Some; congruence). reflexivity.
Qed.
