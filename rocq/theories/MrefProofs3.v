(** Proofs for C71 and C72: refinement of the bases and of the coefficients. *)
From Coq Require Import Sorted ZifyBool.
From Verif Require Import Common TopoModel TopoSpec VertexModel VertexSpec RepairModel RepairSpec ListLemmas SplineModel BoehmModel BoehmSpec VertexProofs2 VertexProofs3 RepairProofs RepairProofs2 RepairProofs3 MrefModel MrefSpec MrefProofs MrefProofs2.
Open Scope nat_scope.

(** ** Blocks *)
Definition fits {C} (B : list vbase) (cs : list (list C)) : Prop := Forall2 (fun b c => length c = vsize b) B cs.
Lemma fits_len {C} B (cs : list (list C)) : fits B cs -> length cs = length B.
Proof. induction 1; cbn; congruence. Qed.
Lemma fits_nth {C} B (cs : list (list C)) p b c : fits B cs -> nth_error B p = Some b -> nth_error cs p = Some c -> length c = vsize b.
Proof. intros F. revert p. induction F as [|b0 c0 B cs H F IH]; intros [|p] Eb Ec; try discriminate; [injection Eb as <-; injection Ec as <-; exact H|exact (IH p Eb Ec)]. Qed.
Lemma fits_intro {C} B (cs : list (list C)) : length cs = length B -> (forall p b c, nth_error B p = Some b -> nth_error cs p = Some c -> length c = vsize b) -> fits B cs.
Proof.
  revert cs. induction B as [|b B IH]; intros [|c cs] L H; try discriminate; constructor; [exact (H 0 b c eq_refl eq_refl)|]. apply IH; [now injection L|]. intros p. exact (H (S p)).
Qed.
Lemma join_ok {C} B (cs : list (list C)) : fits B cs -> joinC B cs = Ok (concat cs).
Proof. induction 1 as [|b c B cs H F IH]; [reflexivity|]. cbn [joinC concat]. rewrite H, Nat.eqb_refl. cbn [ensure bind]. rewrite IH. reflexivity. Qed.
Lemma concat_len {C} B (cs : list (list C)) : fits B cs -> length (concat cs) = total B.
Proof. induction 1 as [|b c B cs H F IH]; [reflexivity|]. cbn [concat]. rewrite app_length, IH, H. reflexivity. Qed.
Lemma block_cons {C} b B p (c d : list C) : length c = vsize b -> block (b :: B) (S p) (c ++ d) = block B p d.
Proof.
  intros H. unfold block. cbn [nth_error firstn map sumN]. change (count0 b * count1 b) with (vsize b). destruct (nth_error B p); [|reflexivity]. f_equal. rewrite skipn_app. rewrite skipn_all2 by lia. cbn [app]. f_equal. lia.
Qed.
Lemma block_concat {C} B (cs : list (list C)) p c : fits B cs -> nth_error cs p = Some c -> block B p (concat cs) = c.
Proof.
  intros F. revert p. induction F as [|b c0 B cs H F IH]; intros [|p] E; try discriminate.
  - injection E as <-. cbn [concat]. unfold block. cbn [nth_error firstn map sumN skipn]. change (count0 b * count1 b) with (vsize b). rewrite <- H, firstn_app, firstn_all, Nat.sub_diag, firstn_O. apply app_nil_r.
  - cbn [concat]. rewrite block_cons by exact H. now apply IH.
Qed.
Lemma split_ok {C} B (c : list C) : length c = total B -> exists cs, splitC B c = Ok cs /\ fits B cs /\ concat cs = c.
Proof.
  revert c. induction B as [|b B IH]; intros c H; [exists []; cbn in *; split; [reflexivity|]; split; [constructor|]; destruct c; [reflexivity|discriminate]|].
  unfold total in H. cbn [map sumN] in H. fold (total B) in H. change (count0 b * count1 b) with (vsize b) in H. destruct (IH (skipn (vsize b) c)) as (cs & E & F & EC); [rewrite skipn_length; lia|].
  exists (firstn (vsize b) c :: cs). cbn [splitC]. replace (vsize b <=? length c) with true by (symmetry; apply Nat.leb_le; lia). cbn [ensure bind]. rewrite E. split; [reflexivity|]. split; [constructor; [rewrite firstn_length; lia|exact F]|]. cbn [concat]. rewrite EC. apply firstn_skipn.
Qed.

(** the surfaces stay *)
Definition kept (B : list vbase) (cs : list (list R)) (B' : list vbase) (cs' : list (list R)) : Prop :=
  fits B' cs' /\ length B' = length B /\
  forall p b b' c c', nth_error B p = Some b -> nth_error B' p = Some b' -> nth_error cs p = Some c -> nth_error cs' p = Some c' -> forall x y, surf b' c' x y = surf b c x y.
Lemma kept_refl B cs : fits B cs -> kept B cs B cs.
Proof. intros F. split; [exact F|]. split; [reflexivity|]. intros. congruence. Qed.
Lemma kept_trans B cs B1 cs1 B2 cs2 : fits B cs -> kept B cs B1 cs1 -> kept B1 cs1 B2 cs2 -> kept B cs B2 cs2.
Proof.
  intros F (F1 & L1 & K1) (F2 & L2 & K2). split; [exact F2|]. split; [congruence|]. intros p b b' c c' Eb Eb' Ec Ec' x y.
  assert (LP : p < length B) by (apply nth_error_Some; congruence). destruct (nth_error B1 p) as [b1|] eqn:E1; [|apply nth_error_None in E1; lia]. destruct (nth_error cs1 p) as [c1|] eqn:E2; [|apply nth_error_None in E2; rewrite (fits_len _ _ F1) in E2; lia].
  rewrite (K2 p b1 b' c1 c' E1 Eb' E2 Ec' x y). exact (K1 p b b1 c c1 Eb E1 Ec E2 x y).
Qed.
Lemma kept_same B cs B' cs' c : fits B cs -> concat cs = c -> kept B cs B' cs' -> same_surfaces B c B' (concat cs').
Proof.
  intros F <- (F' & L & K). split; [exact L|]. split; [now apply concat_len|]. intros p b b' Eb Eb' x y. assert (LP : p < length B) by (apply nth_error_Some; congruence).
  destruct (nth_error cs p) as [d|] eqn:E1; [|apply nth_error_None in E1; rewrite (fits_len _ _ F) in E1; lia]. destruct (nth_error cs' p) as [d'|] eqn:E2; [|apply nth_error_None in E2; rewrite (fits_len _ _ F') in E2; lia].
  rewrite (block_concat B cs p d F E1), (block_concat B' cs' p d' F' E2). exact (K p b b' d d' Eb Eb' E1 E2 x y).
Qed.
Lemma fits_upd {C} B (cs : list (list C)) p b c : fits B cs -> length c = vsize b -> fits (upd B p b) (upd cs p c).
Proof. intros F H. revert p. induction F as [|b0 c0 B cs E F IH]; intros [|p]; cbn [upd]; constructor; try assumption. apply IH. Qed.
Lemma kept_upd B cs p b b1 c c1 : fits B cs -> nth_error B p = Some b -> nth_error cs p = Some c -> length c1 = vsize b1 -> (forall x y, surf b1 c1 x y = surf b c x y) -> kept B cs (upd B p b1) (upd cs p c1).
Proof.
  intros F Eb Ec H K. split; [now apply fits_upd|]. split; [apply upd_length|]. assert (LP : p < length B) by (apply nth_error_Some; congruence). intros q d d' e e' Ed Ed' Ee Ee' x y.
  rewrite nth_upd in Ed' by exact LP. rewrite nth_upd in Ee' by (rewrite (fits_len _ _ F); exact LP). destruct (Nat.eqb_spec q p) as [->|N]; [|congruence]. injection Ed' as <-. injection Ee' as <-. rewrite Eb in Ed. rewrite Ec in Ee. injection Ed as <-. injection Ee as <-. apply K.
Qed.

Lemma loopC_more t fuel : forall B cs C r, repairLoopC boehm2 fuel t B cs C = Ok r -> repairLoopC boehm2 (S fuel) t B cs C = Ok r.
Proof.
  induction fuel as [|fuel IH]; intros B cs C r E; [discriminate|]. destruct C as [|p C]; [discriminate|]. remember (S fuel) as fu. cbn [repairLoopC]. subst fu. cbn [repairLoopC] in E. destruct (knotsMatchNeighbours t B p) as [((i0, i1), chk)|]; [|discriminate]. cbn [bind] in *.
  destruct (vget B p) as [b|]; [|discriminate]. cbn [bind] in *. destruct (vget cs p) as [c|]; [|discriminate]. cbn [bind] in *. destruct (if nothing i0 i1 then Ok c else boehm2 b i0 i1 c) as [c'|]; [|discriminate]. cbn [bind] in *. destruct (vset B p (insertKnots b i0 i1)) as [B'|]; [|discriminate]. cbn [bind] in *.
  destruct (vset cs p c') as [cs'|]; [|discriminate]. cbn [bind] in *. destruct (fold_left (fun l x => setInsert x l) chk C) as [|q C']; [exact E|]. now apply IH.
Qed.

(** ** Insertions into shaped bases *)
Section R.
Context (t : topo) (Hc : consistent t) (L : nat -> nat -> Z) (D : nat -> nat -> nat).

Lemma shaped_opened B p b : shaped t L D B -> nth_error B p = Some b -> opened b (L p 0) (L p 1).
Proof.
  intros (_ & SH & _) E. destruct (SH p b E 0 ltac:(lia)) as (D0 & m0 & S0). destruct (SH p b E 1 ltac:(lia)) as (D1 & m1 & S1). cbn [degree knots] in *. rewrite <- D0 in S0. rewrite <- D1 in S1. split; eapply simple_open_with; eassumption.
Qed.
Lemma shaped_sorted B p b dir : shaped t L D B -> nth_error B p = Some b -> dir < 2 -> StronglySorted Z.le (knots b dir).
Proof. intros (_ & SH & _) E DL. destruct (SH p b E dir DL) as (_ & m & S0). eapply open_sorted, simple_open_with. exact S0. Qed.
Lemma shaped_mid B p b dir x a c : shaped t L D B -> nth_error B p = Some b -> dir < 2 -> span_of (knots b dir) a c -> (a < x < c)%Z -> (0 < x < L p dir)%Z.
Proof.
  intros SH E DL (i & A & C & _) X. assert (HA : has_knot B p dir a) by (exists b; split; [exact E|eapply nth_error_In; exact A]). assert (HC : has_knot B p dir c) by (exists b; split; [exact E|eapply nth_error_In; exact C]).
  pose proof (shaped_range t L D B p dir a SH DL HA). pose proof (shaped_range t L D B p dir c SH DL HC). lia.
Qed.
Definition goodIns (B : list vbase) p (b : vbase) dir (ins : list Z) : Prop := NoDup ins /\ forall y, In y ins -> (0 < y < L p dir)%Z /\ ~ In y (knots b dir).
Lemma insert_shaped B p b i0 i1 : shaped t L D B -> nth_error B p = Some b -> goodIns B p b 0 i0 -> goodIns B p b 1 i1 -> shaped t L D (upd B p (insertKnots b i0 i1)).
Proof.
  intros SH E (N0 & H0) (N1 & H1). pose proof SH as (LB & S1 & CO). assert (LP : p < length B) by (apply nth_error_Some; congruence). split; [now rewrite upd_length|]. split; [|exact CO].
  intros q b' Eq dir DL. rewrite nth_upd in Eq by exact LP. destruct (Nat.eqb_spec q p) as [->|NE]; [|now apply S1]. injection Eq as <-. destruct (S1 p b E dir DL) as (DG & mid & SO).
  destruct dir as [|[|dir]]; [| |lia]; cbn [degree knots insertKnots vk0 vk1 vd0 vd1] in *; (split; [exact DG|]); [exact (insert_simple _ _ i0 mid _ SO N0 H0)|exact (insert_simple _ _ i1 mid _ SO N1 H1)].
Qed.
Lemma wanted_good B p b dir ins : shaped t L D B -> nth_error B p = Some b -> NoDup ins -> (forall x, In x ins <-> wanted_knot t L B p dir x) -> goodIns B p b dir ins.
Proof.
  intros SH E N H. assert (V : p < tnp t) by (destruct SH as (<- & _); apply nth_error_Some; congruence). split; [exact N|]. intros y Hy. apply H in Hy. split; [apply (wanted_range t L D B p dir y SH V Hy)|]. intros C. apply (proj1 Hy). now exists b.
Qed.
Lemma refine_kept B p b c cs i0 i1 : shaped t L D B -> fits B cs -> nth_error B p = Some b -> nth_error cs p = Some c -> goodIns B p b 0 i0 -> goodIns B p b 1 i1 ->
  exists c1, boehm2 b i0 i1 c = Ok c1 /\ kept B cs (upd B p (insertKnots b i0 i1)) (upd cs p c1).
Proof.
  intros SH F Eb Ec (_ & H0) (_ & H1). destruct (boehm2_ok b (L p 0) (L p 1) i0 i1 c (shaped_opened B p b SH Eb)) as (c1 & E & L1 & K); [intros; now apply H0|intros; now apply H1|exact (fits_nth _ _ _ _ _ F Eb Ec)|].
  exists c1. split; [exact E|]. apply (kept_upd B cs p b _ c c1); assumption.
Qed.

(** ** The loop with coefficients *)
Lemma loopC_pf fuel : forall B cs C B', shaped t L D B -> fits B cs -> (forall p, In p C -> p < tnp t) -> repairLoop fuel t B C = Ok B' ->
  exists cs', repairLoopC boehm2 fuel t B cs C = Ok (B', cs') /\ kept B cs B' cs'.
Proof.
  induction fuel as [|fuel IH]; intros B cs C B' SH F VC E; [discriminate|]. destruct C as [|p C]; [discriminate|]. assert (V : p < tnp t) by (apply VC; now left). assert (VB : p < length B) by (destruct SH as (-> & _); exact V).
  destruct (match_spec t Hc L D B p SH V) as (i0 & i1 & chk & EM & N0 & N1 & H0 & H1 & HC).
  cbn [repairLoop repairLoopC] in *. rewrite EM in *. cbn [bind] in *. unfold vget in *. destruct (nth_error B p) as [b|] eqn:Eb; [|apply nth_error_None in Eb; lia]. destruct (nth_error cs p) as [c|] eqn:Ec; [|apply nth_error_None in Ec; rewrite (fits_len _ _ F) in Ec; lia].
  cbn [bind] in *. rewrite vset_ok in * by exact VB. cbn [bind] in *. pose proof (wanted_good B p b 0 i0 SH Eb N0 H0) as G0. pose proof (wanted_good B p b 1 i1 SH Eb N1 H1) as G1.
  set (B1 := upd B p (insertKnots b i0 i1)) in *. set (C1 := fold_left (fun l x => setInsert x l) chk C) in *. assert (SH1 : shaped t L D B1) by (apply insert_shaped; assumption).
  assert (K1 : exists c1, (if nothing i0 i1 then Ok c else boehm2 b i0 i1 c) = Ok c1 /\ kept B cs B1 (upd cs p c1)).
  { destruct (nothing i0 i1) eqn:NT; [|exact (refine_kept B p b c cs i0 i1 SH F Eb Ec G0 G1)]. exists c. split; [reflexivity|]. assert (I0 : i0 = [] /\ i1 = []) by (destruct i0, i1; try discriminate; auto). destruct I0 as (-> & ->).
    assert (EI : insertKnots b [] [] = b) by (destruct b; reflexivity). apply (kept_upd B cs p b _ c c F Eb Ec); rewrite EI; [exact (fits_nth _ _ _ _ _ F Eb Ec)|reflexivity]. }
  destruct K1 as (c1 & E1 & K1). rewrite E1. cbn [bind]. rewrite vset_ok by (rewrite (fits_len _ _ F); exact VB). cbn [bind].
  assert (VC1 : forall q, In q C1 -> q < tnp t).
  { intros q Hq. apply inserts_in in Hq. destruct Hq as [Hq|Hq]; [|apply VC; now right]. apply HC in Hq. destruct Hq as (s & s' & fl & J & _). apply (joined_valid t Hc L D _ _ _ _ _ J). }
  destruct C1 as [|q C1'].
  - injection E as <-. exists (upd cs p c1). split; [reflexivity|exact K1].
  - destruct (IH B1 (upd cs p c1) (q :: C1') B' SH1 (proj1 K1) VC1 E) as (cs' & E' & K'). exists cs'. split; [exact E'|]. exact (kept_trans _ _ _ _ _ _ F K1 K').
Qed.

(** ** Refinement by boxes *)
Context (B : list vbase) (P : nat) (b : vbase) (boxes : list box) (SH : shaped t L D B) (Eb : nth_error B P = Some b) (DV : forall dir, dir < 2 -> divisible 2 (knots b dir)) (AP : apart b boxes).
Notation ins := (fun dir => midKnots (map (rangeOf dir) boxes) (knots b dir)).
Notation B1 := (upd B P (insertKnots b (ins 0) (ins 1))).

Lemma ins_good dir : dir < 2 -> goodIns B P b dir (ins dir).
Proof.
  intros DL. pose proof (shaped_sorted B P b dir SH Eb DL) as ST. split; [apply mid_nodup; [exact DL|exact (le_asc _ ST)|now apply DV|exact AP]|]. intros y Hy. rewrite mid_fill in Hy. pose proof (mid_between (map (rangeOf dir) boxes) _ (DV dir DL)) as BE.
  split; [|exact (fill_new _ _ ST BE y Hy)]. apply fill_in in Hy. destruct Hy as (a & c & SP & Hy). exact (shaped_mid B P b dir y a c SH Eb DL SP (BE _ _ _ SP Hy)).
Qed.
Lemma B1_shaped : shaped t L D B1.
Proof. apply insert_shaped; [exact SH|exact Eb|apply (ins_good 0); lia|apply (ins_good 1); lia]. Qed.
Lemma B1_has p dir x : dir < 2 -> has_knot B1 p dir x <-> has_knot B p dir x \/ (p = P /\ midpoint (knots b dir) x /\ exists X, In X boxes /\ in_range dir x X).
Proof.
  intros DL. assert (LP : P < length B) by (apply nth_error_Some; congruence). pose proof (next_has L D B P (ins 0) (ins 1) dir p x LP DL) as N. unfold next in N. rewrite Eb in N. rewrite N. rewrite <- range_in by exact DL. rewrite <- mid_in by now apply DV.
  destruct dir as [|[|]]; [reflexivity|reflexivity|lia].
Qed.
Lemma carried_refined p dir x : dir < 2 -> carried t L B1 p dir x <-> refined t L B P boxes p dir x.
Proof.
  intros DL. split.
  - intros H. induction H as [p dir x H|p s q s' fl x J H IH]; [|apply ref_step; [exact J|apply IH, along_lt]]. apply (B1_has p dir x DL) in H. destruct H as [H|(-> & M & X & HX & I')]; [now apply ref_own|]. exact (ref_mid t L B P boxes b X dir x Eb M HX I').
  - intros H. induction H as [p dir x H|b' X dir x E M HX I'|p s q s' fl x J H IH].
    + apply car_own, (B1_has p dir x DL). now left.
    + rewrite Eb in E. injection E as <-. apply car_own, (B1_has P dir x DL). right. split; [reflexivity|]. split; [exact M|]. now exists X.
    + apply car_step; [exact J|apply IH, along_lt].
Qed.
Lemma valid_P : P < tnp t. Proof. destruct SH as (<- & _). apply nth_error_Some. congruence. Qed.
Lemma box_pair : boxToRefineKnots b boxes = (ins 0, ins 1). Proof. reflexivity. Qed.

Theorem refine_pf : exists N B', (forall fuel, N < fuel -> refineBoxes fuel t B P boxes true = Ok B') /\ shaped t L D B' /\
  (forall f, In f (tif t) -> knots_match B' f) /\ (forall p dir x, dir < 2 -> has_knot B' p dir x <-> refined t L B P boxes p dir x).
Proof.
  assert (VP := valid_P). destruct (repair_all_pf t L D B1 Hc B1_shaped ltac:(lia)) as (N & B' & F & SH' & KM & HK). exists N, B'. split; [|split; [exact SH'|split; [exact KM|]]].
  - intros fuel FU. unfold refineBoxes, vget. rewrite Eb. cbn [bind]. rewrite box_pair. unfold refineKnots, vget. rewrite Eb. cbn [bind]. rewrite vset_ok by (apply nth_error_Some; congruence). cbn [bind]. now apply F.
  - intros p dir x DL. rewrite (HK p dir x DL). now apply carried_refined.
Qed.

Lemma away_match f : In f (tif t) -> away_from P f -> knots_match B f -> knots_match B1 f.
Proof.
  intros Hf (A1 & A2) (x & y & E1 & E2 & M). assert (LP : P < length B) by (apply nth_error_Some; congruence). exists x, y. rewrite !nth_upd by exact LP. destruct (Nat.eqb_spec (fst (if1 f)) P); [contradiction|]. destruct (Nat.eqb_spec (fst (if2 f)) P); [contradiction|]. auto.
Qed.
Theorem refineC_pf c : (forall f, In f (tif t) -> away_from P f -> knots_match B f) -> length c = total B ->
  exists N B' c', (forall fuel, N < fuel -> refineBoxesC boehm2 fuel t B c P boxes true = Ok (B', c')) /\ shaped t L D B' /\
  (forall f, In f (tif t) -> knots_match B' f) /\ (forall p dir x, dir < 2 -> has_knot B' p dir x <-> refined t L B P boxes p dir x) /\ same_surfaces B c B' c'.
Proof.
  intros AW LC. assert (VP := valid_P). assert (LP : P < length B) by (apply nth_error_Some; congruence). destruct (repair_from_pf t L D B1 P Hc B1_shaped VP) as (N & B' & F & SH' & KM & HK).
  { intros f Hf A. apply away_match; [exact Hf|exact A|now apply AW]. }
  destruct (split_ok B c LC) as (cs & ES & FI & EC). destruct (nth_error cs P) as [cp|] eqn:Ecp; [|apply nth_error_None in Ecp; rewrite (fits_len _ _ FI) in Ecp; lia].
  destruct (refine_kept B P b cp cs (ins 0) (ins 1) SH FI Eb Ecp (ins_good 0 ltac:(lia)) (ins_good 1 ltac:(lia))) as (c1 & E1 & K1).
  assert (LOOP : forall fuel, N < fuel -> exists cs', repairLoopC boehm2 fuel t B1 (upd cs P c1) [P] = Ok (B', cs') /\ kept B1 (upd cs P c1) B' cs').
  { intros fuel FU. apply loopC_pf; [exact B1_shaped|exact (proj1 K1)|intros p [<-|[]]; exact VP|]. exact (F fuel FU). }
  destruct (LOOP (S N) ltac:(lia)) as (cs' & EL & K2). assert (ALL : forall fuel, N < fuel -> repairLoopC boehm2 fuel t B1 (upd cs P c1) [P] = Ok (B', cs')).
  { intros fuel FU. replace fuel with (fuel - S N + S N) by lia. induction (fuel - S N) as [|k IH]; [exact EL|]. cbn [Nat.add]. now apply loopC_more. }
  pose proof (kept_trans _ _ _ _ _ _ FI K1 K2) as K. exists N, B', (concat cs'). split; [|split; [exact SH'|split; [exact KM|split]]].
  - intros fuel FU. unfold refineBoxesC, vget. rewrite Eb. cbn [bind]. rewrite box_pair. unfold refineKnotsC, vget. rewrite ES. cbn [bind]. rewrite Eb. cbn [bind]. rewrite Ecp. cbn [bind]. rewrite E1. cbn [bind]. rewrite vset_ok by exact LP. cbn [bind]. rewrite vset_ok by (rewrite (fits_len _ _ FI); exact LP). cbn [bind].
    unfold repairPatchesC. rewrite (ALL fuel FU). cbn [bind fst snd]. rewrite (join_ok B' cs' (proj1 K)). reflexivity.
  - intros p dir x DL. rewrite (HK p dir x DL). now apply carried_refined.
  - exact (kept_same _ _ _ _ _ FI EC K).
Qed.
(** without repairing, and whatever the repair makes of it *)
Theorem refineC_idle_pf fuel c : length c = total B -> exists c', refineBoxesC boehm2 fuel t B c P boxes false = Ok (B1, c') /\ same_surfaces B c B1 c'.
Proof.
  intros LC. assert (LP : P < length B) by (apply nth_error_Some; congruence). destruct (split_ok B c LC) as (cs & ES & FI & EC). destruct (nth_error cs P) as [cp|] eqn:Ecp; [|apply nth_error_None in Ecp; rewrite (fits_len _ _ FI) in Ecp; lia].
  destruct (refine_kept B P b cp cs (ins 0) (ins 1) SH FI Eb Ecp (ins_good 0 ltac:(lia)) (ins_good 1 ltac:(lia))) as (c1 & E1 & K1). exists (concat (upd cs P c1)). split; [|exact (kept_same _ _ _ _ _ FI EC K1)].
  unfold refineBoxesC, vget. rewrite Eb. cbn [bind]. rewrite box_pair. unfold refineKnotsC, vget. rewrite ES. cbn [bind]. rewrite Eb. cbn [bind]. rewrite Ecp. cbn [bind]. rewrite E1. cbn [bind]. rewrite vset_ok by exact LP. cbn [bind]. rewrite vset_ok by (rewrite (fits_len _ _ FI); exact LP). cbn [bind fst snd].
  rewrite (join_ok _ _ (proj1 K1)). reflexivity.
Qed.
Theorem refineC_any_pf fuel c B' : length c = total B -> repairPatches fuel t B1 (Some P) = Ok B' -> exists c', refineBoxesC boehm2 fuel t B c P boxes true = Ok (B', c') /\ same_surfaces B c B' c'.
Proof.
  intros LC ER. assert (LP : P < length B) by (apply nth_error_Some; congruence). destruct (split_ok B c LC) as (cs & ES & FI & EC). destruct (nth_error cs P) as [cp|] eqn:Ecp; [|apply nth_error_None in Ecp; rewrite (fits_len _ _ FI) in Ecp; lia].
  destruct (refine_kept B P b cp cs (ins 0) (ins 1) SH FI Eb Ecp (ins_good 0 ltac:(lia)) (ins_good 1 ltac:(lia))) as (c1 & E1 & K1).
  destruct (loopC_pf fuel B1 (upd cs P c1) [P] B' B1_shaped (proj1 K1)) as (cs' & EL & K2); [intros p [<-|[]]; exact valid_P|exact ER|]. pose proof (kept_trans _ _ _ _ _ _ FI K1 K2) as K. exists (concat cs'). split; [|exact (kept_same _ _ _ _ _ FI EC K)].
  unfold refineBoxesC, vget. rewrite Eb. cbn [bind]. rewrite box_pair. unfold refineKnotsC, vget. rewrite ES. cbn [bind]. rewrite Eb. cbn [bind]. rewrite Ecp. cbn [bind]. rewrite E1. cbn [bind]. rewrite vset_ok by exact LP. cbn [bind]. rewrite vset_ok by (rewrite (fits_len _ _ FI); exact LP). cbn [bind].
  unfold repairPatchesC. rewrite EL. cbn [bind fst snd]. rewrite (join_ok _ _ (proj1 K)). reflexivity.
Qed.
End R.
