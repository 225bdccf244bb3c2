(** Tensor-product bases satisfy the hypotheses of C73. *)
From Coq Require Import Reals.
From Verif Require Import Common TopoModel BaseModel IndexSpec TopoSpec SmoothSpec SmoothSpec2 RingModel RingSpec DpModel DpSpec
  IndexProofs IndexTopoProofs ListLemmas TopoProofs PointProofs GeometryProofs RingInstance DpProofs4 DpExamples EvModel EvSpec DpEvModel DpEvSpec DpEvProofs.
From Coq Require Import ZifyBool.
Open Scope nat_scope.

Lemma ifv_ring b c s k o : on_side c s = true -> k < alongb b s -> o < acrossb b s -> rifv (ring_of b) k c s o = match side_dir s with 0 => cpt b c o k | _ => cpt b c k o end.
Proof. intros ON K O'. cbn [ring_of rifv]. now rewrite ifv_cpt. Qed.
Lemma along_big b s n : n <= fst b -> n <= snd b -> n <= alongb b s.
Proof. unfold alongb. destruct s; cbn; auto. Qed.
Lemma across_big b s n : n <= fst b -> n <= snd b -> n <= acrossb b s.
Proof. unfold acrossb. destruct s; cbn; auto. Qed.
Lemma fun_cpt b c a e : 4 <= fst b -> 4 <= snd b -> near a e -> function_at (ring_of b) c a e = cpt b c a e.
Proof.
  intros B0 B1 (A & E & NR). pose proof (along_big b (cside c 0) 4 B0 B1). pose proof (along_big b (cside c 1) 4 B0 B1).
  pose proof (across_big b (cside c 0) 4 B0 B1). pose proof (across_big b (cside c 1) 4 B0 B1).
  unfold function_at. destruct (Nat.leb_spec e 1).
  - rewrite ifv_ring; [now rewrite side_dir_cside by lia|apply on_side_iff_cside; now right|lia|lia].
  - rewrite ifv_ring; [now rewrite side_dir_cside by lia|apply on_side_iff_cside; now left|lia|lia].
Qed.
Lemma tensor_separated b : 8 <= fst b -> 8 <= snd b -> separated (ring_of b).
Proof.
  intros B0 B1. constructor.
  - intros k c s o ON K O'. pose proof (along_big b s 8 B0 B1). pose proof (across_big b s 8 B0 B1). rewrite ifv_ring by (assumption || lia).
    assert (G : forall a e, a <= 3 -> e <= 3 -> cpt b c a e < rsize (ring_of b)) by (intros; apply tindex_lt; destruct (cpar0 c), (cpar1 c); lia). destruct (side_dir s); apply G; lia.
  - intros c k o K O'. pose proof (along_big b (cside c 0) 8 B0 B1). pose proof (along_big b (cside c 1) 8 B0 B1).
    pose proof (across_big b (cside c 0) 8 B0 B1). pose proof (across_big b (cside c 1) 8 B0 B1).
    rewrite !ifv_ring; try lia; [now rewrite !side_dir_cside by lia|apply on_side_iff_cside; now right|apply on_side_iff_cside; now left].
  - intros c c' a e a' e' NR NR' E. rewrite !fun_cpt in E by (assumption || lia). destruct NR as (A & A2 & _), NR' as (A' & A2' & _). unfold cpt in E.
    apply tindex_inj in E; [|destruct (cpar0 c); lia|destruct (cpar0 c'); lia]. destruct E as (E1 & E2).
    destruct c, c'; cbn [cpar0 cpar1] in *; try lia; (split; [reflexivity|lia]).
Qed.

(** *** Rows without their ends *)
(** function [k] from the low end of side [s], [o] away from it *)
Definition rpt (b : tbasis) (s : side) (o k : nat) : nat :=
  match s with West => tindex b o k | East => tindex b (fst b - 1 - o) k | South => tindex b k o | North => tindex b k (snd b - 1 - o) end.
Lemma offset_rpt b s o : boundaryOffset b s o = map (rpt b s o) (seq 0 (alongb b s)).
Proof. destruct s; reflexivity. Qed.
Lemma filter_ends {X} (g : nat -> X) f n : 4 <= n -> (forall k, k < n -> f (g k) = (2 <=? k) && (k <? n - 2)) -> filter f (map g (seq 0 n)) = map g (seq 2 (n - 4)).
Proof.
  intros L H. assert (SQ : seq 0 n = seq 0 2 ++ seq 2 (n - 4) ++ seq (n - 2) 2).
  { replace n with (2 + ((n - 4) + 2)) at 1 by lia. rewrite (seq_app 2), (seq_app (n - 4)). rewrite Nat.add_0_l. replace (2 + (n - 4)) with (n - 2) by lia. reflexivity. }
  rewrite SQ.
  rewrite !map_app, !filter_app. rewrite (filter_none f (map g (seq 0 2))), (filter_none f (map g (seq (n - 2) 2))), (filter_all f (map g (seq 2 (n - 4)))), app_nil_r; [reflexivity|..];
    intros x Hx; apply in_map_iff in Hx; destruct Hx as (k & <- & Hk); apply in_seq in Hk; rewrite H by lia; lia.
Qed.
Lemma filter_rev' {X} (f : X -> bool) l : filter f (rev l) = rev (filter f l).
Proof. induction l as [|x l IH]; cbn; [reflexivity|]. rewrite filter_app, IH. cbn. destruct (f x); cbn; [reflexivity|apply app_nil_r]. Qed.
Lemma in_map_seq (g : nat -> nat) n x : existsb (Nat.eqb x) (map g (seq 0 n)) = true <-> exists k, k < n /\ x = g k.
Proof.
  rewrite existsb_exists. split.
  - intros (y & Hy & E). apply Nat.eqb_eq in E. subst y. apply in_map_iff in Hy. destruct Hy as (k & <- & Hk). apply in_seq in Hk. exists k. split; [lia|reflexivity].
  - intros (k & K & ->). exists (g k). split; [apply in_map, in_seq; lia|apply Nat.eqb_refl].
Qed.
Lemma in_row b s s' o o' k : 4 <= fst b -> 4 <= snd b -> o < 2 -> o' < 2 -> k < alongb b s -> side_dir s' <> side_dir s ->
  existsb (Nat.eqb (rpt b s o k)) (boundaryOffset b s' o') = (k =? if side_par s' then alongb b s - 1 - o' else o').
Proof.
  intros B0 B1 O' O2 K N. rewrite offset_rpt. apply eq_iff_eq_true. rewrite in_map_seq, Nat.eqb_eq. unfold alongb in *.
  destruct s, s'; try (exfalso; apply N; reflexivity); cbn [side_par IndexSpec.along] in *; unfold rpt; split;
    try (intros (j & J & E); apply tindex_inj in E; lia); intros ->; (eexists; split; [|reflexivity]); lia.
Qed.
Lemma central_row b s o : 4 <= fst b -> 4 <= snd b -> o < 2 -> central (ring_of b) s (boundaryOffset b s o) = map (rpt b s o) (seq 2 (alongb b s - 4)).
Proof.
  intros B0 B1 O'. unfold central. rewrite (offset_rpt b s o). pose proof (along_big b s 4 B0 B1) as L. apply filter_ends; [exact L|]. intros k K. cbn [ring_of roff].
  assert (G : forall s', negb (side_dir s' =? side_dir s) && (existsb (Nat.eqb (rpt b s o k)) (boundaryOffset b s' 0) || existsb (Nat.eqb (rpt b s o k)) (boundaryOffset b s' 1)) =
    negb (side_dir s' =? side_dir s) && ((k =? if side_par s' then alongb b s - 1 - 0 else 0) || (k =? if side_par s' then alongb b s - 1 - 1 else 1))).
  { intros s'. destruct (Nat.eqb_spec (side_dir s') (side_dir s)); [reflexivity|]. rewrite !in_row by (assumption || lia). reflexivity. }
  cbn [existsb]. rewrite !G. destruct s; cbn [side_dir side_par Nat.eqb negb andb orb]; lia.
Qed.
Lemma at_corner b s p k o : k < alongb b s -> o < acrossb b s -> rifv (ring_of b) k (corner_at s p) s o = rpt b s o (if p then alongb b s - 1 - k else k).
Proof.
  intros K O'. rewrite ifv_ring; [|destruct s, p; reflexivity|exact K|exact O']. unfold alongb in *. destruct s, p; reflexivity.
Qed.
Lemma nth_row b s o i : i < alongb b s - 4 -> nth_error (map (rpt b s o) (seq 2 (alongb b s - 4))) i = Some (rpt b s o (2 + i)).
Proof. intros L. rewrite nth_error_map, (nth_error_nth' _ 0) by now rewrite seq_length. now rewrite seq_nth by exact L. Qed.
Lemma nth_rev {X} (l : list X) i : i < length l -> nth_error (rev l) i = nth_error l (length l - 1 - i).
Proof.
  revert i. induction l as [|x l IH]; intros i; cbn [length rev]; [lia|]. intros H. destruct (Nat.eq_dec i (length l)) as [->|N].
  - rewrite nth_error_app2 by (rewrite rev_length; lia). rewrite rev_length, Nat.sub_diag. replace (S (length l) - 1 - length l) with 0 by lia. reflexivity.
  - rewrite nth_error_app1 by (rewrite rev_length; lia). rewrite IH by lia. replace (S (length l) - 1 - i) with (S (length l - 1 - i)) by lia. reflexivity.
Qed.

Theorem tensor_ends I : well_formed I -> (forall b, In b (ibases I) -> 6 <= fst b /\ 6 <= snd b) -> ends_matched (dtensor I).
Proof.
  intros W BIG f u k Hf HK. cbn [dtensor dring ritopo] in Hf.
  assert (fst (if1 f) < length (ibases I) /\ fst (if2 f) < length (ibases I)) as [Q1 Q2].
  { rewrite <- (wf_np I W). split; apply (sides_valid _ (wf_topo I W)); left; apply in_flat_map; exists f; simpl; auto. }
  destruct (nth_error (ibases I) (fst (if1 f))) as [b1|] eqn:E1; [|apply nth_error_None in E1; lia].
  destruct (nth_error (ibases I) (fst (if2 f))) as [b2|] eqn:E2; [|apply nth_error_None in E2; lia].
  pose proof (wf_match I W f b1 b2 Hf E1 E2) as ML. change (alongb b1 (snd (if1 f)) = alongb b2 (snd (if2 f))) in ML.
  destruct (BIG b1 (nth_error_In _ _ E1)) as (G1 & G2), (BIG b2 (nth_error_In _ _ E2)) as (G3 & G4).
  assert (forall p b, nth_error (ibases I) p = Some b -> basis_at (dtensor I) p = ring_of b) as KB.
  { intros p b E. unfold basis_at. cbn [dtensor dring ribases]. apply nth_error_nth. rewrite nth_error_map, E. reflexivity. }
  cbv zeta. rewrite (KB _ _ E1), (KB _ _ E2). set (s1 := snd (if1 f)) in *. set (s2 := snd (if2 f)) in *. set (n := alongb b1 s1).
  assert (N6 : 6 <= n) by (apply along_big; assumption).
  exists (if xorb (ifflip f) u then n - 3 - k else k - 2). intros o O'.
  exists (boundaryOffset b1 s1 o), (if ifflip f then rev (boundaryOffset b2 s2 o) else boundaryOffset b2 s2 o).
  split; [|split].
  - cbn [dtensor dmatch]. unfold basisOf, vget. rewrite E1, E2. cbn [bind]. unfold matchWith. fold s1 s2. rewrite !boundaryOffset_length. fold (alongb b1 s1) (alongb b2 s2). rewrite ML, Nat.eqb_refl. reflexivity.
  - rewrite central_row by lia. rewrite nth_row by (fold n; destruct (xorb (ifflip f) u); lia). pose proof (across_big b1 s1 6 G1 G2). rewrite at_corner by (fold n; lia). do 2 f_equal. fold n. destruct (xorb (ifflip f) u); lia.
  - assert (C : central (ring_of b2) s2 (if ifflip f then rev (boundaryOffset b2 s2 o) else boundaryOffset b2 s2 o) = let l := map (rpt b2 s2 o) (seq 2 (alongb b2 s2 - 4)) in if ifflip f then rev l else l).
    { destruct (ifflip f); cbv zeta; rewrite <- central_row by lia; [apply filter_rev'|reflexivity]. }
    rewrite C. cbv zeta. pose proof (across_big b2 s2 6 G3 G4). rewrite at_corner by (rewrite <- ?ML; fold n; lia). rewrite <- ML. fold n. assert (ML' : alongb b2 s2 = n) by (symmetry; exact ML).
    pose proof (nth_row b2 s2 o) as NR. rewrite ML' in NR. destruct (ifflip f); cbn [xorb].
    + rewrite nth_rev; rewrite map_length, seq_length; [|destruct u; cbn; lia]. rewrite NR by (destruct u; cbn; lia). do 2 f_equal. destruct u; cbn; lia.
    + rewrite NR by (destruct u; cbn; lia). do 2 f_equal. destruct u; cbn; lia.
Qed.
