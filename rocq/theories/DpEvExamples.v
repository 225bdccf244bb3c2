(** A concrete multipatch for C73. *)
From Coq Require Import Reals Qreals Lra.
From Verif Require Import Common TopoModel BaseModel IndexSpec TopoSpec SmoothSpec SmoothSpec2 SmoothExamples RingModel RingSpec DpModel DpSpec
  IndexProofs ListLemmas TopoProofs GeometryProofs RingExamples DpExamples PiModel PiSpec PiProofs EvModel EvSpec DpEvModel DpEvSpec DpEvProofs DpEvProofs2 DpEvTensor.
From Verif Require AcProofs7 EvExamples.
From Coq Require Import ZifyBool.
Open Scope nat_scope.

(** three patches around a vertex, each with cubic functions on three by three elements, all elements halved *)
Definition six : input := mkIn three_patches_topo [(6, 6); (6, 6); (6, 6)] (repeat false 12).
Lemma six_wf : well_formed six. Proof. wf. Qed.
Definition nine : list rbasis := map ring_of [(9, 9); (9, 9); (9, 9)].
(** knot insertion *)
Definition tauL (a a' : nat) : Q :=
  (match a, a' with
   | 0, 0 => 1%Q | 1, 0 => 1 # 2 | 1, 1 => 1 # 2 | 2, 1 => 3 # 4 | 2, 2 => 1 # 4 | 3, 1 => 3 # 16 | 3, 2 => 11 # 16 | 3, 3 => 1 # 8 | 4, 2 => 1 # 2 | 4, 3 => 1 # 2 | _, _ => 0%Q
   end).
Definition tau9 (a a' : nat) : Q := if a <=? 4 then tauL a a' else tauL (8 - a) (5 - a').
Definition TQ (x k : nat) : Q :=
  if x / 81 =? k / 36 then (tau9 (x mod 81 mod 9) (k mod 36 mod 6) * tau9 (x mod 81 / 9) (k mod 36 / 6))%Q else 0%Q.
Definition T9 : matrix := fun x k => Q2R (TQ x k).
Definition tau9R (a a' : nat) : R := Q2R (tau9 a a').

Definition l3 : list pcorner := [(0, SW); (1, SW); (2, SW)].
Lemma l3_vertices : vertices three_patches_topo [l3].
Proof. exact EvExamples.l3_vertices. Qed.
Lemma tau9_ok : insertion tau9R.
Proof.
  constructor.
  - unfold tau9R, Q2R. cbn. lra.
  - intros a L. unfold tau9R. rewrite (AcProofs7.rsum_Q (S a) (tau9 a)). transitivity (Q2R 1); [apply Qeq_eqR|unfold Q2R; cbn; lra].
    destruct a as [|[|[|[|a]]]]; [..|lia]; reflexivity.
Qed.
Lemma T9_sums c : c < 243 -> rsum 108 (T9 c) = 1%R.
Proof.
  intros L. unfold T9. rewrite (AcProofs7.rsum_Q 108 (TQ c)). transitivity (Q2R 1); [apply Qeq_eqR|unfold Q2R; cbn; lra].
  assert (G : forallb (fun c => Qeq_bool (sumQ (map (TQ c) (seq 0 108))) 1) (seq 0 243) = true) by (vm_compute; reflexivity).
  rewrite forallb_forall in G. apply Qeq_bool_iff, G, in_seq. lia.
Qed.

Lemma pick n f i : i < n -> rsum n (fun k => f k * (if k =? i then 1 else 0))%R = f i.
Proof.
  intros L. rewrite (AcProofs7.rsum_single n _ i L); [rewrite Nat.eqb_refl; ring|]. intros j _ N. replace (j =? i) with false by lia. ring.
Qed.
Notation oc6 := (column_of (ribases (dring (dtensor six)))).
Definition TQ' (c : pcorner) (a b k : nat) : Q :=
  sumQ (map (fun a' => sumQ (map (fun b' => (tau9 a a' * tau9 b b' * (if k =? oc6 c a' b' then 1 else 0))%Q) (seq 0 (S b)))) (seq 0 (S a))).
Lemma T9_row c a b k : In c l3 -> near a b -> k < 108 -> (TQ (column_of nine c a b) k == TQ' c a b k)%Q.
Proof.
  intros Ic (A & B & N) K.
  assert (G : forallb (fun c => forallb (fun a => forallb (fun b => negb ((a <=? 1) || (b <=? 1)) || forallb (fun k => Qeq_bool (TQ (column_of nine c a b) k) (TQ' c a b k)) (seq 0 108)) (seq 0 4)) (seq 0 4)) l3 = true) by (vm_compute; reflexivity).
  rewrite forallb_forall in G. specialize (G c Ic). cbv beta in G. rewrite forallb_forall in G. specialize (G a ltac:(apply in_seq; lia)). cbv beta in G. rewrite forallb_forall in G. specialize (G b ltac:(apply in_seq; lia)).
  cbv beta in G. apply orb_prop in G. destruct G as [G|G]; [lia|]. rewrite forallb_forall in G. apply Qeq_bool_iff, G, in_seq. lia.
Qed.
Lemma oc_lt c a b : In c l3 -> near a b -> oc6 c a b < 108.
Proof.
  intros Ic (A & B & N).
  assert (G : forallb (fun c => forallb (fun a => forallb (fun b => negb ((a <=? 1) || (b <=? 1)) || (oc6 c a b <? 108)) (seq 0 4)) (seq 0 4)) l3 = true) by (vm_compute; reflexivity).
  rewrite forallb_forall in G. specialize (G c Ic). cbv beta in G. rewrite forallb_forall in G. specialize (G a ltac:(apply in_seq; lia)). cbv beta in G. rewrite forallb_forall in G. specialize (G b ltac:(apply in_seq; lia)). lia.
Qed.
Lemma T9_transfer : transfer 108 T9 [l3] (column_of nine) oc6 tau9R.
Proof.
  intros c a b Ic NR f. change (concat [l3]) with l3 in Ic.
  transitivity (rsum 108 (fun k => rsum (S a) (fun a' => rsum (S b) (fun b' => tau9R a a' * tau9R b b' * (f k * (if k =? oc6 c a' b' then 1 else 0)))))%R).
  { apply rsum_ext. intros k K. unfold T9. rewrite (Qeq_eqR _ _ (T9_row c a b k Ic NR K)). unfold TQ'. rewrite <- AcProofs7.rsum_Q. rewrite <- rsum_scal. apply rsum_ext. intros a' _.
    rewrite <- AcProofs7.rsum_Q. rewrite <- rsum_scal. apply rsum_ext. intros b' _. unfold tau9R. rewrite !Q2R_mult. replace (Q2R (if k =? oc6 c a' b' then 1%Q else 0%Q)) with (if k =? oc6 c a' b' then 1%R else 0%R) by (destruct (k =? oc6 c a' b'); unfold Q2R; cbn; lra). ring. }
  rewrite rsum_swap. apply rsum_ext. intros a' A'. rewrite rsum_swap. apply rsum_ext. intros b' B'. rewrite rsum_scal. f_equal. apply (pick 108 f). apply oc_lt; [exact Ic|]. unfold near in *. lia.
Qed.

Lemma six_dp : dp_input (dtensor six).
Proof. apply tensor_pf; [exact six_wf|]. apply (sup_check six _ six_wf). vm_compute. reflexivity. Qed.
Lemma six_ends : ends_matched (dtensor six).
Proof. apply tensor_ends; [exact six_wf|]. intros b Hb. cbn in Hb. intuition subst; cbn; lia. Qed.
Lemma nine_sep b : In b nine -> separated b.
Proof. intros Hb. cbn in Hb. destruct Hb as [<-|[<-|[<-|[]]]]; apply (tensor_separated (9, 9)); cbn; lia. Qed.
Definition dsix : dresult := match dCompute (dtensor six) with Ok D => D | Err => mkDR 0 0 (cmap_of []) [] end.
Lemma dsix_ok : dCompute (dtensor six) = Ok dsix.
Proof. unfold dsix. destruct (result_ex (dtensor six) six_dp) as (D & ->). reflexivity. Qed.
Lemma dsix_size : (drRows dsix, drCols dsix) = (75, 108).
Proof. vm_compute. reflexivity. Qed.
Lemma refined_Q r x : refined 108 (fun r c => Q2R (dentry dsix r c)) T9 r x = Q2R (sumQ (map (fun k => (dentry dsix r k * TQ x k)%Q) (seq 0 108))).
Proof. unfold refined, T9. rewrite <- AcProofs7.rsum_Q. apply rsum_ext. intros k _. now rewrite Q2R_mult. Qed.

Lemma dsix10 : (sumQ (map (fun k => (dentry dsix 0 k * TQ 10 k)%Q) (seq 0 108)) == 7 # 12)%Q.
Proof. apply Qeq_bool_iff. vm_compute. reflexivity. Qed.
Lemma dsix91 : (sumQ (map (fun k => (dentry dsix 0 k * TQ 91 k)%Q) (seq 0 108)) == 5 # 24)%Q.
Proof. apply Qeq_bool_iff. vm_compute. reflexivity. Qed.
Opaque dsix.
Lemma nonvacuous_pf : exists A', dPatch (dtensor six) nine T9 [l3] 1 (1 / 2) 0 = Ok (75, 243, A') /\ (forall c, c < 243 -> colSum 75 A' c = 1%R) /\
  (exists cs, ring three_patches_topo l3 cs /\ forall r, dpatch_at three_patches_topo (column_of nine) (1 / 2) 0 cs A' r) /\
  column_of nine (0, SW) 1 1 = 10 /\ column_of nine (1, SW) 1 1 = 91 /\ A' 0 10 = A' 0 91 /\
  refined 108 (fun r c => Q2R (dentry dsix r c)) T9 0 10 = (7 / 12)%R /\ refined 108 (fun r c => Q2R (dentry dsix r c)) T9 0 91 = (5 / 24)%R.
Proof.
  pose proof (f_equal fst dsix_size) as ER. pose proof (f_equal snd dsix_size) as EC. cbn [fst snd] in ER, EC.
  destruct (vertices_thm (dtensor six) six_dp dsix nine T9 [l3] 1 (1 / 2) 0 tau9R (row_at (dtensor six) dsix)) as (A' & E & CS & G & _).
  - exact six_ends.
  - reflexivity.
  - exact nine_sep.
  - exact l3_vertices.
  - discriminate.
  - now right.
  - exact tau9_ok.
  - rewrite EC. exact T9_transfer.
  - intros c Hc. rewrite EC. apply T9_sums. exact Hc.
  - exact dsix_ok.
  - apply rows_exist; [exact six_dp|exact six_ends|exact dsix_ok|exact l3_vertices].
  - rewrite ER in E, CS. change (sumN (map rsize nine)) with 243 in E, CS. exists A'. split; [exact E|]. split; [exact CS|].
    destruct (G l3 (or_introl eq_refl)) as (cs & Pi & HR & _ & DA & _). split; [exists cs; split; [exact HR|exact DA]|].
    split; [reflexivity|]. split; [reflexivity|]. split.
    + destruct (DA 0) as (m & a & d & H). assert (K : forall c, In c l3 -> A' 0 (column_of nine c 1 1) = m).
      { intros c Ic. destruct HR as (HP & HW). apply (Permutation_in _ (Permutation_sym HP)) in Ic. apply in_map_iff in Ic. destruct Ic as (x & <- & Ix). apply In_nth_error in Ix. destruct Ix as (i & Ei).
        destruct (HW i x Ei) as (_ & y & s' & _ & X & _). destruct x as [c s]. cbn [fst snd] in *. destruct (H i c s (fst y) s' Ei X) as (_ & _ & _ & Q & _). exact Q. }
      transitivity m; [apply (K (0, SW)); now left|symmetry; apply (K (1, SW)); right; now left].
    + rewrite !refined_Q, (Qeq_eqR _ _ dsix10), (Qeq_eqR _ _ dsix91). unfold Q2R. cbn. split; lra.
Qed.
