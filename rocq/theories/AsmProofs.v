(** Proofs for C77: the assembled system. *)
From Coq Require Import Reals Lra Permutation ZifyBool.
From Verif Require Import Common SurfGDSpec SurfGDProofs KernProofs KernProofs2 ListLemmas AsmModel AsmSpec.
Open Scope R_scope.

(** ** Numbers of functions *)
Lemma rank_S p i : rankOf p (S i) = (rankOf p i + (if p i then 1 else 0))%nat.
Proof. unfold rankOf. rewrite seq_S, filter_app, app_length. cbn [plus filter]. destruct (p i); reflexivity. Qed.
Lemma rank_mono p i j : (i <= j)%nat -> (rankOf p i <= rankOf p j)%nat.
Proof. induction 1; [lia|]. rewrite rank_S. lia. Qed.
Lemma rank_lt p i j : (i < j)%nat -> p i = true -> (rankOf p i < rankOf p j)%nat.
Proof. intros L P. pose proof (rank_mono p (S i) j L). rewrite rank_S, P in H. lia. Qed.
Lemma rank_inj p i j : p i = true -> p j = true -> rankOf p i = rankOf p j -> i = j.
Proof. intros P Q E. destruct (Nat.lt_trichotomy i j) as [H|[H|H]]; [|exact H|]; [pose proof (rank_lt p i j H P)|pose proof (rank_lt p j i H Q)]; lia. Qed.

Definition gi (m : mapper) (i : nat) : nat := (if mfixed m i then mfree m + rankOf (mfixed m) i else rankOf (fun j => negb (mfixed m j)) i)%nat.
Lemma mindex_ok m i : (i < msize m)%nat -> mindex m i = Ok (gi m i).
Proof. intros L. unfold mindex. apply Nat.ltb_lt in L. rewrite L. reflexivity. Qed.
Lemma gi_free m i : (i < msize m)%nat -> (gi m i <? mfree m)%nat = negb (mfixed m i).
Proof.
  intros L. unfold gi. destruct (mfixed m i) eqn:E; cbn [negb]; [apply Nat.ltb_ge; lia|]. apply Nat.ltb_lt. unfold mfree. apply rank_lt; [exact L|]. now rewrite E.
Qed.
Lemma gi_inj m i j : free m i -> free m j -> gi m i = gi m j -> i = j.
Proof. intros (_ & A) (_ & B) E. unfold gi in E. rewrite A, B in E. apply rank_inj in E; [exact E| |]; cbv beta; [now rewrite A|now rewrite B]. Qed.

(** ** One element *)
(** whether the function of position [p] has the global number [g], as a free function *)
Definition hit (m : mapper) (act : list nat) (p g : nat) : R := let a := nth p act 0%nat in if (negb (mfixed m a) && (gi m a =? g))%nat then 1 else 0.
Section Push.
Context (m : mapper) (lm : nat -> nat -> R) (lr : nat -> R) (act : list nat).
Hypothesis A : forall a, In a act -> (a < msize m)%nat.

Lemma act_ok p : (p < length act)%nat -> vget act p = Ok (nth p act 0%nat) /\ mindex m (nth p act 0%nat) = Ok (gi m (nth p act 0%nat)) /\ (gi m (nth p act 0%nat) <? mfree m)%nat = negb (mfixed m (nth p act 0%nat)).
Proof.
  intros L. unfold vget. rewrite (nth_error_nth' act 0%nat L). split; [reflexivity|]. assert (X : (nth p act 0 < msize m)%nat) by (apply A, nth_In, L). split; [now apply mindex_ok|now apply gi_free].
Qed.

Lemma push_row p S : (p < length act)%nat -> mfixed m (nth p act 0%nat) = false -> exists S', foldM (fun S q =>
        do b <- vget act q; do h <- mindex m b;
        if (h <? mfree m)%nat then Ok (addMat S (gi m (nth p act 0%nat)) h (lm p q)) else Ok (addRhs S (gi m (nth p act 0%nat)) (- (lm p q * 0))))
      (seq 0 (length act)) S = Ok S' /\ (forall g, srhs S' g = srhs S g) /\
   forall g h, smat S' g h = smat S g h + hit m act p g * sumTo (length act) (fun q => hit m act q h * lm p q).
Proof.
  intros L F. set (g0 := gi m (nth p act 0%nat)).
  destruct (foldM_seq (fun q S' => (forall g, srhs S' g = srhs S g) /\ forall g h, smat S' g h = smat S g h + hit m act p g * sumTo q (fun q => hit m act q h * lm p q))
    (fun S q => do b <- vget act q; do h <- mindex m b; if (h <? mfree m)%nat then Ok (addMat S g0 h (lm p q)) else Ok (addRhs S g0 (- (lm p q * 0)))) (length act) 0 S) as (S' & E & R1 & R2).
  - split; [reflexivity|]. intros g h. cbn [sumTo]. ring.
  - intros q S1 Lq (I1 & I2). destruct (act_ok q ltac:(lia)) as (V & M & G). rewrite V. cbn [bind]. rewrite M. cbn [bind]. rewrite G. unfold hit in *. set (a := nth q act 0%nat) in *. fold g0 in I2. fold g0.
    destruct (mfixed m a) eqn:Fa; cbn [negb].
    + eexists. split; [reflexivity|]. cbn [addRhs srhs smat]. split.
      * intros g. rewrite I1. destruct (g =? g0)%nat; ring.
      * intros g h. rewrite I2. cbn [sumTo]. fold a. rewrite Fa. cbn [negb andb]. ring.
    + eexists. split; [reflexivity|]. cbn [addMat srhs smat]. split; [exact I1|]. intros g h. rewrite I2, F. cbn [sumTo negb andb]. fold a. rewrite Fa. cbn [negb andb]. fold g0.
      rewrite (Nat.eqb_sym h (gi m a)), (Nat.eqb_sym g g0). destruct (g0 =? g)%nat, (gi m a =? h)%nat; cbn [andb]; ring.
  - exists S'. split; [exact E|]. split; assumption.
Qed.

Lemma push_ok S : exists S', push m (fun _ => 0) lm lr act S = Ok S' /\
   (forall g, srhs S' g = srhs S g + sumTo (length act) (fun p => hit m act p g * lr p)) /\
   forall g h, smat S' g h = smat S g h + sumTo (length act) (fun p => hit m act p g * sumTo (length act) (fun q => hit m act q h * lm p q)).
Proof.
  unfold push. match goal with |- exists S', foldM ?F _ _ = _ /\ _ =>
    destruct (foldM_seq (fun p S' => (forall g, srhs S' g = srhs S g + sumTo p (fun p => hit m act p g * lr p)) /\
      forall g h, smat S' g h = smat S g h + sumTo p (fun p => hit m act p g * sumTo (length act) (fun q => hit m act q h * lm p q))) F (length act) 0 S) as (S' & E & R1 & R2) end.
  - split; intros; cbn [sumTo]; ring.
  - intros p S1 Lp (I1 & I2). destruct (act_ok p ltac:(lia)) as (V & M & G). cbv beta. rewrite V. cbn [bind]. rewrite M. cbn [bind]. rewrite G.
    destruct (mfixed m (nth p act 0%nat)) eqn:Fa; cbn [negb].
    + exists S1. split; [reflexivity|]. assert (H0 : forall g, hit m act p g = 0) by (intros g; unfold hit; rewrite Fa; reflexivity). split; intros; [rewrite I1|rewrite I2]; cbn [sumTo]; rewrite H0; ring.
    + destruct (push_row p (addRhs S1 (gi m (nth p act 0%nat)) (lr p)) ltac:(lia) Fa) as (S2 & E2 & A1 & A2). exists S2. split; [exact E2|]. split.
      * intros g. rewrite A1. cbn [addRhs srhs]. rewrite I1. cbn [sumTo]. replace (hit m act p g) with (if (gi m (nth p act 0%nat) =? g)%nat then 1 else 0) by (unfold hit; rewrite Fa; reflexivity). rewrite (Nat.eqb_sym g). destruct (gi m (nth p act 0%nat) =? g)%nat; ring.
      * intros g h. rewrite A2. cbn [addRhs smat]. rewrite I2. cbn [sumTo]. ring.
  - exists S'. split; [exact E|]. split; assumption.
Qed.
End Push.

(** ** All elements *)
Definition gval (m : mapper) (g : nat) (n : list nat * anode) : R := sumTo (length (fst n)) (fun p => hit m (fst n) p g * aval (snd n) p).
Definition described (m : mapper) (done : list element) (s : nat) (S : sys) : Prop :=
  (forall g, srhs S g = total (fun n => weight n * (gval m g n * target s n)) (allNodes done)) /\
  forall g h, smat S g h = total (fun n => weight n * (gval m g n * gval m h n)) (allNodes done).

Lemma local_mat e p q : localMat e p q = total (fun k => aval k p * aw k * ameas k * aval k q) (anodes e).
Proof. unfold localMat. rewrite (fold_total (fun k => aval k p * aw k * ameas k * aval k q)). ring. Qed.
Lemma local_rhs e s p : localRhs e s p = total (fun k => aw k * ameas k * (aval k p * arhs k s)) (anodes e).
Proof. unfold localRhs. rewrite (fold_total (fun k => aw k * ameas k * (aval k p * arhs k s))). ring. Qed.
Lemma total_map {A B} (f : B -> R) (g : A -> B) l : total f (map g l) = total (fun x => f (g x)) l.
Proof. induction l as [|a l IH]; [reflexivity|]. cbn [map total]. now rewrite IH. Qed.
Lemma allNodes_snoc done e : allNodes (done ++ [e]) = allNodes done ++ map (fun k => (aact e, k)) (anodes e).
Proof. unfold allNodes. rewrite flat_map_app. cbn [flat_map]. now rewrite app_nil_r. Qed.

Lemma element_mat m e g h : sumTo (length (aact e)) (fun p => hit m (aact e) p g * sumTo (length (aact e)) (fun q => hit m (aact e) q h * localMat e p q)) =
  total (fun n => weight n * (gval m g n * gval m h n)) (map (fun k => (aact e, k)) (anodes e)).
Proof.
  rewrite total_map. unfold gval, weight. cbn [fst snd]. set (L := length (aact e)). set (H := hit m (aact e)).
  transitivity (sumTo L (fun p => total (fun k => H p g * sumTo L (fun q => H q h * (aval k p * aw k * ameas k * aval k q))) (anodes e))).
  - apply sumTo_ext. intros p Lp. rewrite total_scal. f_equal. rewrite <- sumTo_total. apply sumTo_ext. intros q Lq. rewrite total_scal, local_mat. reflexivity.
  - rewrite sumTo_total. apply total_ext. intros k _. rewrite <- Rmult_assoc.
    transitivity (sumTo L (fun p => aw k * ameas k * sumTo L (fun q => H q h * aval k q) * (H p g * aval k p))).
    + apply sumTo_ext. intros p _. transitivity (H p g * ((aval k p * aw k * ameas k) * sumTo L (fun q => H q h * aval k q))); [|ring]. f_equal. rewrite <- sumTo_scal. apply sumTo_ext. intros q _. ring.
    + rewrite sumTo_scal. ring.
Qed.
Lemma element_rhs m e s g : sumTo (length (aact e)) (fun p => hit m (aact e) p g * localRhs e s p) =
  total (fun n => weight n * (gval m g n * target s n)) (map (fun k => (aact e, k)) (anodes e)).
Proof.
  rewrite total_map. unfold gval, weight, target. cbn [fst snd]. set (L := length (aact e)). set (H := hit m (aact e)).
  transitivity (sumTo L (fun p => total (fun k => H p g * (aw k * ameas k * (aval k p * arhs k s))) (anodes e))).
  - apply sumTo_ext. intros p Lp. now rewrite total_scal, local_rhs.
  - rewrite sumTo_total. apply total_ext. intros k _.
    transitivity (sumTo L (fun p => aw k * ameas k * arhs k s * (H p g * aval k p))); [apply sumTo_ext; intros; ring|]. rewrite sumTo_scal. ring.
Qed.

Lemma mapM_ok_all {A B} (f : A -> res B) (P : nat -> B -> Prop) l : (forall i x, nth_error l i = Some x -> exists y, f x = Ok y /\ P i y) -> exists l', mapM f l = Ok l' /\ length l' = length l /\ forall i y, nth_error l' i = Some y -> P i y.
Proof.
  revert P. induction l as [|x l IH]; intros P H; [exists []; split; [reflexivity|]; split; [reflexivity|]; intros [|i]; discriminate|].
  destruct (H 0%nat x eq_refl) as (y & E & Py). destruct (IH (fun i => P (S i))) as (l' & E' & L' & P'); [intros i z Z; apply (H (S i)); exact Z|].
  exists (y :: l'). cbn [mapM]. rewrite E. cbn [bind]. rewrite E'. cbn [bind length]. split; [reflexivity|]. split; [now rewrite L'|]. intros [|i] z Z; cbn in Z; [now injection Z as <-|now apply P'].
Qed.
Lemma nth_error_combine_seq {A} (l : list A) o i : nth_error (combine (seq o (length l)) l) i = option_map (fun x => ((o + i)%nat, x)) (nth_error l i).
Proof.
  revert o i. induction l as [|a l IH]; intros o [|i]; try reflexivity; cbn [length seq combine nth_error]; [cbn; now rewrite Nat.add_0_r|]. rewrite IH. destruct (nth_error l i); [cbn; do 3 f_equal; lia|reflexivity].
Qed.

Definition allDescribed (m : mapper) (nsys : nat) (f : list sys) (done : list element) : Prop := length f = nsys /\ forall s S, nth_error f s = Some S -> described m done s S.

Lemma run_one m nloc nsys f done e : (nsys <= nloc)%nat -> (forall a, In a (aact e) -> (a < msize m)%nat) -> allDescribed m nsys f done -> exists f', runElement m nloc f e = Ok f' /\ allDescribed m nsys f' (done ++ [e]).
Proof.
  intros N A (L & D). unfold runElement.
  destruct (mapM_ok_all (fun sS : nat * sys => let '(s, X) := sS in if (s <? nloc)%nat then push m (fun _ => 0) (localMat e) (localRhs e s) (aact e) X else Err) (fun s S => described m (done ++ [e]) s S) (combine (seq 0 (length f)) f)) as (f' & E & L' & P).
  - intros i (s, X) Hx. rewrite nth_error_combine_seq in Hx. destruct (nth_error f i) as [X'|] eqn:Ex; [|discriminate]. cbn in Hx. injection Hx as <- <-.
    assert (i < length f)%nat by (apply nth_error_Some; congruence). replace (i <? nloc)%nat with true by lia.
    destruct (push_ok m (localMat e) (localRhs e i) (aact e) A X') as (S' & ES & R1 & R2). exists S'. split; [exact ES|]. destruct (D i X' Ex) as (D1 & D2). split.
    + intros g. rewrite R1, D1, element_rhs, allNodes_snoc, total_app. reflexivity.
    + intros g h. rewrite R2, D2, element_mat, allNodes_snoc, total_app. reflexivity.
  - exists f'. split; [exact E|]. split; [rewrite L', combine_length, seq_length, L; lia|exact P].
Qed.

Lemma run_all m nloc nsys els f done : (nsys <= nloc)%nat -> els_ok (msize m) els -> allDescribed m nsys f done -> exists f', applyAll m nloc els f = Ok f' /\ allDescribed m nsys f' (done ++ els).
Proof.
  intros N. unfold applyAll. revert f done. induction els as [|e els IH]; intros f done O D; [exists f; rewrite app_nil_r; now split|]. cbn [foldM].
  destruct (run_one m nloc nsys f done e N) as (f1 & E1 & D1); [intros a Ha; apply (O e a); [now left|exact Ha]|exact D|]. rewrite E1. cbn [bind].
  destruct (IH f1 (done ++ [e])) as (f2 & E2 & D2); [intros e' a He; apply O; now right|exact D1|]. exists f2. split; [exact E2|]. now rewrite <- app_assoc in D2.
Qed.
Lemma zero_described m nsys : allDescribed m nsys (repeat zeroSys nsys) [].
Proof.
  split; [apply repeat_length|]. intros s S H. apply nth_error_In, repeat_spec in H. subst S. split; intros; reflexivity.
Qed.

(** ** Threads *)
Lemma interleaved_perm {A} (ls : list (list A)) l : interleaved ls l -> Permutation l (concat ls).
Proof.
  induction 1 as [ls H|pre x r post l _ IH].
  - assert (concat ls = []) as ->; [|constructor]. induction H as [|l ls -> _ IH]; [reflexivity|exact IH].
  - rewrite concat_app in *. cbn [concat] in *. rewrite IH. rewrite <- app_comm_cons. apply Permutation_middle.
Qed.
Lemma threads_perm nt els : (1 <= nt)%nat -> Permutation (concat (threads nt els)) els.
Proof.
  intros N. unfold threads. induction els as [|e els IH].
  - replace (concat (map (fun tid => every nt tid []) (seq 0 nt))) with (@nil element); [constructor|]. generalize (seq 0 nt). induction l; [reflexivity|]. exact IHl.
  - destruct nt as [|n]; [lia|]. clear N. cbn [seq map concat every app]. constructor. eapply Permutation_trans; [|exact IH]. replace (S n - 1)%nat with n by lia. rewrite (seq_S n 0), map_app, concat_app. cbn [plus map concat]. rewrite app_nil_r, <- seq_shift, map_map. apply Permutation_app_comm.
Qed.
Lemma total_perm {A} (f : A -> R) l l' : Permutation l l' -> total f l = total f l'.
Proof. induction 1; cbn [total]; lra. Qed.
Lemma allNodes_perm l l' : Permutation l l' -> Permutation (allNodes l) (allNodes l').
Proof. intros H. unfold allNodes. now apply Permutation_flat_map. Qed.

Theorem threads_pf : forall m nloc nsys nt els l, (nsys <= nloc)%nat -> (1 <= nt)%nat -> els_ok (msize m) els -> interleaved (threads nt els) l ->
  exists f f', applyAll m nloc els (repeat zeroSys nsys) = Ok f /\ applyAll m nloc l (repeat zeroSys nsys) = Ok f' /\ length f = nsys /\ length f' = nsys /\
    forall s S S', nth_error f s = Some S -> nth_error f' s = Some S' -> same_sys S S'.
Proof.
  intros m nloc nsys nt els l N T O I. apply interleaved_perm in I. rewrite (threads_perm nt els T) in I.
  destruct (run_all m nloc nsys els _ [] N O (zero_described m nsys)) as (f & E & L & D).
  assert (O' : els_ok (msize m) l) by (intros e a He; apply O; now apply (Permutation_in _ I)).
  destruct (run_all m nloc nsys l _ [] N O' (zero_described m nsys)) as (f' & E' & L' & D').
  exists f, f'. do 4 (split; [assumption|]). intros s S S' H H'. destruct (D s S H) as (A1 & A2). destruct (D' s S' H') as (B1 & B2). cbn [app] in *. pose proof (allNodes_perm _ _ I) as P.
  split; intros; [rewrite A2, B2|rewrite A1, B1]; symmetry; now apply total_perm.
Qed.

(** ** The system in terms of functions *)
Lemma spline_ext c d n : (forall a, In a (fst n) -> c a = d a) -> spline c n = spline d n.
Proof. intros H. unfold spline. apply sumTo_ext. intros p Lp. f_equal. apply H, nth_In, Lp. Qed.
Lemma gval_fn m i n : free m i -> (forall a, In a (fst n) -> (a < msize m)%nat) -> gval m (gi m i) n = fnval i n.
Proof.
  intros F A. unfold gval, fnval, spline. apply sumTo_ext. intros p Lp. rewrite Rmult_comm. f_equal. unfold hit, unit. set (a := nth p (fst n) 0%nat).
  assert (X : (a < msize m)%nat) by (apply A, nth_In, Lp). destruct (mfixed m a) eqn:Fa; cbn [negb andb].
  - destruct (Nat.eqb_spec a i) as [->|]; [|reflexivity]. destruct F. congruence.
  - destruct (Nat.eqb_spec (gi m a) (gi m i)) as [E|E]; destruct (Nat.eqb_spec a i) as [E'|E']; try reflexivity.
    + exfalso. apply E'. apply (gi_inj m); [now split|exact F|exact E].
    + exfalso. apply E. now rewrite E'.
Qed.
Theorem matrix_pf : forall m nloc nsys els, (nsys <= nloc)%nat -> els_ok (msize m) els ->
  exists f, applyAll m nloc els (repeat zeroSys nsys) = Ok f /\ length f = nsys /\ forall s S, nth_error f s = Some S -> forall i, free m i -> exists gi, mindex m i = Ok gi /\ (gi < mfree m)%nat /\
    srhs S gi = total (fun n => weight n * (fnval i n * target s n)) (allNodes els) /\
    forall j, free m j -> exists gj, mindex m j = Ok gj /\ (gj = gi -> j = i) /\ smat S gi gj = total (fun n => weight n * (fnval i n * fnval j n)) (allNodes els).
Proof.
  intros m nloc nsys els N O. destruct (run_all m nloc nsys els _ [] N O (zero_described m nsys)) as (f & E & L & D). exists f. split; [exact E|]. split; [exact L|]. intros s S H i Fi. destruct (D s S H) as (D1 & D2). cbn [app] in *.
  assert (AN : forall n, In n (allNodes els) -> forall a, In a (fst n) -> (a < msize m)%nat).
  { intros n Hn a Ha. unfold allNodes in Hn. apply in_flat_map in Hn. destruct Hn as (e & He & Hn). apply in_map_iff in Hn. destruct Hn as (k & <- & _). apply (O e a He Ha). }
  exists (gi m i). split; [apply mindex_ok, Fi|]. split; [apply Nat.ltb_lt; rewrite gi_free by apply Fi; destruct Fi as (_ & ->); reflexivity|]. split.
  - rewrite D1. apply total_ext. intros n Hn. rewrite gval_fn; [reflexivity|exact Fi|now apply AN].
  - intros j Fj. exists (gi m j). split; [apply mindex_ok, Fj|]. split; [now apply gi_inj|]. rewrite D2. apply total_ext. intros n Hn. rewrite !gval_fn; try assumption; [reflexivity| |]; now apply AN.
Qed.
