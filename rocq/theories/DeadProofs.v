(** Proofs for C90. *)
From Coq Require Import QArith ZifyBool.
From Verif Require Import Common TopoModel DeadModel DeadSpec.
Open Scope nat_scope.

Lemma at_left (A : Type) (l : list A) i x : nth_error l i = Some x -> atEnd false l i = Ok x.
Proof. intros E. unfold atEnd, vget. rewrite E. destruct (Nat.leb_spec (length l) i) as [H|H]; [apply nth_error_None in H; congruence|reflexivity]. Qed.
Lemma nth_rev (A : Type) (l : list A) i : i < length l -> nth_error (rev l) i = nth_error l (length l - i - 1).
Proof.
  intros H. destruct (nth_error l (length l - i - 1)) as [x|] eqn:E; [|apply nth_error_None in E; lia].
  rewrite (nth_error_nth' _ x) by (now rewrite rev_length). rewrite rev_nth by exact H. replace (length l - S i) with (length l - i - 1) by lia. f_equal. now apply nth_error_nth.
Qed.
Lemma at_mirror l i : atEnd false (mirror l) i = match atEnd true l i with Ok x => Ok (Qopp x) | Err => Err end.
Proof.
  unfold atEnd, mirror. rewrite map_length, rev_length. destruct (Nat.leb_spec (length l) i) as [H|H]; [reflexivity|]. unfold vget. rewrite nth_error_map, nth_rev by exact H. destruct (nth_error l (length l - i - 1)); reflexivity.
Qed.
Lemma opp_le x y : Qle_bool (- x) (- y) = Qle_bool y x.
Proof.
  destruct (Qle_bool y x) eqn:E.
  - apply Qle_bool_iff in E. apply Qle_bool_iff. now apply Qopp_le_compat.
  - destruct (Qle_bool (- x) (- y)) eqn:F; [|reflexivity]. apply Qle_bool_iff in F. apply Qopp_le_compat in F. rewrite !Qopp_involutive in F. apply Qle_bool_iff in F. congruence.
Qed.
Lemma mirror_loop kv nk : forall n i index, specialLoop true kv nk n i index = specialLoop false (mirror kv) (mirror nk) n i index.
Proof.
  induction n as [|n IH]; intros i index; [reflexivity|]. cbn [specialLoop]. rewrite !at_mirror. unfold mirror at 1. rewrite map_length, rev_length. destruct (length nk <=? index); [reflexivity|].
  destruct (atEnd true nk index) as [x|]; [|reflexivity]. destruct (atEnd true kv i) as [k|]; [|reflexivity]. cbn [bind]. rewrite opp_le. apply IH.
Qed.
Theorem mirror_pf : forall degree kv nk distance, getNrOfSpecialKnots degree kv nk true distance = getNrOfSpecialKnots degree (mirror kv) (mirror nk) false distance.
Proof. intros. apply mirror_loop. Qed.

Lemma up_to_nth nk x : ascending nk -> forall j y, nth_error nk j = Some y -> (Qle_bool y x = true <-> j < up_to nk x).
Proof.
  unfold up_to. induction nk as [|z nk IH]; intros A j y E; [destruct j; discriminate|].
  assert (A' : ascending nk) by (intros i k u v L U V; apply (A (S i) (S k) u v); [lia|exact U|exact V]).
  cbn [filter]. destruct (Qle_bool z x) eqn:Z.
  - cbn [length]. destruct j as [|j]; [injection E as <-; split; [lia|intros _; exact Z]|]. cbn in E. rewrite (IH A' j y E). lia.
  - assert (N : filter (fun y => Qle_bool y x) nk = []).
    { destruct (filter (fun y => Qle_bool y x) nk) as [|w r] eqn:F; [reflexivity|]. assert (I : In w (filter (fun y => Qle_bool y x) nk)) by (rewrite F; now left). apply filter_In in I. destruct I as [I W]. apply In_nth_error in I. destruct I as [k K].
      pose proof (A 0 (S k) z w ltac:(lia) eq_refl K) as L. apply Qle_bool_iff in W. pose proof (Qle_trans _ _ _ L W) as G. apply Qle_bool_iff in G. congruence. }
    rewrite N. cbn [length]. split; [|lia]. intros Y. exfalso. pose proof (A 0 j z y ltac:(lia) eq_refl E) as L. apply Qle_bool_iff in Y. pose proof (Qle_trans _ _ _ L Y) as G. apply Qle_bool_iff in G. congruence.
Qed.
Lemma up_to_len nk x : up_to nk x <= length nk.
Proof. unfold up_to. induction nk as [|y nk IH]; cbn; [lia|]. destruct (Qle_bool y x); cbn; lia. Qed.
Lemma up_to_mono nk x y : (x <= y)%Q -> up_to nk x <= up_to nk y.
Proof.
  intros L. unfold up_to. induction nk as [|z nk IH]; cbn; [lia|]. destruct (Qle_bool z x) eqn:E.
  - apply Qle_bool_iff in E. rewrite (proj2 (Qle_bool_iff z y) (Qle_trans _ _ _ E L)). cbn. lia.
  - destruct (Qle_bool z y); cbn; lia.
Qed.

(** never more than the new knots up to the last knot looked at, and no errors *)
Lemma bound_loop kv nk last : ascending kv -> ascending nk -> forall n i index, i + n = S last -> last < length kv -> index <= i ->
  (forall x, nth_error kv last = Some x -> index <= up_to nk x) ->
  exists c, specialLoop false kv nk n i index = Ok c /\ index <= c <= S last /\ forall x, nth_error kv last = Some x -> c <= up_to nk x.
Proof.
  intros K A. induction n as [|n IH]; intros i index N L I U; [exists index; split; [reflexivity|split; [lia|exact U]]|]. cbn [specialLoop].
  destruct (Nat.leb_spec (length nk) index) as [H|H]; [exists index; split; [reflexivity|split; [lia|exact U]]|].
  destruct (nth_error nk index) as [x|] eqn:X; [|apply nth_error_None in X; lia]. destruct (nth_error kv i) as [k|] eqn:KI; [|apply nth_error_None in KI; lia].
  rewrite (at_left _ _ _ _ X), (at_left _ _ _ _ KI). cbn [bind]. destruct (Qle_bool x k) eqn:B.
  - destruct (IH (S i) (S index)) as (c & E & C & D); [lia|exact L|lia| |exists c; split; [exact E|split; [lia|exact D]]].
    intros z Z. apply (up_to_nth nk k A index x X) in B. pose proof (up_to_mono nk k z (K i last k z ltac:(lia) KI Z)). lia.
  - destruct (IH (S i) index) as (c & E & C & D); [lia|exact L|lia|exact U|]. exists c. split; [exact E|split; [lia|exact D]].
Qed.
Theorem bound_pf : forall degree kv nk distance last x, ascending kv -> ascending nk -> (distance + Z.of_nat degree = Z.of_nat last)%Z -> nth_error kv last = Some x ->
  exists c, getNrOfSpecialKnots degree kv nk false distance = Ok c /\ c <= S last /\ c <= up_to nk x.
Proof.
  intros degree kv nk distance last x K A E X. unfold getNrOfSpecialKnots. replace (Z.to_nat (distance + Z.of_nat degree + 1)) with (S last) by lia.
  destruct (bound_loop kv nk last K A (S last) 0 0) as (c & F & C & D); [lia|apply nth_error_Some; congruence|lia|intros; lia|]. exists c. split; [exact F|]. split; [lia|now apply D].
Qed.
(** exact if the new knots come one by one *)
Lemma exact_loop kv nk last : ascending kv -> ascending nk -> one_by_one kv nk -> forall n i index, i + n = S last -> last < length kv ->
  (forall x, nth_error kv i = Some x -> index <= up_to nk x <= S index) -> (i = S last -> forall x, nth_error kv last = Some x -> index = up_to nk x) ->
  exists c, specialLoop false kv nk n i index = Ok c /\ forall x, nth_error kv last = Some x -> c = up_to nk x.
Proof.
  intros K A (_ & O). induction n as [|n IH]; intros i index N L S1 S2; [exists index; split; [reflexivity|apply S2; lia]|]. cbn [specialLoop].
  destruct (nth_error kv i) as [k|] eqn:KI; [|apply nth_error_None in KI; lia]. specialize (S1 k eq_refl).
  destruct (Nat.leb_spec (length nk) index) as [H|H].
  { exists index. split; [reflexivity|]. intros z Z. pose proof (up_to_len nk z). pose proof (up_to_mono nk k z (K i last k z ltac:(lia) KI Z)). lia. }
  destruct (nth_error nk index) as [x|] eqn:X; [|apply nth_error_None in X; lia].
  rewrite (at_left _ _ _ _ X), (at_left _ _ _ _ KI). cbn [bind]. pose proof (up_to_nth nk k A index x X) as Q.
  assert (V : (if Qle_bool x k then S index else index) = up_to nk k) by (destruct (Qle_bool x k); [assert (index < up_to nk k) by (now apply Q); lia|destruct (Nat.ltb_spec index (up_to nk k)) as [G|G]; [apply Q in G; discriminate|lia]]).
  rewrite V. apply IH; [lia|exact L| |].
  - intros z Z. pose proof (O i k z KI Z). pose proof (up_to_mono nk k z (K i (S i) k z ltac:(lia) KI Z)). lia.
  - intros F z Z. assert (i = last) by lia. subst i. rewrite KI in Z. now injection Z as <-.
Qed.
Theorem exact_pf : forall degree kv nk distance last x, ascending kv -> ascending nk -> one_by_one kv nk -> (distance + Z.of_nat degree = Z.of_nat last)%Z -> nth_error kv last = Some x ->
  getNrOfSpecialKnots degree kv nk false distance = Ok (up_to nk x).
Proof.
  intros degree kv nk distance last x K A O E X. unfold getNrOfSpecialKnots. replace (Z.to_nat (distance + Z.of_nat degree + 1)) with (S last) by lia.
  destruct (exact_loop kv nk last K A O (S last) 0 0) as (c & F & D); [lia|apply nth_error_Some; congruence| |discriminate|].
  - intros z Z. pose proof (proj1 O z Z). lia.
  - rewrite F. f_equal. now apply D.
Qed.
Theorem flip_pf : forall p s flag, let '((p', s'), flag') := flipOverCorner (p, s) flag in p' = p /\ s' <> s /\ end_of s' flag' = end_of s flag /\ flipOverCorner (p', s') flag' = ((p, s), flag).
Proof. intros p s flag. destruct s, flag; cbn; repeat split; discriminate. Qed.

(** two new knots in the first element *)

Lemma two_pf : ascending kv0 /\ ascending [1#4; 1#2]%Q /\ getNrOfSpecialKnots 2 kv0 [1#4; 1#2]%Q false 1 = Ok 1 /\ nth_error kv0 3 = Some 1%Q /\ up_to [1#4; 1#2]%Q 1 = 2.
Proof.
  assert (T : forall l, forallb (fun i => forallb (fun j => negb (i <=? j) || match nth_error l i, nth_error l j with Some x, Some y => Qle_bool x y | _, _ => true end) (seq 0 (length l))) (seq 0 (length l)) = true -> ascending l).
  { intros l H i j x y L X Y. rewrite forallb_forall in H. assert (I : i < length l) by (apply nth_error_Some; congruence). assert (J : j < length l) by (apply nth_error_Some; congruence). specialize (H i ltac:(apply in_seq; lia)). rewrite forallb_forall in H. specialize (H j ltac:(apply in_seq; lia)).
    rewrite X, Y, (proj2 (Nat.leb_le i j) L) in H. now apply Qle_bool_iff. }
  split; [apply T; reflexivity|]. split; [apply T; reflexivity|]. repeat split.
Qed.
(** uniform refinement *)
Lemma half_ok : one_by_one kv0 [1#2; 3#2]%Q /\ getNrOfSpecialKnots 2 kv0 [1#2; 3#2]%Q false 1 = Ok 1 /\ getNrOfSpecialKnots 2 kv0 [1#2; 3#2]%Q false 2 = Ok 2 /\ getNrOfSpecialKnots 2 kv0 [1#2; 3#2]%Q true 1 = Ok 1 /\ getNrOfSpecialKnots 2 kv0 [1#2; 3]%Q false 5 = Err.
Proof.
  split; [|repeat split]. split; [intros x E; injection E as <-; cbn; lia|]. intros i x y E F. do 7 (destruct i as [|i]; [cbn in E, F; try discriminate; injection E as <-; injection F as <-; cbn; lia|]). destruct i; discriminate.
Qed.
