(** Proofs for C76. *)
From Coq Require Import Permutation Sorted.
From Verif Require Import Common TopoModel TopoSpec VertexModel SmoothSpec SmoothSpec2 VertexSpec ListLemmas VertexProofs VertexProofs2 VertexExamples HbDistModel HbDistSpec.
Open Scope nat_scope.

Lemma countb_perm {A} (f : A -> bool) l l' : Permutation l l' -> countb f l = countb f l'.
Proof. induction 1; rewrite ?countb_cons; try lia; reflexivity. Qed.
Lemma countb_map {A B} (f : B -> bool) (g : A -> B) l : countb f (map g l) = countb (fun x => f (g x)) l.
Proof. induction l as [|a l IH]; [reflexivity|]. cbn [map]. rewrite !countb_cons. now rewrite IH. Qed.
Lemma zinsert_perm x l : Permutation (zinsert x l) (x :: l).
Proof.
  induction l as [|a l IH]; [reflexivity|]. cbn [zinsert]. destruct (a <? x)%Z; [|reflexivity]. rewrite IH. apply perm_swap.
Qed.
Lemma zsort_perm l : Permutation (zsort l) l.
Proof. induction l as [|a l IH]; [reflexivity|]. cbn [zsort fold_right]. change (fold_right zinsert [] l) with (zsort l). rewrite zinsert_perm. now constructor. Qed.

(** ** The number of functions on a side *)
Lemma count_flags a n : fold_left (fun n (b : bool) => if b then n + 1 else n) a n = n + countb (fun b => b) a.
Proof. revert n. induction a as [|b a IH]; intros n; [cbn; lia|]. cbn [fold_left]. rewrite IH, countb_cons. destruct b; lia. Qed.
Lemma filter_ext_len {A} (f g : A -> bool) l : (forall x, In x l -> f x = g x) -> filter f l = filter g l.
Proof. induction l as [|a l IH]; intros H; [reflexivity|]. cbn. rewrite (H a) by now left. rewrite IH; [reflexivity|]. intros x Hx. apply H. now right. Qed.
Lemma actives_gen a o : map (fun j => j + o) (filter (fun j => nth j a false) (seq 0 (length a))) = filter (fun j => nth (j - o) a false) (seq o (length a)).
Proof.
  revert o. induction a as [|b a IH]; intros o; [reflexivity|]. cbn [length seq filter]. rewrite Nat.sub_diag. change (nth 0 (b :: a) false) with b.
  replace (filter (fun j => nth j (b :: a) false) (seq 1 (length a))) with (map (fun j => j + 1) (filter (fun j => nth j a false) (seq 0 (length a)))).
  2:{ rewrite IH. apply filter_ext_len. intros x Hx. apply in_seq in Hx. destruct x; [lia|]. cbn. now rewrite Nat.sub_0_r. }
  assert (Q : filter (fun j => nth (j - o) (b :: a) false) (seq (S o) (length a)) = map (fun j => j + o) (map (fun j => j + 1) (filter (fun j => nth j a false) (seq 0 (length a))))).
  { rewrite map_map. rewrite (map_ext _ (fun j => j + S o)) by (intros; lia). rewrite IH. apply filter_ext_len. intros x Hx. apply in_seq in Hx. replace (x - o) with (S (x - S o)) by lia. reflexivity. }
  destruct b; cbn [map]; rewrite Q; reflexivity.
Qed.
Lemma actives_length a : length (actives a) = countb (fun b => b) a.
Proof.
  unfold actives. induction a as [|b a IH]; [reflexivity|]. cbn [length seq filter]. change (nth 0 (b :: a) false) with b. rewrite countb_cons.
  replace (filter (fun j => nth j (b :: a) false) (seq 1 (length a))) with (map (fun j => j + 1) (filter (fun j => nth j a false) (seq 0 (length a)))).
  2:{ rewrite actives_gen. apply filter_ext_len. intros x Hx. apply in_seq in Hx. destruct x; [lia|]. cbn. now rewrite Nat.sub_0_r. }
  destruct b; cbn [length]; rewrite map_length, IH; reflexivity.
Qed.

Lemma combine_nth_seq {A B} (l : list A) (l' : list B) d d' : length l = length l' -> combine l l' = map (fun m => (nth m l d, nth m l' d')) (seq 0 (length l)).
Proof.
  revert l'. induction l as [|a l IH]; intros [|b l'] E; try discriminate; [reflexivity|]. cbn [combine length seq map nth]. f_equal. rewrite <- seq_shift, map_map. cbn [nth]. apply IH. now injection E.
Qed.
Lemma hlev_map S : hside_ok S -> hlev S = map (fun m => (nth m (hsKnots S) [], nth m (hsAct S) [])) (seq 0 (length (hsKnots S))).
Proof. intros (L & _). apply combine_nth_seq. exact L. Qed.

Lemma fold_left_map' {A B C} (f : C -> B -> C) (g : A -> B) l c : fold_left f (map g l) c = fold_left (fun c x => f c (g x)) l c.
Proof. revert c. induction l as [|a l IH]; intros c; [reflexivity|]. cbn. apply IH. Qed.
Theorem functions_pf : forall S upper, hside_ok S -> hfunctionsOnSide S = length (ends S upper).
Proof.
  intros S upper O. unfold hfunctionsOnSide. rewrite (hlev_map S O), fold_left_map'. cbn [snd]. unfold ends.
  assert (G : forall l n, fold_left (fun c x => fold_left (fun n (a : bool) => if a then n + 1 else n) (nth x (hsAct S) []) c) l n =
    n + length (flat_map (fun m => map (reach (hsDeg S) (nth m (hsKnots S) []) upper) (actives (nth m (hsAct S) []))) l)).
  { induction l as [|a l IH]; intros n; [cbn; lia|]. cbn [fold_left flat_map]. rewrite IH, count_flags, app_length, map_length, actives_length. lia. }
  rewrite G. reflexivity.
Qed.

(** ** Ends of supports *)
Lemma kreverse_nthZ k i : i < length k -> nth i (kreverse k) 0%Z = (hd 0 k + last k 0 - nth (length k - 1 - i) k 0)%Z.
Proof.
  intros L. pose proof (kreverse_nth k i L) as E. destruct (nth_error k (length k - 1 - i)) as [x|] eqn:X; [|apply nth_error_None in X; lia].
  cbn in E. erewrite nth_error_nth by exact E. now erewrite nth_error_nth by exact X.
Qed.

Lemma combine_seq_nth {A} (a : list A) o d : combine (seq o (length a)) a = map (fun j => (j + o, nth j a d)) (seq 0 (length a)).
Proof.
  revert o. induction a as [|b a IH]; intros o; [reflexivity|]. cbn [length seq combine map nth]. f_equal. rewrite <- (seq_shift (length a) 0), map_map. cbn [nth]. rewrite IH. apply map_ext. intros j. f_equal. lia.
Qed.

Lemma level_fold deg k a l acc : (forall j, In j l -> nth j a false = true -> j + deg + 1 < length k) ->
  foldM (fun acc (ia : nat * bool) => if snd ia then do x <- vget k (fst ia + deg + 1); Ok (acc ++ [x]) else Ok acc) (map (fun j => (j, nth j a false)) l) acc
  = Ok (acc ++ map (fun j => nth (j + deg + 1) k 0%Z) (filter (fun j => nth j a false) l)).
Proof.
  revert acc. induction l as [|j l IH]; intros acc H; [cbn; now rewrite app_nil_r|]. cbn [map foldM fst snd filter]. destruct (nth j a false) eqn:E.
  - unfold vget at 1. specialize (H j (or_introl eq_refl) E) as Hj. rewrite (nth_error_nth' k 0%Z Hj). cbn [bind]. rewrite IH by (intros; apply H; [now right|assumption]). cbn [map]. now rewrite <- app_assoc.
  - cbn [bind]. apply IH. intros; apply H; [now right|assumption].
Qed.

Lemma rev_seq_map n : rev (seq 0 n) = map (fun j => n - 1 - j) (seq 0 n).
Proof.
  induction n as [|n IH]; [reflexivity|]. rewrite seq_S at 1. rewrite rev_app_distr. cbn [rev app]. rewrite IH. cbn [seq map]. f_equal; [lia|]. rewrite <- seq_shift, map_map. apply map_ext_in. intros j Hj. apply in_seq in Hj. lia.
Qed.
Lemma filter_map' {A B} (f : B -> bool) (g : A -> B) l : filter f (map g l) = map g (filter (fun x => f (g x)) l).
Proof. induction l as [|a l IH]; [reflexivity|]. cbn. destruct (f (g a)); cbn; now rewrite IH. Qed.
Lemma perm_filter {A} (f : A -> bool) l l' : Permutation l l' -> Permutation (filter f l) (filter f l').
Proof. induction 1 as [|x l l' H IH|x y l|l l' l'' H1 IH1 H2 IH2]; cbn; [constructor| | |now transitivity (filter f l')]; [destruct (f x); [now constructor|exact IH]|destruct (f x), (f y); try reflexivity; apply perm_swap]. Qed.
Lemma actives_rev a : Permutation (map (fun j => length a - 1 - j) (actives (rev a))) (actives a).
Proof.
  unfold actives. rewrite rev_length. rewrite (filter_ext_len (fun j => nth j (rev a) false) (fun j => (fun i => nth i a false) (length a - 1 - j))).
  - rewrite <- (filter_map' (fun i => nth i a false) (fun j => length a - 1 - j)). rewrite <- rev_seq_map. apply perm_filter. symmetry. apply Permutation_rev.
  - intros j Hj. apply in_seq in Hj. rewrite rev_nth by lia. f_equal. lia.
Qed.
Lemma actives_in a j : In j (actives a) -> j < length a.
Proof. unfold actives. intros H. apply filter_In in H. destruct H as (H & _). apply in_seq in H. lia. Qed.

Lemma level_ok deg orient k a acc : length k = length a + deg + 1 ->
  exists l, endpointsOfLevel deg orient k a acc = Ok (acc ++ l) /\ Permutation l (map (reach deg k orient) (actives a)).
Proof.
  intros L. unfold endpointsOfLevel. destruct orient.
  - rewrite (combine_seq_nth _ 0 false). rewrite (map_ext _ (fun j => (j, nth j (rev a) false))) by (intros; now rewrite Nat.add_0_r).
    rewrite level_fold.
    2:{ intros j Hj _. apply in_seq in Hj. rewrite rev_length in Hj. rewrite kreverse_length. lia. }
    eexists. split; [reflexivity|]. rewrite <- (actives_rev a), map_map. match goal with |- Permutation ?u ?v => replace u with v; [reflexivity|] end. apply map_ext_in. intros j Hj. apply actives_in in Hj. rewrite rev_length in Hj. unfold reach. rewrite kreverse_nthZ by lia. do 2 f_equal. lia.
  - rewrite (combine_seq_nth _ 0 false). rewrite (map_ext _ (fun j => (j, nth j a false))) by (intros; now rewrite Nat.add_0_r).
    rewrite level_fold.
    2:{ intros j Hj _. apply in_seq in Hj. lia. }
    eexists. split; [reflexivity|]. reflexivity.
Qed.

Lemma perm_refl {A} (l l' : list A) : l = l' -> Permutation l l'.
Proof. now intros ->. Qed.

Lemma endpoints_ok S orient : hside_ok S -> exists l, endpoints S orient = Ok (zsort l) /\ Permutation l (ends S orient).
Proof.
  intros O. unfold endpoints. rewrite (hlev_map S O). unfold ends.
  assert (G : forall ms acc, (forall m, In m ms -> m < length (hsKnots S)) ->
    exists l, foldM (fun acc (e : list Z * list bool) => endpointsOfLevel (hsDeg S) orient (fst e) (snd e) acc) (map (fun m => (nth m (hsKnots S) [], nth m (hsAct S) [])) ms) acc = Ok (acc ++ l) /\
      Permutation l (flat_map (fun m => map (reach (hsDeg S) (nth m (hsKnots S) []) orient) (actives (nth m (hsAct S) []))) ms)).
  { induction ms as [|m ms IH]; intros acc H; [exists []; split; [cbn; now rewrite app_nil_r|reflexivity]|]. cbn [map foldM fst snd flat_map].
    assert (Lm : m < length (hsKnots S)) by (apply H; now left). destruct O as (LL & O).
    destruct (level_ok (hsDeg S) orient (nth m (hsKnots S) []) (nth m (hsAct S) []) acc) as (l & E & P).
    { apply (O m); apply nth_error_nth'; lia. }
    rewrite E. cbn [bind]. destruct (IH (acc ++ l)) as (l' & E' & P'); [intros; apply H; now right|].
    rewrite E'. exists (l ++ l'). split; [now rewrite app_assoc|]. now apply Permutation_app. }
  destruct (G (seq 0 (length (hsKnots S))) []) as (l & E & P); [intros m Hm; apply in_seq in Hm; lia|]. rewrite E. cbn [bind app]. now exists l.
Qed.

(** ** Order statistics *)
Lemma countb_le_length {A} (f : A -> bool) l : countb f l <= length l.
Proof. induction l as [|a l IH]; [reflexivity|]. rewrite countb_cons. cbn. destruct (f a); lia. Qed.
Lemma countb_all {A} (f : A -> bool) l : (forall x, In x l -> f x = true) -> countb f l = length l.
Proof. induction l as [|a l IH]; intros H; [reflexivity|]. rewrite countb_cons, (H a) by now left. cbn. rewrite IH; [reflexivity|]. intros; apply H; now right. Qed.
Lemma countb_none {A} (f : A -> bool) l : (forall x, In x l -> f x = false) -> countb f l = 0.
Proof. induction l as [|a l IH]; intros H; [reflexivity|]. rewrite countb_cons, (H a) by now left. cbn. apply IH. intros; apply H; now right. Qed.

Lemma sorted_rank l i p : StronglySorted Z.le l -> nth_error l i = Some p -> countb (fun x => x <? p)%Z l <= i /\ i < countb (fun x => x <=? p)%Z l.
Proof.
  intros H. revert i. induction H as [|a l S IH F]; intros [|i] E; cbn in E; try discriminate; rewrite !countb_cons; rewrite Forall_forall in F.
  - injection E as ->. rewrite Z.ltb_irrefl, Z.leb_refl. rewrite (countb_none (fun x => x <? p)%Z); [lia|]. intros x Hx. apply Z.ltb_ge. now apply F.
  - destruct (IH i E) as (A & B). assert (a <= p)%Z by (apply F; eapply nth_error_In; exact E). replace (a <=? p)%Z with true by (symmetry; apply Z.leb_le; lia). destruct (a <? p)%Z; lia.
Qed.
Lemma count_lt_le l p q : (p < q)%Z -> countb (fun x => x <=? p)%Z l <= countb (fun x => x <? q)%Z l.
Proof. intros H. induction l as [|a l IH]; [reflexivity|]. rewrite !countb_cons. destruct (Z.leb_spec a p), (Z.ltb_spec a q); lia. Qed.
Lemma rank_unique l n p q : ranked l n p -> ranked l n q -> p = q.
Proof.
  intros (_ & A & B) (_ & C & D). destruct (Z.lt_trichotomy p q) as [H|[H|H]]; [|exact H|]; pose proof (count_lt_le l _ _ H); lia.
Qed.

Theorem parameter_pf : forall S s c n, hside_ok S -> 1 <= n ->
  (n <= hfunctionsOnSide S -> exists p, hfindParameter S s c n = Ok p) /\
  (hfunctionsOnSide S < n -> hfindParameter S s c n = Err) /\
  (forall p, hfindParameter S s c n = Ok p <-> ranked (ends S (pos_on s c)) n p).
Proof.
  intros S s c n O N. destruct n as [|n]; [lia|]. rewrite (functions_pf S (pos_on s c) O). unfold hfindParameter. destruct (endpoints_ok S (pos_on s c) O) as (l & E & P). rewrite E. cbn [bind]. cbn [Nat.sub]. rewrite Nat.sub_0_r.
  assert (Q : Permutation (zsort l) (ends S (pos_on s c))) by (rewrite zsort_perm; exact P). pose proof (Permutation_length Q) as QL. unfold vget.
  assert (R : forall p, nth_error (zsort l) n = Some p -> ranked (ends S (pos_on s c)) (Datatypes.S n) p).
  { intros p X. split; [eapply Permutation_in; [exact Q|]; eapply nth_error_In; exact X|]. destruct (sorted_rank _ _ _ (zsort_sorted l) X) as (A & B). rewrite (countb_perm _ _ _ Q) in A. rewrite (countb_perm _ _ _ Q) in B. lia. }
  split; [|split].
  - intros L. rewrite (nth_error_nth' (zsort l) 0%Z) by lia. eexists; reflexivity.
  - intros L. rewrite (proj2 (nth_error_None (zsort l) n)) by lia. reflexivity.
  - intros p. split.
    + intros H. apply R. destruct (nth_error (zsort l) n); [|discriminate]. now injection H as ->.
    + intros H. assert (n < length (zsort l)). { rewrite QL. destruct H as (_ & _ & H). pose proof (countb_le_length (fun x => x <=? p)%Z (ends S (pos_on s c))). lia. }
      destruct (nth_error (zsort l) n) as [q|] eqn:X; [|apply nth_error_None in X; lia]. f_equal. apply (rank_unique _ _ _ _ (R q eq_refl) H).
Qed.

(** ** The number of functions on a level *)
Lemma skipn_nth {A} (l : list A) n d : skipn n l = map (fun j => nth (j + n) l d) (seq 0 (length l - n)).
Proof.
  revert l. induction n as [|n IH]; intros l.
  - cbn [skipn]. rewrite Nat.sub_0_r. rewrite (map_ext _ (fun j => nth j l d)) by (intros; now rewrite Nat.add_0_r). induction l as [|a l IHl]; [reflexivity|]. cbn [length seq map nth]. f_equal. rewrite <- seq_shift, map_map. cbn [nth]. exact IHl.
  - destruct l as [|a l]; [reflexivity|]. cbn [skipn length Nat.sub]. rewrite IH. apply map_ext. intros j. now rewrite Nat.add_succ_r.
Qed.

Lemma skip_reach (k : list Z) (deg : nat) (upper : bool) : deg + 1 <= length k -> Permutation (A:=Z) (skipn (deg + 1) (if upper then kreverse k else k)) (map (reach deg k upper) (seq 0 (length k - deg - 1))).
Proof.
  intros L. rewrite (skipn_nth _ _ 0%Z). destruct upper.
  - rewrite kreverse_length. replace (length k - (deg + 1)) with (length k - deg - 1) by lia. transitivity (map (reach deg k true) (rev (seq 0 (length k - deg - 1)))); [|apply Permutation_map; symmetry; apply Permutation_rev].
    rewrite rev_seq_map, map_map. apply perm_refl, map_ext_in. intros j Hj. apply in_seq in Hj. unfold reach. rewrite kreverse_nthZ by lia. do 2 f_equal. lia.
  - replace (length k - (deg + 1)) with (length k - deg - 1) by lia. apply perm_refl, map_ext. intros j. unfold reach. f_equal. lia.
Qed.

Theorem distance_pf : forall S m s c p, hside_ok S -> m < length (hsKnots S) -> p <> 0%Z ->
  hdistance S m s c p = Ok (before S m (negb (pos_on s c)) p + 1).
Proof.
  intros S m s c p O Lm N. unfold hdistance. apply Z.eqb_neq in N. rewrite N. unfold vget. rewrite (nth_error_nth' _ [] Lm). cbn [bind]. do 2 f_equal.
  rewrite first_count by apply zsort_sorted. rewrite zsort_count. unfold before. set (k := nth m (hsKnots S) []).
  assert (L : hsDeg S + 1 <= length k). { destruct O as (LL & O). rewrite (O m k (nth m (hsAct S) [])); [lia| |]; apply nth_error_nth'; lia. }
  rewrite <- (countb_map (fun x => x <? p)%Z (reach (hsDeg S) k (negb (pos_on s c)))). apply countb_perm. rewrite <- skip_reach by exact L. now destruct (pos_on s c).
Qed.

Lemma symmetric_reach deg k b : symmetric k -> deg + 1 <= length k -> Permutation (map (reach deg k b) (seq 0 (length k - deg - 1))) (map (reach deg k (negb b)) (seq 0 (length k - deg - 1))).
Proof. intros H L. rewrite <- !skip_reach by exact L. rewrite (symmetric_reverse k H). now destruct b. Qed.

Theorem symmetric_pf : forall S m s c p, hside_ok S -> m < length (hsKnots S) -> symmetric (nth m (hsKnots S) []) -> p <> 0%Z ->
  hdistance S m s c p = Ok (before S m (pos_on s c) p + 1).
Proof.
  intros S m s c p O Lm SY N. rewrite (distance_pf S m s c p O Lm N). do 2 f_equal. unfold before. set (k := nth m (hsKnots S) []).
  assert (L : hsDeg S + 1 <= length k). { destruct O as (LL & O). rewrite (O m k (nth m (hsAct S) [])); [lia| |]; apply nth_error_nth'; lia. }
  rewrite <- (countb_map (fun x => x <? p)%Z (reach (hsDeg S) k (negb (pos_on s c)))), <- (countb_map (fun x => x <? p)%Z (reach (hsDeg S) k (pos_on s c))). symmetry. apply countb_perm, symmetric_reach; assumption.
Qed.

(** one level *)
Theorem back_pf : forall deg k n s c p, symmetric k -> 1 <= n -> deg + 1 <= length k ->
  let S := mkHS deg [k] [repeat true (length k - deg - 1)] in
  hfindParameter S s c n = Ok p -> p <> 0%Z ->
  countb (fun x => x =? p)%Z (ends S (pos_on s c)) = 1 -> hdistance S 0 s c p = Ok n.
Proof.
  intros deg k n s c p SY N L S F NZ U.
  assert (O : hside_ok S). { split; [reflexivity|]. intros [|m] k' a X Y; cbn in X, Y; [|destruct m; discriminate]. injection X as <-. injection Y as <-. cbn. rewrite repeat_length. lia. }
  rewrite (symmetric_pf S 0 s c p O); [|cbn; lia|exact SY|exact NZ]. f_equal. apply (proj2 (proj2 (parameter_pf S s c n O N))) in F. destruct F as (_ & A & B).
  assert (Q : countb (fun x => x <=? p)%Z (ends S (pos_on s c)) = countb (fun x => x <? p)%Z (ends S (pos_on s c)) + countb (fun x => x =? p)%Z (ends S (pos_on s c))).
  { generalize (ends S (pos_on s c)) as l. induction l as [|x l IH]; [reflexivity|]. rewrite !countb_cons. rewrite IH. destruct (Z.leb_spec x p), (Z.ltb_spec x p), (Z.eqb_spec x p); lia. }
  assert (E : before S 0 (pos_on s c) p = countb (fun x => x <? p)%Z (ends S (pos_on s c))).
  { unfold before, ends. cbn [S hsKnots hsAct hsDeg nth length seq flat_map]. rewrite app_nil_r, <- (countb_map (fun x => x <? p)%Z (reach deg k (pos_on s c))). do 2 f_equal. unfold actives. rewrite repeat_length.
    rewrite (filter_ext_len _ (fun _ => true)); [clear; generalize (seq 0 (length k - deg - 1)) as l; induction l as [|x l IH]; [reflexivity|]; cbn; now rewrite <- IH|].
    intros x Hx. apply in_seq in Hx. clear - Hx. assert (H : x < length k - deg - 1) by lia. clear Hx. revert H. generalize (length k - deg - 1) as q. induction x as [|x IH]; intros [|q] H; try lia; cbn; [reflexivity|]. apply IH. lia. }
  lia.
Qed.

(** ** Two sides *)
Theorem sides_pf : forall flip S S' m s c s' c' p, sides_match flip S S' -> pos_on s' c' = xorb flip (pos_on s c) ->
  hdistance S' m s' c' p = hdistance S m s c p.
Proof.
  intros flip S S' m s c s' c' p (D & K) P. unfold hdistance. destruct (p =? 0)%Z; [reflexivity|]. rewrite D, K, P. unfold vget. rewrite nth_error_map. destruct (nth_error (hsKnots S) m) as [k|]; [|reflexivity]. cbn [option_map bind].
  destruct flip, (pos_on s c); cbn [xorb]; rewrite ?kreverse_invol; reflexivity.
Qed.
