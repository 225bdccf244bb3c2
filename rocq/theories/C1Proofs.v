(** Proofs about the assembly of the C1 bases: matrices written block by block. *)
From Coq Require Import ZifyBool.
From Verif Require Import Common TopoModel BaseModel ListLemmas ReparamModel C1Model C1Spec.

Local Notation ctriple := (nat * nat * nat)%type.

Lemma indexed_from {A} (a : A) l k :
  combine (seq k (length (a :: l))) (a :: l) = (k, a) :: combine (seq (S k) (length l)) l.
Proof. reflexivity. Qed.

Lemma combine_seq_nth {A} (l : list A) k i x :
  In (i, x) (combine (seq k (length l)) l) <-> k <= i /\ nth_error l (i - k) = Some x.
Proof.
  revert k. induction l as [|a l IH]; intros k.
  - simpl. split; [tauto|]. intros [_ E]. destruct (i - k); discriminate.
  - rewrite indexed_from. split.
    + intros [E|E].
      * injection E as <- <-. split; [lia|]. now replace (k - k) with 0 by lia.
      * apply IH in E. destruct E as [L E]. split; [lia|]. now replace (i - k) with (S (i - S k)) by lia.
    + intros [L E]. destruct (Nat.eq_dec i k) as [->|N].
      * replace (k - k) with 0 in E by lia. simpl in E. left. congruence.
      * right. apply IH. split; [lia|]. replace (i - k) with (S (i - S k)) in E by lia. exact E.
Qed.

Lemma in_indexed {A} (l : list A) i x : In (i, x) (indexed l) <-> nth_error l i = Some x.
Proof. unfold indexed. rewrite combine_seq_nth. rewrite Nat.sub_0_r. intuition lia. Qed.

(* ------------------------------------------------------------------ *)
(** * Sums of entries *)

Lemma entry_sum_app W W' r c : (entry_sum (W ++ W') r c == entry_sum W r c + entry_sum W' r c)%Q.
Proof. unfold entry_sum. now rewrite filter_app, map_app, sumQ_app. Qed.

Lemma entry_sum_nil r c : entry_sum [] r c = 0%Q.
Proof. reflexivity. Qed.

Lemma entry_sum_zero W r c : (forall e, In e W -> fst (fst e) = r -> snd (fst e) = c -> False) -> entry_sum W r c = 0%Q.
Proof.
  intros H. unfold entry_sum. rewrite filter_none; [reflexivity|].
  intros e He. destruct (fst (fst e) =? r) eqn:E1; [|reflexivity]. destruct (snd (fst e) =? c) eqn:E2; [|reflexivity].
  exfalso. apply (H e He); lia.
Qed.

Lemma entry_sum_mget W r c : NoDup (map fst W) -> (mget W r c == entry_sum W r c)%Q.
Proof.
  induction W as [|[[r' c'] v] W IH]; intros H; [reflexivity|].
  simpl in H. inversion_clear H as [|? ? N1 N2]. unfold entry_sum. cbn [filter fst snd mget].
  destruct ((r' =? r) && (c' =? c)) eqn:E.
  - assert (r' = r) by lia. assert (c' = c) by lia. subst. cbn [map snd sumQ].
    fold (entry_sum W r c). rewrite entry_sum_zero; [ring|].
    intros [[r1 c1] v1] He E1 E2. cbn in E1, E2. subst. apply N1. apply in_map_iff. exists (r, c, v1). auto.
  - now apply IH.
Qed.

(** [w] holds rows row .. row+n-1 whose values are given by [g], and nothing else. *)
Definition reprs (cols : list ctriple) (row n : nat) (g : nat -> ctriple -> Q) (w : list entry) : Prop :=
  (forall r c, (entry_sum w r c ==
     if (row <=? r) && (r <? row + n) then match nth_error cols c with Some x => g (r - row)%nat x | None => 0 end else 0)%Q) /\
  (forall e, In e w -> row <= fst (fst e) < row + n /\ snd (fst e) < length cols).

Lemma reprs_nil cols row : reprs cols row 0 (fun _ _ => 0%Q) [].
Proof.
  split; [|intros e []]. intros r c. destruct ((row <=? r) && (r <? row + 0)) eqn:E; [lia|]. reflexivity.
Qed.

Lemma reprs_app cols row n m g h w w' :
  reprs cols row n g w -> reprs cols (row + n) m h w' ->
  reprs cols row (n + m) (fun i => if i <? n then g i else h (i - n)) (w ++ w').
Proof.
  intros [V1 R1] [V2 R2]. split.
  - intros r c. rewrite entry_sum_app, V1, V2.
    destruct (row <=? r) eqn:E1; destruct (r <? row + n) eqn:E2; destruct (row + n <=? r) eqn:E3;
      destruct (r <? row + n + m) eqn:E4; destruct (r <? row + (n + m)) eqn:E5; try lia; cbn [andb];
      destruct (r - row <? n) eqn:E6; try lia; destruct (nth_error cols c); try ring.
    replace (r - (row + n)) with (r - row - n) by lia. ring.
  - intros e He. apply in_app_or in He. destruct He as [He|He]; [apply R1 in He|apply R2 in He]; lia.
Qed.

Lemma reprs_add cols row n g h w w' :
  reprs cols row n g w -> reprs cols row n h w' -> reprs cols row n (fun i x => (g i x + h i x)%Q) (w ++ w').
Proof.
  intros [V1 R1] [V2 R2]. split.
  - intros r c. rewrite entry_sum_app, V1, V2. destruct ((row <=? r) && (r <? row + n)); [|ring].
    destruct (nth_error cols c); ring.
  - intros e He. apply in_app_or in He. destruct He as [He|He]; [apply R1 in He|apply R2 in He]; lia.
Qed.

Lemma reprs_ext cols row n g h w :
  (forall i x, i < n -> In x cols -> (g i x == h i x)%Q) -> reprs cols row n g w -> reprs cols row n h w.
Proof.
  intros E [V R]. split; [|exact R]. intros r c. rewrite V.
  destruct ((row <=? r) && (r <? row + n)) eqn:E1; [|reflexivity].
  destruct (nth_error cols c) eqn:E2; [|reflexivity]. apply E; [lia|]. eapply nth_error_In; eauto.
Qed.

Lemma nodup_rows cols row n m g h w w' :
  reprs cols row n g w -> reprs cols (row + n) m h w' -> NoDup (map fst w) -> NoDup (map fst w') -> NoDup (map fst (w ++ w')).
Proof.
  intros [_ R1] [_ R2] N1 N2. rewrite map_app. apply NoDup_app_iff. repeat split; auto.
  intros x I1 I2. apply in_map_iff in I1, I2. destruct I1 as (e1 & <- & H1), I2 as (e2 & E & H2).
  apply R1 in H1. apply R2 in H2. rewrite E in H2. lia.
Qed.

(* ------------------------------------------------------------------ *)
(** * One block *)

Definition bw_row (thr : Q) (row col : nat) (cs : list Q) (n : nat) : list entry :=
  concat (map (fun jj => if above thr (nth jj cs 0%Q) then [(row, col + jj, nth jj cs 0%Q)] else []) (seq 0 n)).

Lemma bw_row_in thr row col cs n e : In e (bw_row thr row col cs n) ->
  fst (fst e) = row /\ col <= snd (fst e) < col + n.
Proof.
  unfold bw_row. intros H. apply in_concat in H. destruct H as (l & Hl & He). apply in_map_iff in Hl.
  destruct Hl as (j & <- & Hj). apply in_seq in Hj. destruct (above _ _); [|destruct He].
  destruct He as [<-|[]]. cbn. lia.
Qed.

Lemma cut_above thr x : (cut thr x == if above thr x then x else 0)%Q.
Proof. unfold cut, above. destruct (Qle_bool (x * x) thr); reflexivity. Qed.

Lemma bw_row_sum thr row col cs n r c :
  (entry_sum (bw_row thr row col cs n) r c ==
   if (row =? r)%nat && ((col <=? c)%nat && (c <? col + n)%nat) then cut thr (nth (c - col) cs 0) else 0)%Q.
Proof.
  induction n as [|n IH].
  - destruct (_ && _) eqn:E; [lia|]. reflexivity.
  - unfold bw_row in *. rewrite seq_S, map_app, concat_app. cbn [map concat]. rewrite app_nil_r, entry_sum_app, IH.
    cbn [plus].
    destruct ((row =? r) && ((col <=? c) && (c <? col + n))) eqn:E1.
    + destruct ((row =? r) && ((col <=? c) && (c <? col + S n))) eqn:E2; [|lia].
      rewrite entry_sum_zero; [ring|]. intros e He H1 H2. destruct (above _ _); [|destruct He].
      destruct He as [<-|[]]. cbn in H2. lia.
    + destruct ((row =? r) && ((col <=? c) && (c <? col + S n))) eqn:E2.
      * assert (c = col + n) by lia. assert (row = r) by lia. subst. replace (col + n - col) with n by lia.
        rewrite cut_above. destruct (above thr (nth n cs 0%Q)); [|cbn; ring].
        unfold entry_sum. cbn [filter fst snd]. rewrite !Nat.eqb_refl. cbn. ring.
      * rewrite entry_sum_zero; [ring|]. intros e He H1 H2. destruct (above _ _); [|destruct He].
        destruct He as [<-|[]]. cbn in H1, H2. lia.
Qed.

Lemma bw_row_nodup thr row col cs n : NoDup (map fst (bw_row thr row col cs n)).
Proof.
  induction n as [|n IH]; [constructor|].
  unfold bw_row in *. rewrite seq_S, map_app, concat_app. cbn [map concat plus]. rewrite app_nil_r, map_app.
  apply NoDup_app_iff. split; [exact IH|]. split.
  - destruct (above _ _); cbn; [|constructor]. constructor; [intros []|constructor].
  - intros x I1 I2. apply in_map_iff in I1, I2. destruct I1 as (e1 & <- & H1), I2 as (e2 & E & H2).
    apply bw_row_in in H1. destruct (above _ _); [|destruct H2]. destruct H2 as [<-|[]]. cbn in E. rewrite <- E in H1.
    cbn in H1. lia.
Qed.

Fixpoint bw (thr : Q) (row col : nat) (fs : list (list Q)) (n : nat) : list entry :=
  match fs with [] => [] | cs :: r => bw_row thr row col cs n ++ bw thr (S row) col r n end.

Lemma mapM_map_ext {A B C} (f : A -> res C) (g : B -> res C) (h : A -> B) l :
  (forall x, In x l -> f x = g (h x)) -> mapM f l = mapM g (map h l).
Proof.
  induction l as [|a l IH]; intros H; [reflexivity|]. simpl. rewrite H by (left; reflexivity).
  rewrite IH by (intros; apply H; right; auto). reflexivity.
Qed.

Lemma concat_if {A} (l : list A) (p : A -> bool) {B} (g : A -> B) :
  concat (map (fun x => if p x then [g x] else []) l) = map g (filter p l).
Proof. induction l as [|a l IH]; [reflexivity|]. simpl. rewrite IH. destruct (p a); reflexivity. Qed.

Lemma blockWrites_bw thr row col fs n :
  Forall (fun cs => length cs = n) fs -> blockWrites thr row col fs n = Ok (bw thr row col fs n).
Proof.
  intros H. unfold blockWrites.
  rewrite (mapM_ok _ (fun iif => bw_row thr (row + fst iif) col (snd iif) n)).
  - cbn [bind]. f_equal. clear H. unfold indexed.
    enough (G : forall k, concat (map (fun iif => bw_row thr (row + fst iif) col (snd iif) n) (combine (seq k (length fs)) fs))
                 = bw thr (row + k) col fs n) by (rewrite G, Nat.add_0_r; reflexivity).
    induction fs as [|cs fs IH]; intros k; [reflexivity|].
    rewrite indexed_from. cbn [map concat bw fst snd]. f_equal. rewrite IH. now rewrite Nat.add_succ_r.
  - intros [i cs] Hi. cbn [fst snd].
    assert (L : length cs = n). { apply in_combine_r in Hi. rewrite Forall_forall in H. now apply H. }
    rewrite (mapM_ok _ (fun jj => if above thr (nth jj cs 0%Q) then [(row + i, col + jj, nth jj cs 0%Q)] else [])).
    + reflexivity.
    + intros j Hj. apply in_seq in Hj. unfold vget. rewrite (nth_error_nth' cs 0%Q) by lia. reflexivity.
Qed.

Lemma bw_in thr col fs n : forall row e, In e (bw thr row col fs n) ->
  row <= fst (fst e) < row + length fs /\ col <= snd (fst e) < col + n.
Proof.
  induction fs as [|cs fs IH]; intros row e H; [destruct H|]. simpl in H. apply in_app_or in H. destruct H as [H|H].
  - apply bw_row_in in H. cbn [length]. lia.
  - apply IH in H. cbn [length]. lia.
Qed.

Lemma bw_sum thr col fs n : forall row r c,
  (entry_sum (bw thr row col fs n) r c ==
   if ((row <=? r)%nat && (r <? row + length fs)%nat) && ((col <=? c)%nat && (c <? col + n)%nat)
   then cut thr (nth (c - col) (nth (r - row) fs []) 0) else 0)%Q.
Proof.
  induction fs as [|cs fs IH]; intros row r c.
  - cbn [bw length]. destruct (_ && _) eqn:E; [lia|]. reflexivity.
  - cbn [bw]. rewrite entry_sum_app, bw_row_sum, IH. cbn [length].
    destruct (row =? r) eqn:E1.
    + assert (row = r) by lia. subst. replace (r - r) with 0 by lia. cbn [nth].
      destruct (S r <=? r) eqn:E2; [lia|]. destruct (r <=? r) eqn:E3; [|lia].
      destruct (r <? r + S (length fs)) eqn:E4; [|lia]. cbn [andb]. ring.
    + cbn [andb]. destruct (row <=? r) eqn:E2; destruct (S row <=? r) eqn:E3; try lia; cbn [andb]; [|ring].
      replace (S row + length fs) with (row + S (length fs)) by lia. replace (r - row) with (S (r - S row)) by lia.
      cbn [nth]. ring.
Qed.

Lemma bw_nodup thr col fs n : forall row, NoDup (map fst (bw thr row col fs n)).
Proof.
  induction fs as [|cs fs IH]; intros row; [constructor|].
  cbn [bw]. rewrite map_app. apply NoDup_app_iff. split; [apply bw_row_nodup|]. split; [apply IH|].
  intros x I1 I2. apply in_map_iff in I1, I2. destruct I1 as (e1 & <- & H1), I2 as (e2 & E & H2).
  apply bw_row_in in H1. apply bw_in in H2. rewrite E in H2. lia.
Qed.

(* ------------------------------------------------------------------ *)
(** * Column blocks *)

Definition part_val (thr : Q) (p q : nat) (cs : list Q) (x : ctriple) : Q :=
  let '(p', q', m) := x in if (p' =? p) && (q' =? q) then cut thr (nth m cs 0%Q) else 0%Q.

(** columns off .. off+n-1 are those of piece (p,q) *)
Definition is_block (cols : list ctriple) (off n p q : nat) : Prop :=
  exists A B, cols = A ++ map (fun j => (p, q, j)) (seq 0 n) ++ B /\ length A = off /\
    (forall j, ~ In (p, q, j) A) /\ (forall j, ~ In (p, q, j) B).

Lemma nth_error_map_seq {A} (f : nat -> A) n i : nth_error (map f (seq 0 n)) i = if i <? n then Some (f i) else None.
Proof.
  destruct (i <? n) eqn:E.
  - rewrite nth_error_map. rewrite (nth_error_nth' (seq 0 n) 0) by (rewrite seq_length; lia).
    rewrite seq_nth by lia. reflexivity.
  - apply nth_error_None. rewrite map_length, seq_length. lia.
Qed.

Lemma block_nth cols off n p q c : is_block cols off n p q ->
  ((off <=? c) && (c <? off + n) = true -> nth_error cols c = Some (p, q, c - off)) /\
  ((off <=? c) && (c <? off + n) = false -> forall j, nth_error cols c <> Some (p, q, j)).
Proof.
  intros (A & B & -> & LA & NA & NB). split.
  - intros E. rewrite nth_error_app2 by lia. rewrite nth_error_app1 by (rewrite map_length, seq_length; lia).
    rewrite nth_error_map_seq. destruct (c - length A <? n) eqn:E2; [|lia]. now rewrite LA.
  - intros E j H. destruct (c <? off) eqn:E1.
    + rewrite nth_error_app1 in H by lia. apply nth_error_In in H. exact (NA _ H).
    + rewrite nth_error_app2 in H by lia. rewrite nth_error_app2 in H by (rewrite map_length, seq_length; lia).
      apply nth_error_In in H. exact (NB _ H).
Qed.

Lemma block_le cols off n p q : is_block cols off n p q -> off + n <= length cols.
Proof. intros (A & B & -> & LA & _). rewrite !app_length, map_length, seq_length. lia. Qed.

(** what the writes of one part look like *)
Definition part_ok (cols : list ctriple) (thr : Q) (row p q : nat) (fs : list (list Q)) (w : list entry) : Prop :=
  reprs cols row (length fs) (fun i => part_val thr p q (nth i fs [])) w /\
  NoDup (map fst w) /\
  (forall e, In e w -> exists j, nth_error cols (snd (fst e)) = Some (p, q, j)).

Lemma bw_part cols thr row off n p q fs :
  is_block cols off n p q -> part_ok cols thr row p q fs (bw thr row off fs n).
Proof.
  intros HB. split; [split|split].
  - intros r c. rewrite bw_sum. destruct ((row <=? r) && (r <? row + length fs)); [|reflexivity]. cbn [andb].
    destruct (block_nth cols off n p q c HB) as [B1 B2].
    destruct ((off <=? c) && (c <? off + n)) eqn:E.
    + rewrite B1 by reflexivity. unfold part_val. rewrite !Nat.eqb_refl. reflexivity.
    + destruct (nth_error cols c) as [[[p' q'] j]|] eqn:E2; [|reflexivity]. unfold part_val.
      destruct ((p' =? p) && (q' =? q)) eqn:E3; [|reflexivity]. exfalso.
      apply (B2 eq_refl j). repeat f_equal; lia.
  - intros e He. apply bw_in in He. apply block_le in HB. lia.
  - apply bw_nodup.
  - intros e He. apply bw_in in He. destruct (block_nth cols off n p q (snd (fst e)) HB) as [B1 _].
    rewrite B1 by lia. eauto.
Qed.

(** Several parts on the same rows. *)
Local Notation piece := (nat * nat * list (list Q))%type.
Definition pieces_val (thr : Q) (ps : list piece) (i : nat) (x : ctriple) : Q :=
  sumQ (map (fun y : piece => let '(p, q, fs) := y in part_val thr p q (nth i fs []) x) ps).

Lemma part_ok_zero cols thr row n : reprs cols row n (fun i x => pieces_val thr [] i x) [].
Proof.
  split; [|intros e []]. intros r c. rewrite entry_sum_nil. destruct (_ && _); [|reflexivity].
  destruct (nth_error cols c); reflexivity.
Qed.

Lemma parts_ok cols thr row n (ps : list piece) ww :
  Forall2 (fun (y : piece) w => let '(p, q, fs) := y in part_ok cols thr row p q fs w /\ length fs = n) ps ww ->
  reprs cols row n (pieces_val thr ps) (concat ww) /\
  (NoDup (map fst ps) -> NoDup (map fst (concat ww))) /\
  (forall e, In e (concat ww) -> exists p q fs j, In (p, q, fs) ps /\ nth_error cols (snd (fst e)) = Some (p, q, j)).
Proof.
  induction 1 as [|[[p q] fs] w ps ww [HP HL] _ IH].
  - split; [apply part_ok_zero|]. split; [intros; constructor|intros e []].
  - destruct IH as (I1 & I2 & I3). destruct HP as (P1 & P2 & P3). cbn [concat]. split; [|split].
    + apply (reprs_ext cols row n (fun i x => (part_val thr p q (nth i fs []) x + pieces_val thr ps i x)%Q)).
      * intros i x _ _. reflexivity.
      * apply reprs_add; [|exact I1]. now rewrite <- HL.
    + cbn [map fst]. intros N. inversion_clear N as [|? ? N1 N2]. rewrite map_app. apply NoDup_app_iff.
      split; [exact P2|]. split; [now apply I2|]. intros y J1 J2. apply in_map_iff in J1, J2.
      destruct J1 as (e1 & <- & H1), J2 as (e2 & E & H2). apply P3 in H1. apply I3 in H2.
      destruct H1 as (j1 & H1), H2 as (p' & q' & fs' & j' & H2 & H3). rewrite E, H1 in H3.
      injection H3 as <- <- _. apply N1. apply in_map_iff. now exists (p, q, fs').
    + intros e He. apply in_app_or in He. destruct He as [He|He].
      * apply P3 in He. destruct He as (j & He). exists p, q, fs, j. split; [left; reflexivity|exact He].
      * apply I3 in He. destruct He as (p' & q' & fs' & j' & H1 & H2). exists p', q', fs', j'. split; [right|]; assumption.
Qed.

(* ------------------------------------------------------------------ *)
(** * Columns of the model *)

Lemma combine_seq_split {A} (l1 l2 : list A) a k :
  combine (seq k (length (l1 ++ a :: l2))) (l1 ++ a :: l2) =
  combine (seq k (length l1)) l1 ++ (k + length l1, a) :: combine (seq (S (k + length l1)) (length l2)) l2.
Proof.
  revert k. induction l1 as [|b l1 IH]; intros k.
  - cbn [app length]. rewrite Nat.add_0_r. reflexivity.
  - cbn [app]. rewrite !indexed_from. cbn [app]. f_equal. rewrite IH. cbn [length].
    replace (S k + length l1) with (k + S (length l1)) by lia. reflexivity.
Qed.

Lemma indexed_split {A} (l : list A) p b : nth_error l p = Some b ->
  indexed l = indexed (firstn p l) ++ (p, b) :: combine (seq (S p) (length l - S p)) (skipn (S p) l).
Proof.
  intros H. destruct (nth_error_split l p H) as (l1 & l2 & -> & <-). unfold indexed at 1.
  rewrite combine_seq_split. rewrite firstn_app, firstn_all, Nat.sub_diag, firstn_O, app_nil_r. unfold indexed.
  f_equal. f_equal. rewrite app_length. cbn [length plus].
  replace (length l1 + S (length l2) - S (length l1)) with (length l2) by lia.
  f_equal. rewrite skipn_app. rewrite skipn_all2 by lia. replace (S (length l1) - length l1) with 1 by lia. reflexivity.
Qed.

Definition patch_columns (I : c1in) (pb : nat * (kvec * kvec)) : list ctriple :=
  flat_map (fun qn => map (fun j => (fst pb, fst qn, j)) (seq 0 (snd qn))) (indexed (piece_sizes I pb)).
Lemma all_columns_eq I : all_columns I = flat_map (patch_columns I) (indexed (c1basis I)).
Proof. reflexivity. Qed.

Lemma length_flat_sizes p (l : list nat) k :
  length (flat_map (fun qn : nat * nat => map (fun j => (p, fst qn, j) : ctriple) (seq 0 (snd qn))) (combine (seq k (length l)) l)) = sumN l.
Proof.
  revert k. induction l as [|a l IH]; intros k; [reflexivity|]. rewrite indexed_from. cbn [flat_map sumN].
  rewrite app_length, map_length, seq_length, IH. reflexivity.
Qed.

Lemma patch_columns_length I pb : length (patch_columns I pb) = sumN (piece_sizes I pb).
Proof. apply length_flat_sizes. Qed.

Lemma in_patch_columns I pb p q j : In (p, q, j) (patch_columns I pb) -> p = fst pb.
Proof.
  unfold patch_columns. intros H. apply in_flat_map in H. destruct H as ([q' n] & _ & H).
  apply in_map_iff in H. destruct H as (j' & E & _). cbn in E. congruence.
Qed.

Lemma patch_block I p b q n : nth_error (piece_sizes I (p, b)) q = Some n ->
  is_block (patch_columns I (p, b)) (sumN (firstn q (piece_sizes I (p, b)))) n p q.
Proof.
  intros H. unfold patch_columns. cbn [fst]. rewrite (indexed_split _ _ _ H).
  rewrite flat_map_app. cbn [flat_map fst snd].
  eexists _, _. split; [reflexivity|]. split; [apply length_flat_sizes|].
  assert (F : forall k (l : list nat) (j : nat), In (p, q, j) (flat_map (fun qn : nat * nat => map (fun j => (p, fst qn, j) : ctriple) (seq 0 (snd qn)))
        (combine (seq k (length l)) l)) -> k <= q < k + length l).
  { intros k l j Hi. apply in_flat_map in Hi. destruct Hi as ([q' m] & Hi & Hj). apply in_map_iff in Hj.
    destruct Hj as (j' & E & _). cbn in E. injection E as -> _. apply in_combine_l, in_seq in Hi. exact Hi. }
  split; intros j Hi.
  - apply F in Hi. rewrite firstn_length in Hi. lia.
  - rewrite <- (skipn_length (S q)) in Hi. apply F in Hi. lia.
Qed.

Definition patch_offset (I : c1in) (p : nat) : nat :=
  sumN (map (fun pb => sumN (piece_sizes I pb)) (indexed (firstn p (c1basis I)))).

Lemma flat_map_length_sum {A B} (f : A -> list B) l : length (flat_map f l) = sumN (map (fun a => length (f a)) l).
Proof. induction l as [|a l IH]; [reflexivity|]. cbn [flat_map map sumN]. rewrite app_length, IH. reflexivity. Qed.

Lemma columns_block I p b q n :
  nth_error (c1basis I) p = Some b -> nth_error (piece_sizes I (p, b)) q = Some n ->
  is_block (all_columns I) (patch_offset I p + sumN (firstn q (piece_sizes I (p, b)))) n p q.
Proof.
  intros Hb Hq. rewrite all_columns_eq, (indexed_split _ _ _ Hb), flat_map_app. cbn [flat_map].
  destruct (patch_block I p b q n Hq) as (A & B & E & LA & NA & NB). rewrite E.
  exists (flat_map (patch_columns I) (indexed (firstn p (c1basis I))) ++ A),
    (B ++ flat_map (patch_columns I) (combine (seq (S p) (length (c1basis I) - S p)) (skipn (S p) (c1basis I)))).
  split; [now rewrite <- !app_assoc|]. split; [|split].
  - rewrite app_length, LA, flat_map_length_sum. unfold patch_offset. f_equal. apply sumN_map_ext.
    intros x _. apply patch_columns_length.
  - intros j Hj. apply in_app_or in Hj. destruct Hj as [Hj|Hj]; [|exact (NA j Hj)].
    apply in_flat_map in Hj. destruct Hj as (pb & H1 & H2). apply in_patch_columns in H2. subst.
    destruct pb as [p' b']. cbn in *. apply in_indexed in H1.
    assert (p' < length (firstn p' (c1basis I))) by (apply nth_error_Some; congruence). rewrite firstn_length in H. lia.
  - intros j Hj. apply in_app_or in Hj. destruct Hj as [Hj|Hj]; [exact (NB j Hj)|].
    apply in_flat_map in Hj. destruct Hj as ([p' b'] & H1 & H2). apply in_patch_columns in H2. cbn in H2. subst.
    apply in_combine_l, in_seq in H1. lia.
Qed.

Section Input.
Context (surf : bool) (I : c1in).
Hypothesis W : c1_wf surf I.

Lemma pieceSizes_ok p b : nth_error (c1basis I) p = Some b -> pieceSizes I p = Ok (piece_sizes I (p, b)).
Proof.
  intros H. unfold pieceSizes, vget. rewrite H. cbn [bind].
  assert (L : p < length (c1more I)). { rewrite (wf_more _ _ W). apply nth_error_Some. congruence. }
  rewrite (nth_error_nth' _ [] L). reflexivity.
Qed.

Lemma containerSize_ok p b : nth_error (c1basis I) p = Some b -> containerSize I p = Ok (sumN (piece_sizes I (p, b))).
Proof. intros H. unfold containerSize. now rewrite (pieceSizes_ok p b H). Qed.

Lemma patch_offset_S p b : nth_error (c1basis I) p = Some b ->
  patch_offset I (S p) = patch_offset I p + sumN (piece_sizes I (p, b)).
Proof. clear W.
  intros H. unfold patch_offset. destruct (nth_error_split _ _ H) as (l1 & l2 & E & L). rewrite E. rewrite <- L.
  rewrite !firstn_app, firstn_all2 by lia. rewrite firstn_all, Nat.sub_diag. replace (S (length l1) - length l1) with 1 by lia.
  cbn [firstn]. rewrite app_nil_r. unfold indexed. rewrite combine_seq_split. cbn [length seq combine plus].
  rewrite map_app, sumN_app. cbn. lia.
Qed.

Lemma sizes_before p : p <= length (c1basis I) -> exists l, mapM (containerSize I) (seq 0 p) = Ok l /\ sumN l = patch_offset I p.
Proof.
  intros H.
  assert (G : mapM (containerSize I) (seq 0 p) = Ok (map (fun q => match nth_error (c1basis I) q with Some b => sumN (piece_sizes I (q, b)) | None => 0 end) (seq 0 p))).
  { apply mapM_ok. intros q Hq. apply in_seq in Hq. destruct (nth_error (c1basis I) q) as [b|] eqn:E.
    - now apply containerSize_ok.
    - apply nth_error_None in E. lia. }
  eexists. split; [exact G|]. clear G. induction p as [|p IH]; [reflexivity|].
  rewrite seq_S, map_app, sumN_app, IH by lia. cbn [map sumN plus].
  destruct (nth_error (c1basis I) p) as [b|] eqn:E; [|apply nth_error_None in E; lia].
  rewrite (patch_offset_S p b E). lia.
Qed.

Lemma columns_length : length (all_columns I) = patch_offset I (length (c1basis I)).
Proof. clear W.
  rewrite all_columns_eq, flat_map_length_sum. unfold patch_offset. rewrite firstn_all. apply sumN_map_ext.
  intros x _. apply patch_columns_length.
Qed.

Lemma colRange_ok p b q n : nth_error (c1basis I) p = Some b -> nth_error (piece_sizes I (p, b)) q = Some n ->
  exists off, colRange I p q = Ok (off, n) /\ is_block (all_columns I) off n p q.
Proof.
  intros Hb Hq. unfold colRange. assert (L : p < length (c1basis I)) by (apply nth_error_Some; congruence).
  destruct (sizes_before p ltac:(lia)) as (l & El & Es). rewrite El. cbn [bind]. rewrite (pieceSizes_ok p b Hb). cbn [bind].
  unfold vget. rewrite Hq. cbn [bind]. eexists. split; [reflexivity|]. rewrite Es. now apply columns_block.
Qed.

Lemma putPiece_ok thr row p b q n fs :
  nth_error (c1basis I) p = Some b -> nth_error (piece_sizes I (p, b)) q = Some n -> Forall (fun cs => length cs = n) fs ->
  exists w, putPiece I thr row p q fs = Ok w /\ part_ok (all_columns I) thr row p q fs w.
Proof.
  intros Hb Hq Hf. destruct (colRange_ok p b q n Hb Hq) as (off & E & B). unfold putPiece. rewrite E. cbn [bind fst snd].
  rewrite blockWrites_bw by assumption. eexists. split; [reflexivity|]. now apply bw_part.
Qed.

(** ** Rows *)

Local Notation cols := (all_columns I).
Definition dfun := FVertex 0 0.
Definition inv (fns : list c1fun) (st : nat * list entry) : Prop :=
  fst st = length fns /\
  reprs cols 0 (length fns) (fun i => coef_value surf I (nth i fns dfun)) (snd st) /\
  (surf = false -> NoDup (map fst (snd st))).

Lemma inv_app fns new row M w :
  inv fns (row, M) ->
  reprs cols row (length new) (fun i => coef_value surf I (nth i new dfun)) w ->
  (surf = false -> NoDup (map fst w)) ->
  inv (fns ++ new) (row + length new, M ++ w).
Proof. clear W.
  intros (E & R & N) Rw Nw. cbn [fst snd] in *. subst row. split; [|split]; cbn [fst snd].
  - now rewrite app_length.
  - rewrite app_length. eapply reprs_ext; [|eapply reprs_app; [exact R|exact Rw]].
    intros i x Hi _. cbn beta. destruct (i <? length fns) eqn:E.
    + rewrite app_nth1 by lia. reflexivity.
    + rewrite app_nth2 by lia. reflexivity.
  - intros S0. exact (nodup_rows _ _ _ _ _ _ _ _ R Rw (N S0) (Nw S0)).
Qed.

Lemma inv_nil : inv [] (0, []).
Proof. clear W. split; [reflexivity|]. split; [|intros; constructor]. eapply reprs_ext; [|apply reprs_nil]. cbn. intros; lia. Qed.

(** A group of functions given on several pieces. *)
Lemma group_ok {X} (F : X -> c1fun) (f0 : X) (fns : list X) (tpl : list (nat * nat * (X -> list Q))) thr row :
  (forall f, parts surf I (F f) = map (fun t => (fst t, snd t f)) tpl) ->
  (forall f, threshold surf (F f) = thr) ->
  (forall f p i j, F f <> FInner p i j) ->
  (forall t, In t tpl -> fst (fst t) < length (c1basis I)) ->
  exists ww, mapM (fun t => putPiece I thr row (fst (fst t)) (snd (fst t)) (map (snd t) fns)) tpl = Ok ww /\
    reprs cols row (length fns) (fun i => coef_value surf I (nth i (map F fns) dfun)) (concat ww) /\
    (NoDup (map fst tpl) -> NoDup (map fst (concat ww))).
Proof.
  intros HP HT HF HB.
  assert (G : exists ww, mapM (fun t => putPiece I thr row (fst (fst t)) (snd (fst t)) (map (snd t) fns)) tpl = Ok ww /\
     Forall2 (fun (y : piece) w => let '(p, q, fs) := y in part_ok cols thr row p q fs w /\ length fs = length fns)
       (map (fun t => (fst t, map (snd t) fns)) tpl) ww).
  { assert (HC : forall t, In t tpl -> forall f, In (fst t, snd t f) (parts surf I (F f))).
    { intros t Ht f. rewrite HP. apply in_map_iff. now exists t. }
    clear HP HT HF. induction tpl as [|[[p q] co] tpl IH].
    - exists []. split; [reflexivity|constructor].
    - destruct IH as (ww & E & R); [intros; apply HB; right; assumption|intros; apply HC; right; assumption|].
      pose proof (HB _ (or_introl eq_refl)) as Lp. cbn [fst snd] in Lp.
      destruct (nth_error (c1basis I) p) as [b|] eqn:Eb; [|apply nth_error_None in Eb; lia].
      assert (Hn : forall f, nth_error (piece_sizes I (p, b)) q = Some (length (co f))).
      { intros f. apply (wf_coefs _ _ W (F f) p q (co f)); [|exact Eb]. apply (HC _ (or_introl eq_refl) f). }
      destruct (putPiece_ok thr row p b q (length (co f0)) (map co fns) Eb (Hn f0)) as (w & Ew & Pw).
      { apply Forall_forall. intros cs Hc. apply in_map_iff in Hc. destruct Hc as (f & <- & _).
        pose proof (Hn f) as H1. rewrite (Hn f0) in H1. congruence. }
      exists (w :: ww). cbn [mapM fst snd]. rewrite Ew, E. cbn [bind]. split; [reflexivity|].
      cbn [map fst snd]. constructor; [|exact R]. split; [exact Pw|]. apply map_length. }
  destruct G as (ww & E & R). exists ww. split; [exact E|].
  destruct (parts_ok cols thr row (length fns) _ ww R) as (R1 & R2 & _). split.
  - eapply reprs_ext; [|exact R1]. intros i x Hi _. cbn beta.
    rewrite (nth_indep _ dfun (F f0)) by (now rewrite map_length). rewrite map_nth.
    set (f := nth i fns f0).
    unfold pieces_val, coef_value. destruct x as [[p' q'] m].
    assert (EV : sumQ (map (fun y : piece => let '(p, q, fs) := y in part_val thr p q (nth i fs []) (p', q', m))
                  (map (fun t : nat * nat * (X -> list Q) => (fst t, map (snd t) fns)) tpl)) =
            sumQ (map (fun x => let '(p, q, cs) := x in if (p' =? p) && (q' =? q) then cut (threshold surf (F f)) (nth m cs 0%Q) else 0%Q)
              (parts surf I (F f)))).
    { rewrite HP, HT, !map_map. f_equal. apply map_ext. intros [[p q] co]. cbn [fst snd].
      unfold part_val. rewrite (nth_indep _ [] (co f0)) by (now rewrite map_length). rewrite map_nth. reflexivity. }
    rewrite EV. destruct (F f) eqn:EF; [exfalso; now apply (HF f p i0 j)| | |]; reflexivity.
  - intros N. apply R2. rewrite map_map. cbn [fst]. exact N.
Qed.

(** inner functions of one patch *)
Lemma inner_functions_pairs p b :
  inner_functions p b = map (fun ij => FInner p (fst ij) (snd ij)) (innerPairs (kvsize (fst b)) (kvsize (snd b))).
Proof. clear W.
  unfold inner_functions, innerPairs. induction (seq 2 (kvsize (snd b) - 4)) as [|j l IH]; [reflexivity|].
  cbn [flat_map]. rewrite map_app, IH, map_map. reflexivity.
Qed.

Lemma in_innerPairs a b ij : In ij (innerPairs a b) -> 2 <= fst ij < a - 2 /\ 2 <= snd ij < b - 2.
Proof. clear W.
  unfold innerPairs. intros H. apply in_flat_map in H. destruct H as (j & Hj & H). apply in_map_iff in H.
  destruct H as (i & <- & Hi). apply in_seq in Hj, Hi. cbn. lia.
Qed.

Lemma inner_rows p b row pairs k :
  nth_error (c1basis I) p = Some b ->
  (forall ij, In ij pairs -> fst ij < kvsize (fst b) /\ snd ij < kvsize (snd b)) ->
  reprs cols (row + k) (length pairs) (fun i => coef_value surf I (nth i (map (fun ij => FInner p (fst ij) (snd ij)) pairs) dfun))
    (map (fun z => (row + fst z, patch_offset I p + (snd (snd z) * kvsize (fst b) + fst (snd z)), 1%Q)) (combine (seq k (length pairs)) pairs))
  /\ NoDup (map fst (map (fun z => (row + fst z, patch_offset I p + (snd (snd z) * kvsize (fst b) + fst (snd z)), 1%Q)) (combine (seq k (length pairs)) pairs))).
Proof. clear W.
  intros Hb. revert k. induction pairs as [|[i j] pairs IH]; intros k HB.
  - split; [|constructor]. eapply reprs_ext; [|apply reprs_nil]. cbn. intros; lia.
  - destruct (IH (S k)) as [R N]; [intros; apply HB; right; assumption|].
    rewrite indexed_from. cbn [map fst snd]. set (tl := map _ (combine (seq (S k) _) _)) in *.
    destruct (HB _ (or_introl eq_refl)) as [Hi Hj]. cbn [fst snd] in Hi, Hj.
    assert (R1 : reprs cols (row + k) 1 (fun _ => coef_value surf I (FInner p i j)) [(row + k, patch_offset I p + (j * kvsize (fst b) + i), 1%Q)]).
    { assert (Bk := columns_block I p b 0 (kvsize (fst b) * kvsize (snd b)) Hb eq_refl). cbn [firstn sumN] in Bk.
      rewrite Nat.add_0_r in Bk.
      assert (Lm : j * kvsize (fst b) + i < kvsize (fst b) * kvsize (snd b)) by nia.
      split.
      - intros r c. unfold entry_sum. cbn [filter fst snd].
        destruct (block_nth cols _ _ _ _ c Bk) as [B1 B2].
        destruct ((row + k <=? r) && (r <? row + k + 1)) eqn:E1.
        + assert (r = row + k) by lia. subst r. rewrite Nat.eqb_refl. cbn [andb].
          destruct ((patch_offset I p <=? c) && (c <? patch_offset I p + kvsize (fst b) * kvsize (snd b))) eqn:E2.
          * rewrite B1 by reflexivity. unfold coef_value. rewrite Hb, !Nat.eqb_refl. cbn [andb].
            destruct (patch_offset I p + (j * kvsize (fst b) + i) =? c) eqn:E3;
              destruct (c - patch_offset I p =? j * kvsize (fst b) + i) eqn:E4; try lia; cbn; ring.
          * destruct (patch_offset I p + (j * kvsize (fst b) + i) =? c) eqn:E3; [exfalso; lia|]. cbn.
            destruct (nth_error cols c) as [[[p' q'] m]|] eqn:E4; [|reflexivity]. cbn. rewrite Hb.
            destruct ((p' =? p) && (q' =? 0)) eqn:E5; [|reflexivity]. exfalso. apply (B2 eq_refl m). repeat f_equal; lia.
        + destruct (row + k =? r) eqn:E2; [lia|]. reflexivity.
      - intros e [<-|[]]. cbn [fst snd]. split; [lia|]. apply block_le in Bk. lia. }
    assert (N1 : NoDup (map fst [(row + k, patch_offset I p + (j * kvsize (fst b) + i), 1%Q)])) by (constructor; [intros []|constructor]).
    replace (row + S k) with (row + k + 1) in R by lia.
    split.
    + change (length ((i, j) :: pairs)) with (1 + length pairs).
      change ((row + k, patch_offset I p + (j * kvsize (fst b) + i), 1%Q) :: tl) with
        ([(row + k, patch_offset I p + (j * kvsize (fst b) + i), 1%Q)] ++ tl).
      eapply reprs_ext; [|eapply reprs_app; [exact R1|exact R]].
      intros z x _ _. cbn beta. destruct z as [|z]; [reflexivity|]. cbn [Nat.ltb Nat.leb map nth]. 
      replace (S z - 1) with z by lia. reflexivity.
    + exact (nodup_rows _ _ _ _ _ _ _ _ R1 R N1 N).
Qed.

Lemma putInner_ok fns row col M p :
  p < length (c1basis I) -> inv fns (row, M) -> col = patch_offset I p ->
  exists b row' M', nth_error (c1basis I) p = Some b /\ putInner I (row, col, M) p = Ok (row', patch_offset I (S p), M') /\
    inv (fns ++ inner_functions p b) (row', M').
Proof.
  intros L H ->. destruct (nth_error (c1basis I) p) as [b|] eqn:Eb; [|apply nth_error_None in Eb; lia].
  unfold putInner, vget. rewrite Eb. cbn [bind]. rewrite (containerSize_ok p b Eb). cbn [bind].
  rewrite (patch_offset_S p b Eb). eexists b, _, _. split; [reflexivity|]. split; [reflexivity|].
  set (pairs := innerPairs (kvsize (fst b)) (kvsize (snd b))).
  destruct (inner_rows p b row pairs 0 Eb) as [R N].
  { intros ij Hi. apply in_innerPairs in Hi. lia. }
  rewrite Nat.add_0_r in R. rewrite inner_functions_pairs. fold pairs.
  rewrite <- (map_length (fun ij => FInner p (fst ij) (snd ij)) pairs) at 1.
  apply inv_app; [exact H| |intros _; exact N]. rewrite map_length. exact R.
Qed.

Lemma inner_ok : exists row M,
  foldM (putInner I) (seq 0 (length (c1basis I))) (0, 0, []) = Ok (row, patch_offset I (length (c1basis I)), M) /\
  inv (flat_map (fun pb => inner_functions (fst pb) (snd pb)) (indexed (c1basis I))) (row, M).
Proof.
  assert (G : forall n, n <= length (c1basis I) -> exists row M,
     foldM (putInner I) (seq 0 n) (0, 0, []) = Ok (row, patch_offset I n, M) /\
     inv (flat_map (fun pb => inner_functions (fst pb) (snd pb)) (indexed (firstn n (c1basis I)))) (row, M)).
  { induction n as [|n IH]; intros L.
    - exists 0, []. split; [reflexivity|]. apply inv_nil.
    - destruct IH as (row & M & E & H); [lia|]. rewrite seq_S, foldM_app, E. cbn [bind foldM plus].
      destruct (putInner_ok _ row (patch_offset I n) M n ltac:(lia) H eq_refl) as (b & row' & M' & Eb & E' & H').
      rewrite E'. cbn [bind]. exists row', M'. split; [reflexivity|].
      destruct (nth_error_split _ _ Eb) as (l1 & l2 & El & Ln).
      assert (EF : firstn (S n) (c1basis I) = firstn n (c1basis I) ++ [b]).
      { rewrite El, <- Ln, !firstn_app, firstn_all2 by lia. rewrite firstn_all, Nat.sub_diag.
        replace (S (length l1) - length l1) with 1 by lia. cbn [firstn]. now rewrite app_nil_r. }
      rewrite EF. unfold indexed. rewrite combine_seq_split, flat_map_app. cbn [length seq combine flat_map fst snd plus].
      rewrite app_nil_r. rewrite firstn_length. replace (Nat.min n (length (c1basis I))) with n by lia. 
      unfold indexed in H'. rewrite firstn_length in H'. replace (Nat.min n (length (c1basis I))) with n in H' by lia. exact H'. }
  destruct (G (length (c1basis I)) (Nat.le_refl _)) as (row & M & E & H). rewrite firstn_all in H. eauto.
Qed.

(** a loop that adds one group of functions per element *)
Lemma loop_ok {A} (f : nat * list entry -> nat * A -> res (nat * list entry)) (new : nat -> list c1fun) l fns st :
  inv fns st ->
  (forall k a fns st, nth_error l k = Some a -> inv fns st -> exists st', f st (k, a) = Ok st' /\ inv (fns ++ new k) st') ->
  exists st', foldM f (indexed l) st = Ok st' /\ inv (fns ++ flat_map new (seq 0 (length l))) st'.
Proof. clear W.
  intros H0 HS.
  assert (G : forall l2 k fns st, (forall i a, nth_error l2 i = Some a -> nth_error l (k + i) = Some a) -> inv fns st ->
     exists st', foldM f (combine (seq k (length l2)) l2) st = Ok st' /\ inv (fns ++ flat_map new (seq k (length l2))) st').
  { induction l2 as [|a l2 IH]; intros k fns' st' HL Hi.
    - exists st'. cbn. rewrite app_nil_r. auto.
    - rewrite indexed_from. cbn [foldM]. destruct (HS k a fns' st') as (st1 & E1 & H1); [|exact Hi|].
      { specialize (HL 0 a eq_refl). now rewrite Nat.add_0_r in HL. }
      rewrite E1. cbn [bind]. destruct (IH (S k) (fns' ++ new k) st1) as (st2 & E2 & H2); [|exact H1|].
      { intros i b Hb. specialize (HL (S i) b Hb). now rewrite Nat.add_succ_r in HL. }
      exists st2. split; [exact E2|]. cbn [length seq flat_map]. now rewrite app_assoc. }
  apply (G l 0 fns st); auto.
Qed.

End Input.

(* ------------------------------------------------------------------ *)
(** * Univariate spaces *)

Lemma sum_reduceInner red l : sumN (map snd (reduceInner red l)) = sumN (map red (map snd l)).
Proof.
  unfold reduceInner. induction l as [|[x m] l IH]; [reflexivity|]. cbn [map filter fst snd].
  destruct (0 <? red m) eqn:E; cbn [map snd sumN]; [|replace (red m) with 0 by lia]; lia.
Qed.

Lemma inner_sum red b : 1 <= kvdeg b ->
  kvdeg b + 1 + sumN (map snd (if multAfterEnd b =? 1 then kvin b else reduceInner red (kvin b))) = plus_dim red b.
Proof.
  intros H. unfold multAfterEnd, plus_dim, lowered. destruct (kvin b) as [|[x m] l] eqn:E; cbn [map snd].
  - destruct (kvdeg b + 1 =? 1) eqn:E1; [lia|]. reflexivity.
  - destruct (m =? 1) eqn:E1.
    + assert (m = 1) by lia. subst. reflexivity.
    + rewrite sum_reduceInner. cbn [map snd]. destruct m as [|[|m]]; try reflexivity. discriminate.
Qed.

Lemma plusMinus_ok red geo b : kvin geo = [] -> 1 <= kvdeg b ->
  plusMinus red geo b = Ok (plus_dim red b, plus_dim red b - 1).
Proof.
  intros E H. unfold plusMinus, createPlusSpace, createMinusSpace. rewrite E. cbn [foldM bind].
  destruct (0 <? kvdeg b) eqn:E1; [|lia]. cbn [ensure bind]. unfold kvsize. cbn [kvdeg kvin].
  rewrite (inner_sum red b H). pose proof (inner_sum red b H) as H1.
  do 2 f_equal. replace (kvdeg b - 1 + 1) with (kvdeg b) by lia. lia.
Qed.

Lemma rot_if1 s b : snd (rotAll rotBasis (interfaceOps true (side_ix s)) b) = kcomp b (along s).
Proof. destruct s, b; reflexivity. Qed.
Lemma rot_if2 s b : fst (rotAll rotBasis (interfaceOps false (side_ix s)) b) = kcomp b (along s).
Proof. destruct s, b; reflexivity. Qed.
Lemma rot_bd s b : snd (rotAll rotBasis (singleOps false (side_ix s)) b) = kcomp b (along s).
Proof. destruct s, b; reflexivity. Qed.

Lemma rotGeo_nil ops g : kvin (fst g) = [] -> kvin (snd g) = [] ->
  kvin (fst (rotAll rotGeo ops g)) = [] /\ kvin (snd (rotAll rotGeo ops g)) = [].
Proof.
  revert g. induction ops as [|o ops IH]; intros g H1 H2; [auto|]. cbn [rotAll fold_left]. apply IH.
  - destruct o; cbn; rewrite ?H1, ?H2; reflexivity.
  - destruct o; cbn; rewrite ?H1, ?H2; reflexivity.
Qed.

Lemma side_basis_comp I ps b uv : nth_error (c1basis I) (fst ps) = Some uv -> side_basis I ps b -> b = kcomp uv (along (snd ps)).
Proof. intros E (uv' & E' & ->). rewrite E in E'. injection E' as ->. destruct (snd ps); reflexivity. Qed.

(* ------------------------------------------------------------------ *)
(** * Common steps of both classes *)

Lemma side_ix_piece s : side_ix s = side_piece false s.
Proof. destruct s; reflexivity. Qed.
Lemma corner_ix_piece c : corner_ix c + 4 = corner_piece false c.
Proof. destruct c; reflexivity. Qed.

Lemma edge_functions_map (F : bool * nat -> c1fun) np : map F (edgeFunctions (np, np - 1)) = edge_functions F np (np - 1).
Proof. unfold edgeFunctions, edge_functions. cbn [fst snd]. now rewrite map_app, !map_map. Qed.

Lemma edge_length F np : length (edge_functions F np (np - 1)) = (np - 6) + (np - 5).
Proof. unfold edge_functions. rewrite app_length, !map_length, !seq_length. lia. Qed.

Lemma edgeFunctions_length np : length (edgeFunctions (np, np - 1)) = (np - 6) + (np - 5).
Proof. rewrite <- (edge_length (FIface 0) np), <- edge_functions_map, map_length. reflexivity. Qed.

Lemma sumZ_ext {A} (f g : A -> Z) l : (forall x, In x l -> f x = g x) -> sumZ (map f l) = sumZ (map g l).
Proof. induction l; simpl; intros H; [reflexivity|]. rewrite H, IHl by auto. reflexivity. Qed.

Lemma sumZ_indexed {A} (f : A -> Z) l : sumZ (map f l) = sumZ (map (fun ka => f (snd ka)) (indexed l)).
Proof.
  unfold indexed. generalize 0. induction l as [|a l IH]; intros k; [reflexivity|]. rewrite indexed_from.
  cbn [map snd sumZ]. now rewrite (IH (S k)).
Qed.

Lemma sumN_indexed {A} (f : A -> nat) l : sumN (map f l) = sumN (map (fun ka => f (snd ka)) (indexed l)).
Proof.
  unfold indexed. generalize 0. induction l as [|a l IH]; intros k; [reflexivity|]. rewrite indexed_from.
  cbn [map snd sumN]. now rewrite (IH (S k)).
Qed.

Lemma indexed_fst {A} (l : list A) : map fst (indexed l) = seq 0 (length l).
Proof.
  unfold indexed. generalize 0. induction l as [|a l IH]; intros k; [reflexivity|]. rewrite indexed_from.
  cbn [map fst length seq]. now rewrite IH.
Qed.

(** sums of per-element values that depend on the number only *)
Lemma sum_by_number {A} (f : A -> Z) (g : nat -> nat) l :
  (forall k a, nth_error l k = Some a -> f a = Z.of_nat (g k)) ->
  sumZ (map f l) = Z.of_nat (sumN (map g (seq 0 (length l)))).
Proof.
  intros H. rewrite sumZ_indexed, <- indexed_fst, map_map, <- sumZ_of_nat. apply sumZ_ext.
  intros [k a] Hi. apply in_indexed in Hi. cbn. now apply H.
Qed.

Lemma mapM_by_number {A} (f : A -> res Z) (g : nat -> nat) l :
  (forall k a, nth_error l k = Some a -> f a = Ok (Z.of_nat (g k))) ->
  exists v, mapM f l = Ok v /\ sumZ v = Z.of_nat (sumN (map g (seq 0 (length l)))).
Proof.
  intros H. exists (map (fun a => match f a with Ok z => z | Err => 0%Z end) l). split.
  - apply mapM_ok. intros a Ha. apply In_nth_error in Ha. destruct Ha as (k & Ha). now rewrite (H k a Ha).
  - apply sum_by_number. intros k a Ha. now rewrite (H k a Ha).
Qed.

Lemma inner_length p b : length (inner_functions p b) = (kvsize (fst b) - 4) * (kvsize (snd b) - 4).
Proof.
  rewrite inner_functions_pairs, map_length. unfold innerPairs. rewrite flat_map_length_sum.
  rewrite (sumN_map_ext _ (fun _ => kvsize (fst b) - 4)).
  - now rewrite sumN_map_const, seq_length.
  - intros j _. now rewrite map_length, seq_length.
Qed.

Lemma functions_length I Ni Nb :
  length (all_functions I Ni Nb) =
    sumN (map (fun b => (kvsize (fst b) - 4) * (kvsize (snd b) - 4)) (c1basis I)) +
    (sumN (map (fun k => (Ni k - 6) + (Ni k - 5)) (seq 0 (length (tif (c1topo I))))) +
    (sumN (map (fun k => (Nb k - 6) + (Nb k - 5)) (seq 0 (length (tbd (c1topo I))))) + 6 * length (c1verts I))).
Proof.
  unfold all_functions. rewrite !app_length, !flat_map_length_sum. f_equal; [|f_equal; [|f_equal]].
  - rewrite (sumN_map_ext _ (fun pb => (kvsize (fst (snd pb)) - 4) * (kvsize (snd (snd pb)) - 4))) by (intros; apply inner_length).
    symmetry. apply (sumN_indexed (fun b => (kvsize (fst b) - 4) * (kvsize (snd b) - 4))).
  - apply sumN_map_ext. intros; apply edge_length.
  - apply sumN_map_ext. intros; apply edge_length.
  - rewrite (sumN_map_ext _ (fun _ => 6)) by (intros; now rewrite map_length, seq_length). now rewrite sumN_map_const, seq_length.
Qed.

Lemma inner_dofs surf I : c1_wf surf I ->
  sumZ (map innerDofs (c1basis I)) = Z.of_nat (sumN (map (fun b => (kvsize (fst b) - 4) * (kvsize (snd b) - 4)) (c1basis I))).
Proof.
  intros W. rewrite <- sumZ_of_nat. apply sumZ_ext. intros b Hb. destruct (wf_dim _ _ W b Hb) as [H1 H2]. unfold innerDofs. nia.
Qed.

Lemma six_each {A} (l : list A) : sumZ (map (fun _ => 6%Z) l) = Z.of_nat (6 * length l).
Proof. induction l as [|a l IH]; [reflexivity|]. cbn [map sumZ length]. lia. Qed.

(** m_matrix.insert *)
Lemma inserts_ok dim W : NoDup (map fst W) ->
  (forall e, In e W -> (Z.of_nat (fst (fst e)) < fst dim)%Z /\ snd (fst e) < snd dim) ->
  foldM (insertEntry dim) W [] = Ok W.
Proof.
  intros N H.
  assert (G : forall l M, NoDup (map fst (M ++ l)) -> (forall e, In e l -> (Z.of_nat (fst (fst e)) < fst dim)%Z /\ snd (fst e) < snd dim) ->
     foldM (insertEntry dim) l M = Ok (M ++ l)).
  { induction l as [|[[r c] v] l IH]; intros M HN HR; [now rewrite app_nil_r|].
    cbn [foldM]. unfold insertEntry at 1. destruct (HR _ (or_introl eq_refl)) as [H1 H2]. cbn [fst snd] in H1, H2.
    destruct ((Z.of_nat r <? fst dim)%Z && (c <? snd dim)) eqn:E1; [|lia]. cbn [ensure bind].
    destruct (forallb _ M) eqn:E2.
    - cbn [ensure bind]. rewrite IH.
      + rewrite <- app_assoc. reflexivity.
      + rewrite <- app_assoc. exact HN.
      + intros e He. apply HR. right; exact He.
    - exfalso. apply Bool.not_true_iff_false in E2. apply E2. apply forallb_forall. intros [[r' c'] v'] He. cbn [fst snd].
      destruct ((r' =? r) && (c' =? c)) eqn:E3; [|reflexivity]. exfalso. assert (r' = r) by lia. assert (c' = c) by lia. subst.
      rewrite map_app in HN. cbn [map fst] in HN. apply NoDup_remove_2 in HN. apply HN. apply in_or_app. left.
      apply in_map_iff. now exists (r, c, v'). }
  apply (G W []); assumption.
Qed.

(* ------------------------------------------------------------------ *)
(** * gsApproxC1Spline *)

Section Approx.
Context (I : c1in) (Ni Nb : nat -> nat).
Hypothesis WA : approx_wf I.
Hypothesis D : approx_dims I Ni Nb.
Local Notation W := (aw_wf I WA).

Lemma get_basis p : p < length (c1basis I) -> exists b g, nth_error (c1basis I) p = Some b /\ nth_error (c1geo I) p = Some g /\
  1 <= kvdeg (fst b) /\ 1 <= kvdeg (snd b) /\ kvin (fst g) = [] /\ kvin (snd g) = [].
Proof.
  intros H. destruct (nth_error (c1basis I) p) as [b|] eqn:E; [|apply nth_error_None in E; lia].
  assert (Hg : p < length (c1geo I)) by (rewrite (wf_geo _ _ W); exact H).
  destruct (nth_error (c1geo I) p) as [g|] eqn:Eg; [|apply nth_error_None in Eg; lia].
  apply nth_error_In in E, Eg. destruct (wf_deg _ _ W b E) as [D1 D2]. destruct (aw_geo I WA g Eg) as [G1 G2].
  exists b, g. repeat split; auto.
Qed.

Lemma kcomp_deg b d : 1 <= kvdeg (fst b) -> 1 <= kvdeg (snd b) -> 1 <= kvdeg (kcomp b d).
Proof. destruct d; auto. Qed.
Lemma kcomp_nil (b : kvec * kvec) d : kvin (fst b) = [] -> kvin (snd b) = [] -> kvin (kcomp b d) = [].
Proof. destruct d; auto. Qed.

Lemma iface_sizes k f : nth_error (tif (c1topo I)) k = Some f ->
  edgeSizes I f = Ok (Ni k, Ni k - 1) /\ initIface I f = Ok (Z.of_nat ((Ni k - 6) + (Ni k - 5))).
Proof.
  intros Hf. destruct D as [Di _]. destruct (Di k f Hf) as (b & (b1 & b2 & S1 & S2 & HC) & EN).
  apply nth_error_In in Hf. destruct (wf_if _ _ W f Hf) as [L1 L2].
  destruct (get_basis _ L1) as (u1 & g1 & E1 & G1 & D1 & D1' & K1 & K1').
  destruct (get_basis _ L2) as (u2 & g2 & E2 & G2 & D2 & D2' & K2 & K2').
  apply (side_basis_comp I _ _ _ E1) in S1. apply (side_basis_comp I _ _ _ E2) in S2.
  unfold edgeSizes, initIface, initChoice, vget. rewrite E1, E2, G1, G2. cbn [bind].
  rewrite rot_if1, rot_if2, <- S1, <- S2. unfold kvelements. rewrite EN.
  assert (Q1 : 1 <= kvdeg b1) by (rewrite S1; now apply kcomp_deg).
  assert (Q2 : 1 <= kvdeg b2) by (rewrite S2; now apply kcomp_deg).
  destruct HC as [[HC ->]|[HC ->]].
  - destruct (length (kvin b2) + 1 <? length (kvin b1) + 1) eqn:E; [lia|]. cbn [bind fst snd].
    rewrite !plusMinus_ok; auto; [|now apply kcomp_nil|now apply rotGeo_nil].
    split; [reflexivity|]. unfold edgeDofs. cbn [bind fst snd]. f_equal. lia.
  - destruct (length (kvin b2) + 1 <? length (kvin b1) + 1) eqn:E; [|lia]. cbn [bind fst snd].
    rewrite !plusMinus_ok; auto; [|now apply kcomp_nil|now apply rotGeo_nil].
    split; [reflexivity|]. unfold edgeDofs. cbn [bind fst snd]. f_equal. lia.
Qed.

Lemma boundary_sizes k ps : nth_error (tbd (c1topo I)) k = Some ps ->
  bdySizes I ps = Ok (Nb k, Nb k - 1) /\ initBoundary I ps = Ok (Z.of_nat ((Nb k - 6) + (Nb k - 5))).
Proof.
  intros Hf. destruct D as [_ Db]. destruct (Db k ps Hf) as (b & S1 & EN).
  apply nth_error_In in Hf. pose proof (wf_bd _ _ W ps Hf) as L1.
  destruct (get_basis _ L1) as (u1 & g1 & E1 & G1 & D1 & D1' & K1 & K1').
  apply (side_basis_comp I _ _ _ E1) in S1.
  unfold bdySizes, initBoundary, vget. rewrite E1, G1. cbn [bind].
  rewrite rot_bd, <- S1, EN.
  assert (Q1 : 1 <= kvdeg b) by (rewrite S1; now apply kcomp_deg).
  rewrite !plusMinus_ok; auto; [|now apply kcomp_nil|now apply rotGeo_nil].
  split; [reflexivity|]. unfold edgeDofs. cbn [bind fst snd]. f_equal. lia.
Qed.

Lemma approx_init : c1init I = Ok (Z.of_nat (length (all_functions I Ni Nb)), length (all_columns I)).
Proof.
  unfold c1init.
  destruct (mapM_by_number (initIface I) (fun k => (Ni k - 6) + (Ni k - 5)) (tif (c1topo I))) as (a & Ea & Sa).
  { intros k f Hf. now apply iface_sizes. }
  destruct (mapM_by_number (initBoundary I) (fun k => (Nb k - 6) + (Nb k - 5)) (tbd (c1topo I))) as (b & Eb & Sb).
  { intros k f Hf. now apply boundary_sizes. }
  rewrite Ea, Eb. cbn [bind].
  destruct (sizes_before false I W (length (c1basis I)) (Nat.le_refl _)) as (l & El & Sl). rewrite El. cbn [bind].
  rewrite Sa, Sb, Sl, columns_length, functions_length, six_each, (inner_dofs false I W). do 2 f_equal. lia.
Qed.

Lemma putIface_ok k f fns st : nth_error (tif (c1topo I)) k = Some f -> inv false I fns st ->
  exists st', putIface I st (k, f) = Ok st' /\ inv false I (fns ++ edge_functions (FIface k) (Ni k) (Ni k - 1)) st'.
Proof.
  intros Hf H. destruct st as [row M]. unfold putIface. rewrite (proj1 (iface_sizes k f Hf)). cbn [bind].
  pose proof (nth_error_In _ _ Hf) as HIn. destruct (wf_if _ _ W f HIn) as [L1 L2].
  destruct (group_ok false I W (FIface k) (true, 0) (edgeFunctions (Ni k, Ni k - 1))
     [(fst (if1 f), side_ix (snd (if1 f)), c1icoef I k false); (fst (if2 f), side_ix (snd (if2 f)), c1icoef I k true)] thr25 row)
    as (ww & E & R & N).
  - intros g. cbn [parts]. rewrite Hf, <- !side_ix_piece. reflexivity.
  - reflexivity.
  - discriminate.
  - intros t [<-|[<-|[]]]; assumption.
  - cbn [mapM fst snd] in E.
    destruct (putPiece I thr25 row (fst (if1 f)) _ _) as [w1|]; [|discriminate]. cbn [bind] in E |- *.
    destruct (putPiece I thr25 row (fst (if2 f)) _ _) as [w2|]; [|discriminate]. cbn [bind] in E |- *.
    injection E as <-. cbn [concat] in R, N. rewrite app_nil_r in R, N.
    eexists. split; [reflexivity|]. rewrite <- edge_functions_map.
    rewrite <- (map_length (FIface k) (edgeFunctions (Ni k, Ni k - 1))). apply inv_app; [exact H| |].
    + rewrite map_length. exact R.
    + intros _. apply N. cbn [map fst]. constructor; [|constructor; [intros []|constructor]].
      intros [E|[]]. apply (aw_if I WA f HIn). destruct (if1 f) as [p1 s1], (if2 f) as [p2 s2]. cbn in E.
      injection E as -> E. f_equal. destruct s1, s2; try reflexivity; discriminate.
Qed.

Lemma putBoundary_ok k ps fns st : nth_error (tbd (c1topo I)) k = Some ps -> inv false I fns st ->
  exists st', putBoundary I st (k, ps) = Ok st' /\ inv false I (fns ++ edge_functions (FBoundary k) (Nb k) (Nb k - 1)) st'.
Proof.
  intros Hf H. destruct st as [row M]. unfold putBoundary. rewrite (proj1 (boundary_sizes k ps Hf)). cbn [bind].
  pose proof (nth_error_In _ _ Hf) as HIn. pose proof (wf_bd _ _ W ps HIn) as L1.
  destruct (group_ok false I W (FBoundary k) (true, 0) (edgeFunctions (Nb k, Nb k - 1))
     [(fst ps, side_ix (snd ps), c1bcoef I k)] thr20 row)
    as (ww & E & R & N).
  - intros g. cbn [parts]. rewrite Hf, <- !side_ix_piece. reflexivity.
  - reflexivity.
  - discriminate.
  - intros t [<-|[]]; assumption.
  - cbn [mapM fst snd] in E.
    destruct (putPiece I thr20 row (fst ps) _ _) as [w1|]; [|discriminate]. cbn [bind] in E |- *.
    injection E as <-. cbn [concat] in R, N. rewrite app_nil_r in R, N.
    eexists. split; [reflexivity|]. rewrite <- edge_functions_map.
    rewrite <- (map_length (FBoundary k) (edgeFunctions (Nb k, Nb k - 1))). apply inv_app; [exact H| |].
    + rewrite map_length. exact R.
    + intros _. apply N. cbn [map fst]. constructor; [intros []|constructor].
Qed.

Lemma combine_nodup_snd {A B} (g : A -> B) (l : list A) k :
  NoDup (map g l) -> NoDup (map (fun na : nat * A => g (snd na)) (combine (seq k (length l)) l)).
Proof.
  revert k. induction l as [|a l IH]; intros k H; [constructor|]. rewrite indexed_from. cbn [map snd] in *.
  inversion_clear H as [|? ? H1 H2]. constructor; [|now apply IH]. intros Hi. apply H1. apply in_map_iff in Hi.
  destruct Hi as ([n b] & E & Hi). apply in_combine_r in Hi. cbn in E. rewrite <- E. now apply in_map.
Qed.

Lemma putVertex_ok k l fns st : nth_error (c1verts I) k = Some l -> inv false I fns st ->
  exists st', putVertex I st (k, l) = Ok st' /\ inv false I (fns ++ map (FVertex k) (seq 0 6)) st'.
Proof.
  intros Hf H. destruct st as [row M]. unfold putVertex.
  pose proof (nth_error_In _ _ Hf) as HIn. destruct (wf_vt _ _ W l HIn) as [L0 L1].
  destruct (0 <? length l) eqn:E0; [|destruct l; [now elim L0|discriminate]]. cbn [ensure bind].
  destruct (group_ok false I W (FVertex k) 0 (seq 0 6)
     (map (fun nc : nat * pcorner => (fst (snd nc), corner_ix (snd (snd nc)) + 4, c1vcoef I k (fst nc))) (indexed l)) thr20 row)
    as (ww & E & R & N).
  - intros g. cbn [parts]. rewrite Hf, map_map. apply map_ext. intros nc. cbn [fst snd]. now rewrite corner_ix_piece.
  - reflexivity.
  - discriminate.
  - intros t Ht. apply in_map_iff in Ht. destruct Ht as ([n c] & <- & Hi). cbn. apply in_combine_r in Hi. now apply L1.
  - rewrite <- (mapM_map_ext (fun nc : nat * pcorner => putPiece I thr20 row (fst (snd nc)) (corner_ix (snd (snd nc)) + 4)
       (map (c1vcoef I k (fst nc)) (seq 0 6)))) in E by reflexivity.
    fold (indexed l). unfold pcorner in *. rewrite E. cbn [bind]. eexists. split; [reflexivity|].
    change 6 with (length (map (FVertex k) (seq 0 6))) at 2. apply inv_app; [exact H|exact R|].
    intros _. apply N. rewrite map_map. cbn [fst].
    apply (combine_nodup_snd (fun c : nat * corner => (fst c, corner_ix (snd c) + 4))).
    apply FinFun.Injective_map_NoDup; [|now apply (aw_vt I WA)].
    intros [p c] [p' c'] EE. cbn in EE. injection EE as -> EE. f_equal. destruct c, c'; try reflexivity; discriminate.
Qed.

Lemma approx_writes : exists M, c1writes I = Ok (length (all_functions I Ni Nb), M) /\
  inv false I (all_functions I Ni Nb) (length (all_functions I Ni Nb), M).
Proof.
  unfold c1writes. destruct (inner_ok false I W) as (row & M & E & H). rewrite E. cbn [bind fst snd].
  destruct (loop_ok false I (putIface I) (fun k => edge_functions (FIface k) (Ni k) (Ni k - 1)) (tif (c1topo I)) _ _ H) as (s2 & E2 & H2).
  { intros; now apply putIface_ok. }
  rewrite E2. cbn [bind].
  destruct (loop_ok false I (putBoundary I) (fun k => edge_functions (FBoundary k) (Nb k) (Nb k - 1)) (tbd (c1topo I)) _ _ H2) as (s3 & E3 & H3).
  { intros; now apply putBoundary_ok. }
  rewrite E3. cbn [bind].
  destruct (loop_ok false I (putVertex I) (fun k => map (FVertex k) (seq 0 6)) (c1verts I) _ _ H3) as (s4 & E4 & H4).
  { intros; now apply putVertex_ok. }
  rewrite <- !app_assoc in H4. fold (all_functions I Ni Nb) in H4. rewrite E4. destruct s4 as [n M4].
  assert (n = length (all_functions I Ni Nb)) by (apply H4). subst n. exists M4. split; [reflexivity|exact H4].
Qed.

Theorem approx_main : exists M,
  c1init I = Ok (Z.of_nat (length (all_functions I Ni Nb)), length (all_columns I)) /\
  c1compute I = Ok (length (all_functions I Ni Nb), M) /\
  inv false I (all_functions I Ni Nb) (length (all_functions I Ni Nb), M).
Proof.
  destruct approx_writes as (M & E & H). exists M. split; [apply approx_init|]. split; [|exact H].
  unfold c1compute. rewrite approx_init, E. cbn [bind fst snd]. destruct H as (_ & R & N). cbn [snd] in *.
  rewrite inserts_ok; [reflexivity|now apply N|].
  intros e He. apply R in He. cbn [fst snd]. lia.
Qed.

Theorem approx_content M : c1compute I = Ok (length (all_functions I Ni Nb), M) ->
  NoDup (map fst M) /\
  (forall e, In e M -> fst (fst e) < length (all_functions I Ni Nb) /\ snd (fst e) < length (all_columns I)) /\
  (forall r c F x, nth_error (all_functions I Ni Nb) r = Some F -> nth_error (all_columns I) c = Some x ->
     (mget M r c == coef_value false I F x)%Q).
Proof.
  intros E. destruct approx_main as (M' & _ & E' & _ & [V R] & N). rewrite E in E'. injection E' as <-. cbn [snd] in *.
  split; [now apply N|]. split; [intros e He; apply R in He; lia|].
  intros r c F x HF Hx. rewrite entry_sum_mget by (now apply N). rewrite V.
  assert (r < length (all_functions I Ni Nb)) by (apply nth_error_Some; congruence).
  destruct ((0 <=? r) && (r <? 0 + length (all_functions I Ni Nb))) eqn:E1; [|lia]. rewrite Hx, Nat.sub_0_r.
  apply nth_error_nth with (d := dfun) in HF. now rewrite HF.
Qed.

End Approx.

(* ------------------------------------------------------------------ *)
(** * gsC1SurfSpline *)

Lemma surfSizes_ok red b : 1 <= kvdeg b -> surfSizes red b = Ok (surf_dim red b, surf_dim red b - 1).
Proof.
  intros H. unfold surfSizes. destruct (0 <? kvdeg b) eqn:E; [|lia]. cbn [ensure bind].
  unfold kvsize. cbn [kvdeg kvin]. rewrite sum_reduceInner. unfold surf_dim, lowered. do 2 f_equal. lia.
Qed.

Section Surf.
Context (I : c1in) (Ni Nb : nat -> nat).
Hypothesis WS : surf_wf I.
Local Notation W := (sw_wf I WS).

Section Writes.
Hypothesis D : surf_dims 0 I Ni Nb.

Lemma surf_basis ps : fst ps < length (c1basis I) ->
  exists uv, nth_error (c1basis I) (fst ps) = Some uv /\ side_basis I ps (kcomp uv (along (snd ps))) /\
    1 <= kvdeg (kcomp uv (along (snd ps))).
Proof.
  intros H. destruct (nth_error (c1basis I) (fst ps)) as [uv|] eqn:E; [|apply nth_error_None in E; lia].
  exists uv. split; [reflexivity|]. split.
  - exists uv. split; [exact E|]. destruct (snd ps); reflexivity.
  - apply nth_error_In in E. destruct (wf_deg _ _ W uv E). now apply kcomp_deg.
Qed.

Lemma surf_iface_sizes k f : nth_error (tif (c1topo I)) k = Some f ->
  surfPlus I (interfaceOps true (side_ix (snd (if1 f)))) (if1 f) 1 = Ok (Ni k, Ni k - 1) /\
  surfPlus I (interfaceOps false (side_ix (snd (if2 f)))) (if2 f) 0 = Ok (Ni k, Ni k - 1) /\
  (exists uv, nth_error (c1basis I) (fst (if1 f)) = Some uv /\ surfSizes (c1red I) (kcomp uv (along (snd (if1 f)))) = Ok (Ni k, Ni k - 1)).
Proof.
  intros Hf. destruct D as [Di _]. destruct (Di k f Hf) as [_ EN].
  apply nth_error_In in Hf. destruct (wf_if _ _ W f Hf) as [L1 L2].
  destruct (surf_basis _ L1) as (u1 & E1 & S1 & D1). destruct (surf_basis _ L2) as (u2 & E2 & S2 & D2).
  pose proof (EN _ (or_introl S1)) as N1. pose proof (EN _ (or_intror S2)) as N2.
  unfold surfPlus, vget. rewrite (sw_geo I WS), E1, E2. cbn [bind].
  change (kcomp (rotAll rotBasis (interfaceOps true (side_ix (snd (if1 f)))) u1) 1) with (snd (rotAll rotBasis (interfaceOps true (side_ix (snd (if1 f)))) u1)).
  change (kcomp (rotAll rotBasis (interfaceOps false (side_ix (snd (if2 f)))) u2) 0) with (fst (rotAll rotBasis (interfaceOps false (side_ix (snd (if2 f)))) u2)).
  rewrite rot_if1, rot_if2. rewrite (surfSizes_ok _ _ D2), <- N2. split; [|split; [reflexivity|exists u1; split; [reflexivity|]]];
    now rewrite (surfSizes_ok _ _ D1), <- N1.
Qed.

Lemma surf_boundary_sizes k ps : nth_error (tbd (c1topo I)) k = Some ps ->
  surfPlus I (singleOps false (side_ix (snd ps))) ps 1 = Ok (Nb k, Nb k - 1) /\
  (exists uv, nth_error (c1basis I) (fst ps) = Some uv /\ surfSizes (c1red I) (kcomp uv (along (snd ps))) = Ok (Nb k, Nb k - 1)).
Proof.
  intros Hf. destruct D as [_ Db]. destruct (Db k ps Hf) as [_ EN].
  apply nth_error_In in Hf. pose proof (wf_bd _ _ W ps Hf) as L1.
  destruct (surf_basis _ L1) as (u1 & E1 & S1 & D1). pose proof (EN _ S1) as N1.
  unfold surfPlus, vget. rewrite (sw_geo I WS), E1. cbn [bind].
  change (kcomp (rotAll rotBasis (singleOps false (side_ix (snd ps))) u1) 1) with (snd (rotAll rotBasis (singleOps false (side_ix (snd ps))) u1)).
  rewrite rot_bd. split; [|exists u1; split; [reflexivity|]]; now rewrite (surfSizes_ok _ _ D1), <- N1.
Qed.

Lemma surfIface_ok k f fns st : nth_error (tif (c1topo I)) k = Some f -> inv true I fns st ->
  exists st', surfIface I st (k, f) = Ok st' /\ inv true I (fns ++ edge_functions (FIface k) (Ni k) (Ni k - 1)) st'.
Proof.
  intros Hf H. destruct st as [row M]. unfold surfIface.
  destruct (surf_iface_sizes k f Hf) as (Z1 & Z2 & _). rewrite Z1, Z2. cbn [bind].
  pose proof (nth_error_In _ _ Hf) as HIn. destruct (wf_if _ _ W f HIn) as [L1 L2].
  destruct (group_ok true I W (FIface k) (true, 0) (edgeFunctions (Ni k, Ni k - 1))
     [(fst (if1 f), 0, c1icoef I k false); (fst (if2 f), 0, c1icoef I k true)] thr25 row)
    as (ww & E & R & _).
  - intros g. cbn [parts]. rewrite Hf. reflexivity.
  - reflexivity.
  - discriminate.
  - intros t [<-|[<-|[]]]; assumption.
  - cbn [mapM fst snd] in E.
    destruct (putPiece I thr25 row (fst (if1 f)) _ _) as [w1|]; [|discriminate]. cbn [bind] in E |- *.
    destruct (putPiece I thr25 row (fst (if2 f)) _ _) as [w2|]; [|discriminate]. cbn [bind] in E |- *.
    injection E as <-. cbn [concat] in R. rewrite app_nil_r in R.
    eexists. split; [reflexivity|]. rewrite <- edge_functions_map.
    rewrite <- (map_length (FIface k) (edgeFunctions (Ni k, Ni k - 1))). apply inv_app; [exact H| |discriminate].
    rewrite map_length. exact R.
Qed.

Lemma surfBoundary_ok k ps fns st : nth_error (tbd (c1topo I)) k = Some ps -> inv true I fns st ->
  exists st', surfBoundary I st (k, ps) = Ok st' /\ inv true I (fns ++ edge_functions (FBoundary k) (Nb k) (Nb k - 1)) st'.
Proof.
  intros Hf H. destruct st as [row M]. unfold surfBoundary. rewrite (proj1 (surf_boundary_sizes k ps Hf)). cbn [bind].
  pose proof (nth_error_In _ _ Hf) as HIn. pose proof (wf_bd _ _ W ps HIn) as L1.
  destruct (group_ok true I W (FBoundary k) (true, 0) (edgeFunctions (Nb k, Nb k - 1))
     [(fst ps, 0, c1bcoef I k)] thr25 row) as (ww & E & R & _).
  - intros g. cbn [parts]. rewrite Hf. reflexivity.
  - reflexivity.
  - discriminate.
  - intros t [<-|[]]; assumption.
  - cbn [mapM fst snd] in E.
    destruct (putPiece I thr25 row (fst ps) _ _) as [w1|]; [|discriminate]. cbn [bind] in E |- *.
    injection E as <-. cbn [concat] in R. rewrite app_nil_r in R.
    eexists. split; [reflexivity|]. rewrite <- edge_functions_map.
    rewrite <- (map_length (FBoundary k) (edgeFunctions (Nb k, Nb k - 1))). apply inv_app; [exact H| |discriminate].
    rewrite map_length. exact R.
Qed.

Lemma surfVertex_ok k l fns st : nth_error (c1verts I) k = Some l -> inv true I fns st ->
  exists st', surfVertex I st (k, l) = Ok st' /\ inv true I (fns ++ map (FVertex k) (seq 0 6)) st'.
Proof.
  intros Hf H. destruct st as [row M]. unfold surfVertex.
  pose proof (nth_error_In _ _ Hf) as HIn. destruct (wf_vt _ _ W l HIn) as [L0 L1].
  destruct (group_ok true I W (FVertex k) 0 (seq 0 6)
     (map (fun nc : nat * pcorner => (fst (snd nc), 0, c1vcoef I k (fst nc))) (indexed l)) thr25 row)
    as (ww & E & R & _).
  - intros g. cbn [parts]. rewrite Hf, map_map. apply map_ext. reflexivity.
  - reflexivity.
  - discriminate.
  - intros t Ht. apply in_map_iff in Ht. destruct Ht as ([n c] & <- & Hi). cbn. apply in_combine_r in Hi. now apply L1.
  - rewrite <- (mapM_map_ext (fun nc : nat * pcorner => putPiece I thr25 row (fst (snd nc)) 0
       (map (c1vcoef I k (fst nc)) (seq 0 6)))) in E by reflexivity.
    fold (indexed l). unfold pcorner in *. rewrite E. cbn [bind]. eexists. split; [reflexivity|].
    change 6 with (length (map (FVertex k) (seq 0 6))) at 2. apply inv_app; [exact H|exact R|discriminate].
Qed.

Lemma surf_writes : exists M, surfWrites I = Ok (length (all_functions I Ni Nb), M) /\
  inv true I (all_functions I Ni Nb) (length (all_functions I Ni Nb), M).
Proof.
  unfold surfWrites. destruct (inner_ok true I W) as (row & M & E & H). rewrite E. cbn [bind fst snd].
  destruct (loop_ok true I (surfIface I) (fun k => edge_functions (FIface k) (Ni k) (Ni k - 1)) (tif (c1topo I)) _ _ H) as (s2 & E2 & H2).
  { intros; now apply surfIface_ok. }
  rewrite E2. cbn [bind].
  destruct (loop_ok true I (surfBoundary I) (fun k => edge_functions (FBoundary k) (Nb k) (Nb k - 1)) (tbd (c1topo I)) _ _ H2) as (s3 & E3 & H3).
  { intros; now apply surfBoundary_ok. }
  rewrite E3. cbn [bind].
  destruct (loop_ok true I (surfVertex I) (fun k => map (FVertex k) (seq 0 6)) (c1verts I) _ _ H3) as (s4 & E4 & H4).
  { intros; now apply surfVertex_ok. }
  rewrite <- !app_assoc in H4. fold (all_functions I Ni Nb) in H4. rewrite E4. destruct s4 as [n M4].
  assert (n = length (all_functions I Ni Nb)) by (apply H4). subst n. exists M4. split; [reflexivity|exact H4].
Qed.

(** Number of reserved rows: an edge whose plus space has n functions counts 2 n - 11. *)
Lemma surf_init :
  surfInit I = Ok ((Z.of_nat (sumN (map (fun b => (kvsize (fst b) - 4) * (kvsize (snd b) - 4))%nat (c1basis I))) +
     sumZ (map (fun k => 2 * Z.of_nat (Ni k) - 11 + Z.of_nat (1 - Ni k)%nat) (seq 0 (length (tif (c1topo I))))) +
     sumZ (map (fun k => 2 * Z.of_nat (Nb k) - 11 + Z.of_nat (1 - Nb k)%nat) (seq 0 (length (tbd (c1topo I))))) +
     Z.of_nat (6 * length (c1verts I))%nat)%Z, length (all_columns I)).
Proof.
  unfold surfInit.
  assert (EC : forallb (fun g => surfCheck (fst g) && surfCheck (snd g)) (c1geo I) = true).
  { apply forallb_forall. intros g Hg. rewrite (sw_geo I WS) in Hg. destruct (sw_six I WS g Hg) as [H1 H2].
    unfold surfCheck, kvsize in *. lia. }
  rewrite EC. cbn [ensure bind].
  assert (G : forall (f : pside -> res Z) (l : list pside) (N : nat -> nat),
    (forall k ps, nth_error l k = Some ps -> f ps = Ok (2 * Z.of_nat (N k) - 11 + Z.of_nat (1 - N k)%nat)%Z) ->
    exists v, mapM f l = Ok v /\ sumZ v = sumZ (map (fun k => 2 * Z.of_nat (N k) - 11 + Z.of_nat (1 - N k)%nat)%Z (seq 0 (length l)))).
  { intros f l N H. exists (map (fun a => match f a with Ok z => z | Err => 0%Z end) l). split.
    - apply mapM_ok. intros a Ha. apply In_nth_error in Ha. destruct Ha as (k & Ha). now rewrite (H k a Ha).
    - rewrite sumZ_indexed, <- indexed_fst, map_map. apply sumZ_ext. intros [k a] Hi. apply in_indexed in Hi. cbn [fst snd].
      now rewrite (H k a Hi). }
  match goal with |- context [mapM ?f (map if1 _)] => destruct (G f (map if1 (tif (c1topo I))) Ni) as (a & Ea & Sa) end.
  { intros k ps Hp. rewrite nth_error_map in Hp. destruct (nth_error (tif (c1topo I)) k) as [f|] eqn:Ef; [|discriminate].
    cbn in Hp. injection Hp as <-. destruct (surf_iface_sizes k f Ef) as (_ & _ & uv & Eu & Es).
    unfold vget. rewrite Eu. cbn [bind]. rewrite Es. cbn [bind fst snd]. f_equal. lia. }
  rewrite Ea. cbn [bind].
  match goal with |- context [mapM ?f (tbd _)] => destruct (G f (tbd (c1topo I)) Nb) as (b & Eb & Sb) end.
  { intros k ps Hp. destruct (surf_boundary_sizes k ps Hp) as (_ & uv & Eu & Es).
    unfold vget. rewrite Eu. cbn [bind]. rewrite Es. cbn [bind fst snd]. f_equal. lia. }
  rewrite Eb. cbn [bind].
  destruct (sizes_before true I W (length (c1basis I)) (Nat.le_refl _)) as (l & El & Sl). rewrite El. cbn [bind].
  rewrite Sa, Sb, Sl, columns_length, six_each, (inner_dofs true I W), map_length. reflexivity.
Qed.
End Writes.

Lemma dims_weaken n : surf_dims n I Ni Nb -> surf_dims 0 I Ni Nb.
Proof. intros [H1 H2]. split; intros k f Hf; [destruct (H1 k f Hf)|destruct (H2 k f Hf)]; split; auto; lia. Qed.

Theorem surf_main : surf_dims 6 I Ni Nb -> exists M,
  surfInit I = Ok (Z.of_nat (length (all_functions I Ni Nb)), length (all_columns I)) /\
  surfCompute I = Ok (length (all_functions I Ni Nb), M) /\
  inv true I (all_functions I Ni Nb) (length (all_functions I Ni Nb), M).
Proof.
  intros D6. pose proof (dims_weaken 6 D6) as D0. destruct (surf_writes D0) as (M & E & H).
  assert (EI : surfInit I = Ok (Z.of_nat (length (all_functions I Ni Nb)), length (all_columns I))).
  { rewrite (surf_init D0), functions_length. do 2 f_equal.
    destruct D6 as [H1 H2].
    assert (G : forall {A} (l : list A) (N : nat -> nat), (forall k a, nth_error l k = Some a -> 6 <= N k) ->
      sumZ (map (fun k => 2 * Z.of_nat (N k) - 11 + Z.of_nat (1 - N k)%nat)%Z (seq 0 (length l))) =
      Z.of_nat (sumN (map (fun k => (N k - 6) + (N k - 5))%nat (seq 0 (length l))))).
    { intros A l N HN. rewrite <- sumZ_of_nat. apply sumZ_ext. intros k Hk. apply in_seq in Hk.
      destruct (nth_error l k) as [a|] eqn:Ea; [|apply nth_error_None in Ea; lia]. specialize (HN k a Ea). lia. }
    rewrite (G _ (tif (c1topo I)) Ni), (G _ (tbd (c1topo I)) Nb); [lia| |].
    - intros k a Ha. apply (H2 k a Ha).
    - intros k a Ha. apply (H1 k a Ha). }
  exists M. split; [exact EI|]. split; [|exact H].
  unfold surfCompute. rewrite EI, E. cbn [bind fst snd].
  match goal with |- context [forallb ?f M] => assert (EF : forallb f M = true); [|rewrite EF; reflexivity] end. apply forallb_forall.
  intros e He. destruct H as (_ & R & _). cbn [snd] in R. apply R in He. lia.
Qed.

(** The reserved number is right only when every edge space has at least six functions. *)
Theorem surf_rows_iff : surf_dims 0 I Ni Nb ->
  exists rows, surfInit I = Ok (rows, length (all_columns I)) /\
    (rows <= Z.of_nat (length (all_functions I Ni Nb)))%Z /\
    (rows = Z.of_nat (length (all_functions I Ni Nb)) <-> surf_dims 6 I Ni Nb).
Proof.
  intros D0. eexists. split; [apply (surf_init D0)|]. rewrite functions_length.
  assert (G : forall {A} (l : list A) (N : nat -> nat), 
    (forall k a, nth_error l k = Some a -> 1 <= N k) ->
    (sumZ (map (fun k => 2 * Z.of_nat (N k) - 11 + Z.of_nat (1 - N k)%nat)%Z (seq 0 (length l))) <=
      Z.of_nat (sumN (map (fun k => (N k - 6) + (N k - 5))%nat (seq 0 (length l)))))%Z /\
    (sumZ (map (fun k => 2 * Z.of_nat (N k) - 11 + Z.of_nat (1 - N k)%nat)%Z (seq 0 (length l))) =
      Z.of_nat (sumN (map (fun k => (N k - 6) + (N k - 5))%nat (seq 0 (length l)))) <-> forall k, k < length l -> 6 <= N k)).
  { intros A l N HN.
    assert (H1 : forall k, In k (seq 0 (length l)) -> 1 <= N k).
    { intros k Hk. apply in_seq in Hk. destruct (nth_error l k) as [a|] eqn:Ea; [|apply nth_error_None in Ea; lia]. eauto. }
    assert (H2 : forall k, k < length l <-> In k (seq 0 (length l))) by (intros k; rewrite in_seq; lia).
    assert (H3 : (forall k, k < length l -> 6 <= N k) <-> (forall k, In k (seq 0 (length l)) -> 6 <= N k)).
    { split; intros H k Hk; apply H; now apply H2. }
    rewrite H3. revert H1. generalize (seq 0 (length l)). clear.
    enough (E : forall s, (forall k, In k s -> 1 <= N k) ->
      (sumZ (map (fun k => 2 * Z.of_nat (N k) - 11 + Z.of_nat (1 - N k)%nat)%Z s) <= Z.of_nat (sumN (map (fun k => (N k - 6) + (N k - 5))%nat s)))%Z /\
      (sumZ (map (fun k => 2 * Z.of_nat (N k) - 11 + Z.of_nat (1 - N k)%nat)%Z s) = Z.of_nat (sumN (map (fun k => (N k - 6) + (N k - 5))%nat s))
        <-> forall k, In k s -> 6 <= N k)).
    { exact E. }
    induction s as [|k s IH]; intros H1.
    - cbn. split; [lia|]. split; [intros _ k []|reflexivity].
    - destruct IH as [I1 I2]; [intros; apply H1; right; assumption|]. pose proof (H1 k (or_introl eq_refl)) as Hk.
      cbn [map sumZ sumN]. split; [lia|]. split.
      + intros E. destruct (le_lt_dec 6 (N k)) as [L|L].
        * intros k' [<-|Hk']; [exact L|]. apply I2; [lia|exact Hk'].
        * exfalso. lia.
      + intros H. assert (6 <= N k) by (apply H; left; reflexivity).
        assert (E : sumZ (map (fun k => 2 * Z.of_nat (N k) - 11 + Z.of_nat (1 - N k)%nat)%Z s) = Z.of_nat (sumN (map (fun k => (N k - 6) + (N k - 5))%nat s))).
        { apply I2. intros; apply H; right; assumption. }
        lia. }
  assert (P : forall (k : nat) ps (N : nat -> nat) b, side_basis I ps b -> N k = surf_dim (c1red I) b -> 1 <= N k).
  { intros k ps N b _ ->. unfold surf_dim. lia. }
  destruct D0 as [D1 D2].
  destruct (G _ (tif (c1topo I)) Ni) as [A1 A2].
  { intros k f Hf. destruct (D1 k f Hf) as [_ E]. destruct (surf_basis (if1 f)) as (uv & _ & S1 & _).
    - apply nth_error_In in Hf. now apply (wf_if _ _ W).
    - eapply P; [exact S1|]. apply E. now left. }
  destruct (G _ (tbd (c1topo I)) Nb) as [B1 B2].
  { intros k f Hf. destruct (D2 k f Hf) as [_ E]. destruct (surf_basis f) as (uv & _ & S1 & _).
    - apply nth_error_In in Hf. now apply (wf_bd _ _ W).
    - eapply P; [exact S1|]. now apply E. }
  split; [lia|]. split.
  - intros E. assert (EA := proj1 A2 ltac:(lia)). assert (EB := proj1 B2 ltac:(lia)). split.
    + intros k f Hf. split; [apply EA; apply nth_error_Some; congruence|]. apply (D1 k f Hf).
    + intros k f Hf. split; [apply EB; apply nth_error_Some; congruence|]. apply (D2 k f Hf).
  - intros [C1 C2].
    assert (EA := proj2 A2). assert (EB := proj2 B2). rewrite EA, EB; [lia| |].
    + intros k Hk. destruct (nth_error (tbd (c1topo I)) k) as [a|] eqn:Ea; [|apply nth_error_None in Ea; lia]. now apply (C2 k a).
    + intros k Hk. destruct (nth_error (tif (c1topo I)) k) as [a|] eqn:Ea; [|apply nth_error_None in Ea; lia]. now apply (C1 k a).
Qed.

Theorem surf_content M : surf_dims 6 I Ni Nb -> surfCompute I = Ok (length (all_functions I Ni Nb), M) ->
  (forall e, In e M -> fst (fst e) < length (all_functions I Ni Nb) /\ snd (fst e) < length (all_columns I)) /\
  (forall r c F x, nth_error (all_functions I Ni Nb) r = Some F -> nth_error (all_columns I) c = Some x ->
     (entry_sum M r c == coef_value true I F x)%Q).
Proof.
  intros D6 E. destruct (surf_main D6) as (M' & _ & E' & _ & [V R] & N). rewrite E in E'. injection E' as <-. cbn [snd] in *.
  split; [intros e He; apply R in He; lia|].
  intros r c F x HF Hx. rewrite V.
  assert (r < length (all_functions I Ni Nb)) by (apply nth_error_Some; congruence).
  destruct ((0 <=? r) && (r <? 0 + length (all_functions I Ni Nb))) eqn:E1; [|lia]. rewrite Hx, Nat.sub_0_r.
  apply nth_error_nth with (d := dfun) in HF. now rewrite HF.
Qed.

End Surf.

(* ------------------------------------------------------------------ *)
(** * Statements of the properties *)

Theorem approx_rows : forall I Ni Nb, approx_wf I -> approx_dims I Ni Nb ->
  c1init I = Ok (Z.of_nat (length (all_functions I Ni Nb)), length (all_columns I)) /\
  exists M, c1compute I = Ok (length (all_functions I Ni Nb), M).
Proof. intros I Ni Nb H1 H2. destruct (approx_main I Ni Nb H1 H2) as (M & E1 & E2 & _). eauto. Qed.

Theorem approx_coefficients : forall I Ni Nb M, approx_wf I -> approx_dims I Ni Nb ->
  c1compute I = Ok (length (all_functions I Ni Nb), M) ->
  NoDup (map fst M) /\
  (forall e, In e M -> fst (fst e) < length (all_functions I Ni Nb) /\ snd (fst e) < length (all_columns I)) /\
  (forall r c F x, nth_error (all_functions I Ni Nb) r = Some F -> nth_error (all_columns I) c = Some x ->
     (mget M r c == coef_value false I F x)%Q).
Proof. intros I Ni Nb M H1 H2. now apply approx_content. Qed.

Theorem surf_rows : forall I Ni Nb, surf_wf I -> surf_dims 6 I Ni Nb ->
  surfInit I = Ok (Z.of_nat (length (all_functions I Ni Nb)), length (all_columns I)) /\
  exists M, surfCompute I = Ok (length (all_functions I Ni Nb), M).
Proof. intros I Ni Nb H1 H2. destruct (surf_main I Ni Nb H1 H2) as (M & E1 & E2 & _). eauto. Qed.

Theorem surf_coefficients : forall I Ni Nb M, surf_wf I -> surf_dims 6 I Ni Nb ->
  surfCompute I = Ok (length (all_functions I Ni Nb), M) ->
  (forall e, In e M -> fst (fst e) < length (all_functions I Ni Nb) /\ snd (fst e) < length (all_columns I)) /\
  (forall r c F x, nth_error (all_functions I Ni Nb) r = Some F -> nth_error (all_columns I) c = Some x ->
     (entry_sum M r c == coef_value true I F x)%Q).
Proof. intros I Ni Nb M H1 H2. now apply surf_content. Qed.

Lemma flat_map_nodup {A B C} (f : A -> list B) (key : B -> C) (g : A -> C) l :
  (forall a, In a l -> NoDup (f a)) -> (forall a b, In a l -> In b (f a) -> key b = g a) -> NoDup (map g l) -> NoDup (flat_map f l).
Proof.
  induction l as [|a l IH]; intros H1 H2 H3; [constructor|]. cbn [flat_map map] in *. inversion_clear H3 as [|? ? N1 N2].
  apply NoDup_app_iff. split; [apply H1; left; reflexivity|]. split.
  - apply IH; auto; intros; [apply H1|apply H2]; try right; assumption.
  - intros x I1 I2. apply in_flat_map in I2. destruct I2 as (a' & I2 & I3).
    apply H2 in I1; [|left; reflexivity]. apply H2 in I3; [|right; assumption]. apply N1.
    rewrite <- I1, I3. now apply in_map.
Qed.

Theorem columns_nodup : forall I, NoDup (all_columns I).
Proof.
  intros I. rewrite all_columns_eq. apply (flat_map_nodup _ (fun x => fst (fst x)) fst).
  - intros pb _. unfold patch_columns. apply (flat_map_nodup _ (fun x => snd (fst x)) fst).
    + intros qn _. apply FinFun.Injective_map_NoDup; [|apply seq_NoDup]. intros a b E. congruence.
    + intros qn x _ Hx. apply in_map_iff in Hx. destruct Hx as (j & <- & _). reflexivity.
    + rewrite indexed_fst. apply seq_NoDup.
  - intros pb [[p q] j] _ Hx. now apply in_patch_columns in Hx.
  - rewrite indexed_fst. apply seq_NoDup.
Qed.
