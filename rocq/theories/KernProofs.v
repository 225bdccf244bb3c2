(** Proofs for C61: the columns. *)
From Coq Require Import Reals Lra.
From Verif Require Import Common SplineModel SplineSpec SurfGDSpec KernModel KernSpec.
Open Scope R_scope.

(** ** Sums *)
Lemma sumTo_ext n f g : (forall i, (i < n)%nat -> f i = g i) -> sumTo n f = sumTo n g.
Proof. induction n as [|n IH]; intros H; cbn; [reflexivity|]. rewrite IH, H by (intros; try apply H; lia). reflexivity. Qed.
Lemma sumTo_0 n f : (forall i, (i < n)%nat -> f i = 0) -> sumTo n f = 0.
Proof. induction n as [|n IH]; intros H; cbn; [reflexivity|]. rewrite IH, H by (intros; try apply H; lia). lra. Qed.
Lemma sumTo_add n f g : sumTo n (fun i => f i + g i) = sumTo n f + sumTo n g.
Proof. induction n as [|n IH]; cbn; [lra|]. rewrite IH. lra. Qed.
Lemma sumTo_scal n a f : sumTo n (fun i => a * f i) = a * sumTo n f.
Proof. induction n as [|n IH]; cbn; [ring|]. rewrite IH. ring. Qed.
Lemma sumTo_swap n m f : sumTo n (fun i => sumTo m (fun j => f i j)) = sumTo m (fun j => sumTo n (fun i => f i j)).
Proof.
  induction n as [|n IH]; cbn [sumTo].
  - symmetry. apply sumTo_0. reflexivity.
  - rewrite IH, <- sumTo_add. apply sumTo_ext. reflexivity.
Qed.
Lemma sumTo_single n f k : (k < n)%nat -> (forall i, (i < n)%nat -> i <> k -> f i = 0) -> sumTo n f = f k.
Proof.
  induction n as [|n IH]; intros L H; [lia|]. cbn. destruct (Nat.eq_dec k n) as [->|NE].
  - rewrite sumTo_0; [lra|]. intros i Li. apply H; lia.
  - rewrite IH by (try lia; intros; apply H; lia). rewrite (H n) by lia. lra.
Qed.

(** ** Fewer equations than unknowns *)
Lemma pick (m : nat) (rows : list (nat -> R)) : (forall q, In q rows -> q m = 0) \/ exists q, In q rows /\ q m <> 0.
Proof.
  induction rows as [|q rows [IH|(r & I & N)]]; [left; intros q []| |right; exists r; split; [right|]; assumption].
  destruct (Req_EM_T (q m) 0) as [E|N]; [left; intros r [<-|I]; [exact E|apply IH, I]|right; exists q; split; [left; reflexivity|exact N]].
Qed.
Lemma homogeneous : forall m rows, (length rows < m)%nat -> exists c : nat -> R, (exists j, (j < m)%nat /\ c j <> 0) /\ forall q, In q rows -> sumTo m (fun j => q j * c j) = 0.
Proof.
  induction m as [|m IH]; intros rows L; [lia|]. destruct (pick m rows) as [Z|(q & I & N)].
  - exists (fun j => if (j =? m)%nat then 1 else 0). split; [exists m; split; [lia|rewrite Nat.eqb_refl; lra]|].
    intros q I. cbn. rewrite sumTo_0, (Z q I); [lra|]. intros i Li. replace (i =? m)%nat with false by (symmetry; apply Nat.eqb_neq; lia). ring.
  - destruct (in_split q rows I) as (l1 & l2 & ->). set (red := fun (r : nat -> R) j => r j - r m / q m * q j).
    destruct (IH (map red (l1 ++ l2))) as (c & (j & Lj & Nj) & E). { rewrite map_length, app_length in *. cbn in L. lia. }
    set (x := - sumTo m (fun j => q j * c j) / q m). exists (fun j => if (j =? m)%nat then x else c j). split.
    + exists j. split; [lia|]. replace (j =? m)%nat with false by (symmetry; apply Nat.eqb_neq; lia). exact Nj.
    + assert (S : forall r, sumTo m (fun j => r j * (if (j =? m)%nat then x else c j)) = sumTo m (fun j => r j * c j)).
      { intros r. apply sumTo_ext. intros i Li. replace (i =? m)%nat with false by (symmetry; apply Nat.eqb_neq; lia). reflexivity. }
      assert (Q : sumTo m (fun j => q j * c j) + q m * x = 0) by (unfold x; field; exact N).
      intros r R. cbn. rewrite S, Nat.eqb_refl. apply in_app_or in R. cbn in R.
      assert (D : r = q \/ In r (l1 ++ l2)) by (rewrite in_app_iff; destruct R as [R|[R|R]]; auto). destruct D as [->|D]; [exact Q|].
      specialize (E (red r) (in_map red _ r D)). unfold red in E.
      replace (sumTo m (fun j => (r j - r m / q m * q j) * c j)) with (sumTo m (fun j => r j * c j) + - (r m / q m) * sumTo m (fun j => q j * c j)) in E.
      * replace (r m * x) with (- (r m / q m) * sumTo m (fun j => q j * c j)) by (unfold x; field; exact N). exact E.
      * rewrite <- sumTo_scal, <- sumTo_add. apply sumTo_ext. intros i _. ring.
Qed.

(** ** Columns *)
Definition spans (K : list (nat -> R)) (v : nat -> R) : Prop := exists c, forall i, (i < 6)%nat -> v i = sumTo (length K) (fun j => c j * column_at K j i).
Lemma column_old K v j i : (j < length K)%nat -> column_at (K ++ [v]) j i = column_at K j i.
Proof. intros L. unfold column_at. rewrite app_nth1 by exact L. reflexivity. Qed.
Lemma column_new K v i : column_at (K ++ [v]) (length K) i = v i.
Proof. unfold column_at. rewrite app_nth2 by lia. rewrite Nat.sub_diag. reflexivity. Qed.
Lemma sum_snoc K v (c : nat -> R) i : sumTo (length (K ++ [v])) (fun j => c j * column_at (K ++ [v]) j i) = sumTo (length K) (fun j => c j * column_at K j i) + c (length K) * v i.
Proof. rewrite app_length. cbn [length]. rewrite Nat.add_1_r. cbn [sumTo]. rewrite column_new. f_equal. apply sumTo_ext. intros j L. rewrite column_old by exact L. reflexivity. Qed.

Lemma too_many K : (6 < length K)%nat -> dependent K.
Proof.
  intros L. destruct (homogeneous (length K) (map (fun i j => column_at K j i) (seq 0 6))) as (c & N & E); [rewrite map_length, seq_length; exact L|].
  exists c. split; [exact N|]. intros i Li. specialize (E (fun j => column_at K j i)). rewrite <- E.
  - apply sumTo_ext. intros j _. ring.
  - apply (in_map (fun i j => column_at K j i)). apply in_seq. lia.
Qed.
Lemma dependent_spans K v : ~ dependent K -> dependent (K ++ [v]) -> spans K v.
Proof.
  intros ND (c & (j & Lj & Nj) & E). destruct (Req_EM_T (c (length K)) 0) as [Z|NZ].
  - exfalso. apply ND. exists c. rewrite app_length in Lj. cbn in Lj. split.
    + exists j. split; [|exact Nj]. destruct (Nat.eq_dec j (length K)) as [->|]; [contradiction|lia].
    + intros i Li. specialize (E i Li). rewrite sum_snoc, Z in E. lra.
  - exists (fun j => - / c (length K) * c j). intros i Li. specialize (E i Li). rewrite sum_snoc in E.
    rewrite (sumTo_ext _ _ (fun j => - / c (length K) * (c j * column_at K j i))) by (intros; ring). rewrite sumTo_scal. apply (Rmult_eq_reg_l (c (length K))); [|exact NZ]. replace (c (length K) * (- / c (length K) * _)) with (- sumTo (length K) (fun j => c j * column_at K j i)) by (field; exact NZ). lra.
Qed.
Lemma spans_more K v w : spans K v -> spans (K ++ [w]) v.
Proof.
  intros (c & E). exists (fun j => if (j =? length K)%nat then 0 else c j). intros i Li. rewrite sum_snoc, Nat.eqb_refl, (E i Li). rewrite Rmult_0_l, Rplus_0_r. apply sumTo_ext. intros j L. replace (j =? length K)%nat with false by (symmetry; apply Nat.eqb_neq; lia). reflexivity.
Qed.
Lemma spans_last K v : spans (K ++ [v]) v.
Proof.
  exists (fun j => if (j =? length K)%nat then 1 else 0). intros i Li. rewrite sum_snoc, Nat.eqb_refl. rewrite sumTo_0; [ring|]. intros j L. replace (j =? length K)%nat with false by (symmetry; apply Nat.eqb_neq; lia). ring.
Qed.

Lemma unit_span_full K : (forall c, (c < 6)%nat -> spans K (unitVec c)) -> (6 <= length K)%nat.
Proof.
  intros H. destruct (le_lt_dec 6 (length K)) as [L|L]; [exact L|exfalso].
  assert (A : exists a, forall c, (c < 6)%nat -> forall i, (i < 6)%nat -> unitVec c i = sumTo (length K) (fun j => a c j * column_at K j i)).
  { clear L. assert (G : forall n, (n <= 6)%nat -> exists a, forall c, (c < n)%nat -> forall i, (i < 6)%nat -> unitVec c i = sumTo (length K) (fun j => a c j * column_at K j i)).
    { induction n as [|n IH]; intros Ln; [exists (fun _ _ => 0); intros; lia|]. destruct (IH ltac:(lia)) as (a & A). destruct (H n ltac:(lia)) as (b & B). exists (fun c j => if (c =? n)%nat then b j else a c j).
      intros c Lc i Li. destruct (Nat.eqb_spec c n) as [->|NE]; [apply B; exact Li|apply A; lia]. }
    apply G. lia. }
  destruct A as (a & A). destruct (homogeneous 6 (map (fun j c => a c j) (seq 0 (length K)))) as (x & (k & Lk & Nk) & E); [rewrite map_length, seq_length; exact L|].
  apply Nk. assert (S : sumTo 6 (fun c => x c * unitVec c k) = 0).
  { rewrite (sumTo_ext _ _ (fun c => sumTo (length K) (fun j => x c * (a c j * column_at K j k)))) by (intros c Lc; rewrite (A c Lc k Lk), <- sumTo_scal; reflexivity).
    rewrite sumTo_swap. apply sumTo_0. intros j Lj. rewrite (sumTo_ext _ _ (fun c => column_at K j k * (a c j * x c))) by (intros; ring). rewrite sumTo_scal. specialize (E (fun c => a c j)). rewrite E; [ring|]. apply (in_map (fun j c => a c j)). apply in_seq. lia. }
  rewrite (sumTo_single 6 _ k Lk) in S; [|intros i _ NE; unfold unitVec; destruct (Nat.eqb_spec k i); [congruence|ring]]. unfold unitVec in S. rewrite Nat.eqb_refl in S. lra.
Qed.

Lemma complete_ok dep : (forall K, dep K = true <-> dependent K) -> forall fuel K count, (count + fuel = 7)%nat -> ~ dependent K -> (forall c, (c < count)%nat -> spans K (unitVec c)) ->
  exists K', complete dep K count fuel = Ok K' /\ length K' = 6%nat /\ ~ dependent K' /\ exists rest, K' = K ++ rest.
Proof.
  intros DS. induction fuel as [|fuel IH]; intros K count C ND SP.
  - assert (6 <= length K)%nat by (apply unit_span_full; intros c Lc; apply SP; lia). cbn [complete]. replace (length K <? 6)%nat with false by (symmetry; apply Nat.ltb_ge; lia).
    exists K. split; [reflexivity|]. split; [|split; [exact ND|exists []; symmetry; apply app_nil_r]]. destruct (le_lt_dec (length K) 6); [lia|]. exfalso. apply ND, too_many. lia.
  - cbn [complete]. destruct (Nat.ltb_spec (length K) 6) as [L|L].
    + assert (Lc : (count < 6)%nat). { destruct (le_lt_dec 6 count) as [G|G]; [|exact G]. assert (6 <= length K)%nat by (apply unit_span_full; intros c Lc; apply SP; lia). lia. }
      replace (count <? 6)%nat with true by (symmetry; apply Nat.ltb_lt; lia). destruct (dep (K ++ [unitVec count])) eqn:D.
      * apply IH; [lia|exact ND|]. intros c Lc'. destruct (Nat.eq_dec c count) as [->|]; [apply dependent_spans; [exact ND|apply DS; exact D]|apply SP; lia].
      * destruct (IH (K ++ [unitVec count]) (S count) ltac:(lia)) as (K' & E & L' & N' & (rest & R)).
        -- intros B. apply DS in B. congruence.
        -- intros c Lc'. destruct (Nat.eq_dec c count) as [->|]; [apply spans_last|apply spans_more, SP; lia].
        -- exists K'. split; [exact E|]. split; [exact L'|]. split; [exact N'|]. exists (unitVec count :: rest). rewrite R, <- app_assoc. reflexivity.
    + exists K. split; [reflexivity|]. split; [|split; [exact ND|exists []; symmetry; apply app_nil_r]]. destruct (le_lt_dec (length K) 6); [lia|]. exfalso. apply ND, too_many. lia.
Qed.

Lemma units_independent : ~ dependent (map unitVec (seq 0 6)).
Proof.
  intros (c & (j & Lj & Nj) & E). cbn [map seq length] in Lj. apply Nj. specialize (E j Lj). cbn [map seq length sumTo column_at nth] in E. unfold column_at in E. cbn [nth] in E. unfold unitVec in E.
  do 6 (destruct j as [|j]; [cbn in E; lra|]). lia.
Qed.
Theorem columns_pf : forall dep dofs ker, (forall K, dep K = true <-> dependent K) -> ~ dependent ker ->
  exists K, kernelColumns dep dofs ker = Ok K /\ length K = 6%nat /\ ~ dependent K /\ ((0 < dofs)%nat -> exists rest, K = ker ++ rest) /\ (dofs = 0%nat -> K = map unitVec (seq 0 6)).
Proof.
  intros dep dofs ker DS ND. unfold kernelColumns. destruct (Nat.ltb_spec 0 dofs) as [P|P].
  - destruct (complete_ok dep DS 7 ker 0 eq_refl ND) as (K & E & L & N & R); [intros; lia|]. exists K. split; [exact E|]. split; [exact L|]. split; [exact N|]. split; [auto|lia].
  - exists (map unitVec (seq 0 6)). split; [reflexivity|]. split; [reflexivity|]. split; [exact units_independent|]. split; [lia|reflexivity].
Qed.

(** ** The combined functions *)
Lemma combined_comb p K j : (j < length K)%nat -> exists g, combined p K j = Ok g /\ forall k, g k = comb p (column_at K j) k.
Proof.
  intros L. unfold combined, vget. destruct (nth_error K j) as [col|] eqn:E; [|apply nth_error_None in E; lia]. cbn [bind]. eexists. split; [reflexivity|]. intros k.
  unfold comb, column_at. rewrite (nth_error_nth K j (fun _ => 0) E). cbn. ring.
Qed.
Theorem span_pf : forall K, length K = 6%nat -> ~ dependent K ->
  exists l : nat -> nat -> R, forall p, exists g : nat -> nat -> R, (forall j, (j < 6)%nat -> combined p K j = Ok (g j)) /\
    (forall j k, (j < 6)%nat -> g j k = comb p (column_at K j) k) /\
    forall i k, (i < 6)%nat -> vcoef p i k = sumTo 6 (fun j => l i j * g j k).
Proof.
  intros K L ND.
  assert (SP : forall v, spans K v). { intros v. apply dependent_spans; [exact ND|]. apply too_many. rewrite app_length, L. cbn. lia. }
  assert (A : exists l, forall c, (c < 6)%nat -> forall i, (i < 6)%nat -> unitVec c i = sumTo 6 (fun j => l c j * column_at K j i)).
  { assert (G : forall n, exists a, forall c, (c < n)%nat -> forall i, (i < 6)%nat -> unitVec c i = sumTo 6 (fun j => a c j * column_at K j i)).
    { induction n as [|n (a & A)]; [exists (fun _ _ => 0); intros; lia|]. destruct (SP (unitVec n)) as (b & B). exists (fun c j => if (c =? n)%nat then b j else a c j).
      intros c Lc i Li. destruct (Nat.eqb_spec c n) as [->|NE]; [rewrite (B i Li), L; reflexivity|apply A; lia]. }
    apply G. }
  destruct A as (l & A). exists l. intros p. exists (fun j => comb p (column_at K j)). split; [|split].
  - intros j Lj. unfold combined, vget. destruct (nth_error K j) as [col|] eqn:E; [|apply nth_error_None in E; lia]. cbn [bind]. f_equal.
    unfold comb, column_at. rewrite (nth_error_nth K j (fun _ => 0) E). apply FunctionalExtensionality.functional_extensionality. intros k. cbn. reflexivity.
  - reflexivity.
  - intros i k Li. unfold comb. rewrite (sumTo_ext _ _ (fun j => sumTo 6 (fun m => vcoef p m k * (l i j * column_at K j m)))) by (intros j _; rewrite <- sumTo_scal; apply sumTo_ext; intros; ring).
    rewrite sumTo_swap. rewrite (sumTo_ext _ _ (fun m => vcoef p m k * unitVec i m)) by (intros m Lm; rewrite (A i Li m Lm), sumTo_scal; reflexivity).
    rewrite (sumTo_single 6 _ i Li); [unfold unitVec; rewrite Nat.eqb_refl; ring|]. intros m _ NE. unfold unitVec. destruct (Nat.eqb_spec m i); [congruence|ring].
Qed.
