(** Proofs about the choice of the combinations. *)
From Coq Require Import Reals Lra.
From Verif Require Import Common TopoModel ListLemmas SurfGDSpec ReparamModel ReparamSpec KernModel KernSpec KernProofs KernProofs2 ReparamProofs ReparamProofs2 ReparamProofs3 BSysModel BSysSpec BSysProofs.
Open Scope nat_scope.

(** Columns which agree. *)
Definition eq6 (K L : list (nat -> R)) : Prop := Forall2 (fun a b => forall i, i < 6 -> a i = b i) K L.

Lemma eq6_len : forall K L, eq6 K L -> length K = length L.
Proof. intros K L H. induction H; cbn; congruence. Qed.
Lemma eq6_col : forall K L, eq6 K L -> forall j i, i < 6 -> column_at K j i = column_at L j i.
Proof. intros K L H. unfold column_at. induction H as [|a b K L E H IH]; intros j i Li; [reflexivity|]. destruct j; cbn; [apply E; exact Li|apply IH; exact Li]. Qed.
Lemma eq6_sym : forall K L, eq6 K L -> eq6 L K.
Proof. intros K L H. induction H; constructor; [intros; symmetry; auto|assumption]. Qed.
Lemma eq6_dep : forall K L, eq6 K L -> dependent K -> dependent L.
Proof. intros K L H (c & N & E). exists c. rewrite <- (eq6_len _ _ H). split; [exact N|]. intros i Li. rewrite <- (E i Li). apply sumTo_ext. intros j _. rewrite (eq6_col _ _ H j i Li). reflexivity. Qed.
Lemma eq6_comb : forall K L v, eq6 K L -> combination K v -> combination L v.
Proof. intros K L v H (c & E). exists c. rewrite <- (eq6_len _ _ H). intros i Li. rewrite (E i Li). apply sumTo_ext. intros j _. rewrite (eq6_col _ _ H j i Li). reflexivity. Qed.

Lemma check_eq6 : forall eps K, (0 <= eps)%R -> clean eps K -> eq6 (checkValues eps K) K.
Proof. intros eps K He C. unfold checkValues, eq6. induction K as [|c K IH]; [constructor|]. constructor.
  - intros i Li. cbv beta. destruct (Rlt_dec _ _) as [L|L]; [|reflexivity]. destruct (C c i (or_introl eq_refl) Li) as [E|E]; [symmetry; exact E|]. exfalso. rewrite Rabs_mult in L.
    pose proof (Rmult_le_compat eps (Rabs (c i)) eps (Rabs (c i)) He He E E). lra.
  - apply IH. intros d i I. apply C. right. exact I. Qed.

(** Spans. *)
Lemma comb_in : forall K j, j < length K -> combination K (column_at K j).
Proof. intros K j L. exists (fun i => if i =? j then 1%R else 0%R). intros i Li. rewrite (sumTo_single _ _ j L).
  - rewrite Nat.eqb_refl. ring.
  - intros k _ N. rewrite (proj2 (Nat.eqb_neq _ _) N). ring. Qed.

Lemma choose_coefs : forall (L : list (nat -> R)) n (f : nat -> nat -> R), (forall j, j < n -> combination L (f j)) -> exists a : nat -> nat -> R, forall j i, j < n -> i < 6 -> f j i = sumTo (length L) (fun k => (a j k * column_at L k i)%R).
Proof. intros L. induction n as [|n IH]; intros f H; [exists (fun _ _ => 0%R); intros; lia|]. destruct (IH f) as (a & A); [intros; apply H; lia|]. destruct (H n ltac:(lia)) as (b & B).
  exists (fun j k => if j =? n then b k else a j k). intros j i Lj Li. destruct (Nat.eqb_spec j n) as [->|N]; [apply B; exact Li|apply A; [lia|exact Li]]. Qed.

Lemma comb_trans : forall K L v, (forall j, j < length K -> combination L (column_at K j)) -> combination K v -> combination L v.
Proof. intros K L v H (c & E). destruct (choose_coefs L (length K) (column_at K) H) as (a & A). exists (fun k => sumTo (length K) (fun j => (c j * a j k)%R)). intros i Li. rewrite (E i Li).
  rewrite (sumTo_ext _ _ (fun j => sumTo (length L) (fun k => (c j * (a j k * column_at L k i))%R))) by (intros j Lj; rewrite (A j i Lj Li), <- sumTo_scal; reflexivity).
  rewrite sumTo_swap. apply sumTo_ext. intros k _. rewrite (Rmult_comm (sumTo _ _)), <- sumTo_scal. apply sumTo_ext. intros; ring. Qed.

Lemma indep_le : forall K L, ~ dependent K -> (forall j, j < length K -> combination L (column_at K j)) -> length K <= length L.
Proof. intros K L ND H. destruct (le_lt_dec (length K) (length L)) as [G|G]; [exact G|exfalso]. apply ND.
  destruct (choose_coefs L (length K) (column_at K) H) as (a & A).
  destruct (homogeneous (length K) (map (fun k j => a j k) (seq 0 (length L)))) as (c & N & E); [rewrite map_length, seq_length; exact G|].
  exists c. split; [exact N|]. intros i Li.
  rewrite (sumTo_ext _ _ (fun j => sumTo (length L) (fun k => (c j * (a j k * column_at L k i))%R))) by (intros j Lj; rewrite (A j i Lj Li), <- sumTo_scal; reflexivity).
  rewrite sumTo_swap. apply sumTo_0. intros k Lk. rewrite (sumTo_ext _ _ (fun j => (column_at L k i * (a j k * c j))%R)) by (intros; ring). rewrite sumTo_scal.
  rewrite (E (fun j => a j k)); [ring|]. apply (in_map (fun k j => a j k)). apply in_seq. lia. Qed.

Lemma col_snoc : forall K v j, j < length (K ++ [v]) -> (j < length K /\ forall i, column_at (K ++ [v]) j i = column_at K j i) \/ (j = length K /\ forall i, column_at (K ++ [v]) j i = v i).
Proof. intros K v j L. rewrite app_length in L. cbn in L. destruct (Nat.eq_dec j (length K)) as [->|N]; [right; split; [reflexivity|intros i; apply column_new]|left; split; [lia|intros i; apply column_old; lia]]. Qed.

Lemma comb_ext : forall K v w, (forall i, i < 6 -> v i = w i) -> combination K v -> combination K w.
Proof. intros K v w E (c & H). exists c. intros i Li. rewrite <- E by exact Li. apply H. exact Li. Qed.

Lemma vget_lt6 : forall (l : list (nat -> R)) i, i < length l -> vget l i = Ok (column_at l i).
Proof. intros l i L. unfold vget, column_at. rewrite (nth_error_nth' l (fun _ => 0%R) L). reflexivity. Qed.

Section Sel.
Variable dep : list (nat -> R) -> bool.
Hypothesis DS : forall K, dep K = true <-> dependent K.

Lemma addSmall_ok : forall small V, ~ dependent V -> (forall j, j < length V -> combination small (column_at V j)) -> ~ dependent small ->
  exists V', addSmallKer dep V small (length small) = Ok V' /\ ~ dependent V' /\ length V' = length small /\ (exists rest, V' = V ++ rest) /\ forall v, combination V' v <-> combination small v.
Proof. intros small V NV SV NS. unfold addSmallKer.
  destruct (foldM_seq (fun n V' => ~ dependent V' /\ (forall j, j < length V' -> combination small (column_at V' j)) /\ (exists rest, V' = V ++ rest) /\ forall j, j < n -> combination V' (column_at small j))
    (fun V i => do c <- vget small i; let V' := V ++ [c] in Ok (if dep V' then V else V')) (length small) 0 V) as (V' & E & (N' & S' & R' & C')).
  - split; [exact NV|]. split; [exact SV|]. split; [exists []; symmetry; apply app_nil_r|]. intros; lia.
  - intros i W [_ L] (NW & SW & (rest & ->) & CW). rewrite vget_lt6 by exact L. cbn [bind]. destruct (dep ((V ++ rest) ++ [column_at small i])) eqn:D.
    + eexists. split; [reflexivity|]. split; [exact NW|]. split; [exact SW|]. split; [exists rest; reflexivity|]. intros j Lj. destruct (Nat.eq_dec j i) as [->|N]; [apply (dependent_spans _ _ NW); apply DS; exact D|apply CW; lia].
    + eexists. split; [reflexivity|]. split; [intros X; apply DS in X; congruence|]. split.
      * intros j Lj. destruct (col_snoc _ _ _ Lj) as [[Lj' Ej]|[-> Ej]]; (eapply comb_ext; [intros k _; symmetry; apply Ej|]); [apply SW; exact Lj'|apply comb_in; exact L].
      * split; [exists (rest ++ [column_at small i]); symmetry; apply app_assoc|]. intros j Lj. destruct (Nat.eq_dec j i) as [->|N]; [apply spans_last|apply spans_more; apply CW; lia].
  - cbn [Nat.add] in C'. exists V'. split; [exact E|]. split; [exact N'|]. split.
    + apply Nat.le_antisymm; apply indep_le; assumption.
    + split; [exact R'|]. intros v. split; apply comb_trans; assumption. Qed.

Lemma firstn_app_exact {A} : forall (K r : list A), firstn (length K) (K ++ r) = K.
Proof. intros K r. rewrite firstn_app, Nat.sub_diag, firstn_all. cbn. apply app_nil_r. Qed.

Lemma select_pf : forall eps big small bigDim smallDim, (0 <= eps)%R ->
  (bigDim = 0 \/ length big = bigDim /\ ~ dependent big /\ clean eps big) -> (smallDim = 0 \/ length small = smallDim /\ ~ dependent small /\ clean eps small) ->
  (bigDim <> 0 -> smallDim <> 0 /\ forall j, j < bigDim -> combination small (column_at big j)) ->
  exists K n, selectBasis dep eps big bigDim small smallDim = Ok (K, [Z.of_nat bigDim; (Z.of_nat smallDim - Z.of_nat bigDim)%Z; n]) /\ length K = 6 /\ ~ dependent K /\ bigDim <= smallDim /\
    (forall j i, j < bigDim -> i < 6 -> column_at K j i = column_at big j i) /\ (smallDim <> 0 -> forall v, combination (firstn smallDim K) v <-> combination small v).
Proof. intros eps big small bigDim smallDim He HB HS Hsub. unfold selectBasis.
  destruct (Nat.eqb_spec bigDim 0) as [B0|B0]; cbn [negb].
  - subst bigDim. destruct (Nat.eqb_spec smallDim 0) as [S0|S0]; cbn [negb].
    + subst smallDim. cbn [bind]. eexists. eexists. split; [reflexivity|]. split; [reflexivity|]. split; [exact units_independent|]. split; [lia|]. split; [intros; lia|congruence].
    + destruct HS as [HS|(LS & NS & CS)]; [congruence|]. pose proof (check_eq6 eps small He CS) as Q.
      destruct (complete_ok dep DS 7 (checkValues eps small) 0 eq_refl) as (K & -> & LK & NK & (rest & ->)); [intro X; apply NS; exact (eq6_dep _ _ Q X)|intros; lia|].
      cbn [bind]. eexists. eexists. split; [reflexivity|]. split; [exact LK|]. split; [exact NK|]. split; [lia|]. split; [intros; lia|]. intros _ v. rewrite <- LS, <- (eq6_len _ _ Q), firstn_app_exact.
      split; apply eq6_comb; [exact Q|apply eq6_sym; exact Q].
  - destruct HB as [HB|(LB & NB & CB)]; [congruence|]. destruct (Hsub B0) as [S0 Sub]. destruct HS as [HS|(LS & NS & CS)]; [congruence|].
    pose proof (check_eq6 eps small He CS) as Q. pose proof (check_eq6 eps big He CB) as Q'.
    destruct (addSmall_ok (checkValues eps small) (checkValues eps big)) as (V & EV & NV & LV & (rest & RV) & CV).
    + intro X. apply NB. exact (eq6_dep _ _ Q' X).
    + intros j Lj. rewrite (eq6_len _ _ Q'), LB in Lj. apply (eq6_comb small); [apply eq6_sym; exact Q|]. apply (comb_ext small (column_at big j)); [intros i Li; symmetry; apply (eq6_col _ _ Q'); exact Li|]. apply Sub. exact Lj.
    + intro X. apply NS. exact (eq6_dep _ _ Q X).
    + rewrite (eq6_len _ _ Q), LS in EV, LV. rewrite EV. cbn [bind].
      destruct (complete_ok dep DS 7 V 0 eq_refl NV) as (K & -> & LK & NK & (rest' & EK)); [intros; lia|]. cbn [bind].
      eexists. eexists. split; [reflexivity|]. split; [exact LK|]. split; [exact NK|].
      assert (LE : bigDim <= smallDim). { rewrite <- LV, RV, app_length, (eq6_len _ _ Q'), LB. lia. }
      split; [exact LE|]. split.
      * intros j i Lj Li. rewrite EK. unfold column_at. rewrite app_nth1 by lia. rewrite RV. rewrite app_nth1 by (rewrite (eq6_len _ _ Q'); lia). apply (eq6_col _ _ Q'). exact Li.
      * intros _ v. rewrite EK. replace smallDim with (length V) by exact LV. rewrite firstn_app_exact, CV. split; apply eq6_comb; [exact Q|apply eq6_sym; exact Q]. Qed.
End Sel.

(** The functions at a corner of the boundary. *)
Lemma kernel_congr : forall M v w, (forall i, i < 6 -> v i = w i) -> in_kernel M v -> in_kernel M w.
Proof. intros M v w E H r L. rewrite <- (H r L). apply sumTo_ext. intros j Lj. rewrite (E j Lj). reflexivity. Qed.

Lemma corner_pf : forall dep eps p B S big small, (forall K, dep K = true <-> dependent K) -> (0 <= eps)%R -> 2 <= vdu p -> 2 <= vdv p -> bigSystem p = Ok B -> smallSystem p = Ok S ->
  kernel_basis B big -> kernel_basis S small -> clean eps big -> clean eps small ->
  exists K n, selectBasis dep eps big (length big) small (length small) = Ok (K, [Z.of_nat (length big); (Z.of_nat (length small) - Z.of_nat (length big))%Z; n]) /\ length K = 6 /\ ~ dependent K /\
    length big <= length small /\
    (forall j, j < length big -> zero_on p (column_at K j) (fun u v => u < 2 \/ v < 2)) /\ (forall j, j < length small -> zero_on p (column_at K j) (fun u v => u = 0 \/ v = 0)) /\
    (forall x, zero_on p x (fun u v => u = 0 \/ v = 0) -> combination (firstn (length small) K) x).
Proof. intros dep eps p B S big small DS He Lu Lv EB ES [NB KB] [NS KS] CB CS.
  destruct (both_pf p Lu Lv) as (B' & S' & EB' & ES' & _ & _ & KB' & KS'). rewrite EB in EB'. injection EB' as <-. rewrite ES in ES'. injection ES' as <-.
  assert (Sub : forall j, j < length big -> combination small (column_at big j)).
  { intros j Lj. apply KS. apply KS'. intros u v Hu Hv Suv. assert (X : in_kernel B (column_at big j)) by (apply KB; apply comb_in; exact Lj). apply KB' in X. apply X; [exact Hu|exact Hv|lia]. }
  pose proof (indep_le _ _ NB Sub) as LE.
  destruct (select_pf dep DS eps big small (length big) (length small) He) as (K & n & E & LK & NK & _ & CK & SK).
  - right. auto.
  - right. auto.
  - intros X. split; [lia|exact Sub].
  - exists K, n. split; [exact E|]. split; [exact LK|]. split; [exact NK|]. split; [exact LE|].
    assert (Z : forall j, j < length small -> zero_on p (column_at K j) (fun u v => u = 0 \/ v = 0)).
    { intros j Lj. apply KS'. apply KS. apply SK; [lia|]. assert (L6 : length (firstn (length small) K) = length small).
      { rewrite firstn_length, LK. apply Nat.min_l. destruct (le_lt_dec (length small) 6) as [G|G]; [exact G|]. exfalso. apply NS, too_many. exact G. }
      pose proof (comb_in (firstn (length small) K) j ltac:(lia)) as X. eapply comb_ext; [|exact X]. intros i _. unfold column_at. rewrite <- (firstn_skipn (length small) K) at 2. rewrite app_nth1 by lia. reflexivity. }
    split; [|split; [exact Z|]].
    + intros j Lj. apply KB'. apply (kernel_congr B (column_at big j)); [intros i Li; symmetry; apply CK; assumption|]. apply KB. apply comb_in. exact Lj.
    + intros x X. destruct (Nat.eq_dec (length small) 0) as [L0|L0].
      * apply KS' in X. apply KS in X. rewrite L0. cbn [firstn]. destruct X as (c & X). exists c. rewrite L0 in X. exact X.
      * apply SK; [exact L0|]. apply KS. apply KS'. exact X. Qed.

(** The flags. *)
Section Flags.
Context {A : Type}.

Ltac close s0 s1 r0 r1 T := do 4 eexists; exists s0, s1, r0, r1; split; [reflexivity|]; split; [reflexivity|]; cbn [geo1];
  split; [split; [cbn [side_count]; lia|intros k Lk; cbn [side_count on_side_at] in *; T]|]; split; [split; [cbn [side_count]; lia|intros k Lk; cbn [side_count on_side_at] in *; T]|];
  split; [reflexivity|]; split; [reflexivity|]; split; [discriminate|]; split; reflexivity.

Lemma flags_pf : forall (p : patch A) ng c isB, full p -> nonempty p ->
  exists a v f0 f1 s0 s1 r0 r1, reparametrizeG1Vertex (corner_ix c) (newAux1 p ng) = Ok (a, v) /\ bdyFlags isB (corner_ix c) ng = Ok [f0; f1] /\
    carries (geo1 a) South p s0 r0 /\ carries (geo1 a) West p s1 r1 /\ on_side c s0 = true /\ on_side c s1 = true /\ s0 <> s1 /\ f0 = isB s0 /\ f1 = isB s1.
Proof. intros p ng c isB Hf [N1 N2]. unfold reparametrizeG1Vertex. change (neg1 (newAux1 p ng)) with ng.
  destruct ng; simpl orientOps.
  - unfold run_1 at 1. cbn [foldM]. unfold run1_1 at 1. change (geo1 (newAux1 p true)) with p.
    destruct (swap_ok basK p basK_size Hf) as (b & Eb & Fb & Kb & S1 & S2 & At). rewrite Eb. cbn [bind].
    pose proof (fun o => op_patch_ok basK o b basK_size Fb) as OP.
    destruct c; cbn [corner_ix Nat.eqb].
    + match goal with |- context [run_1 [] ?x] => change (run_1 [] x) with (Ok x) end. cbn [bind]. close West South false false ltac:(rewrite At; reflexivity).
    + unfold run_1; cbn [foldM]; unfold run1_1; cbn [geo1]. destruct (OP OClock) as (q & Eq & Fq & Kq & Sq & Aq). rewrite Eq. cbn [bind]. simpl in Sq. injection Sq as T1 T2.
      close South East true false ltac:(rewrite Aq by lia; cbn [from fst snd]; rewrite At; f_equal; lia).
    + unfold run_1; cbn [foldM]; unfold run1_1; cbn [geo1]. destruct (OP OAnti) as (q & Eq & Fq & Kq & Sq & Aq). rewrite Eq. cbn [bind]. simpl in Sq. injection Sq as T1 T2.
      close North West false true ltac:(rewrite Aq by lia; cbn [from fst snd]; rewrite At; f_equal; lia).
    + unfold run_1; cbn [foldM]; unfold run1_1; cbn [geo1]. destruct (OP OTwice) as (q & Eq & Fq & Kq & Sq & Aq). rewrite Eq. cbn [bind]. simpl in Sq. injection Sq as T1 T2.
      close East North true true ltac:(rewrite Aq by lia; cbn [from fst snd]; rewrite At; f_equal; lia).
  - change (run_1 [] (newAux1 p false)) with (Ok (newAux1 p false)). cbn [bind].
    pose proof (fun o => op_patch_ok basK o p basK_size Hf) as OP.
    destruct c; cbn [corner_ix Nat.eqb].
    + change (run_1 [] (newAux1 p false)) with (Ok (mkAux1 p false 0%Z false)). cbn [bind]. close South West false false ltac:(reflexivity).
    + unfold run_1; cbn [foldM]; unfold run1_1; cbn [geo1 newAux1]. destruct (OP OAnti) as (q & Eq & Fq & Kq & Sq & Aq). rewrite Eq. cbn [bind]. simpl in Sq. injection Sq as T1 T2.
      close East South false true ltac:(rewrite Aq by lia; cbn [from fst snd]; f_equal; lia).
    + unfold run_1; cbn [foldM]; unfold run1_1; cbn [geo1 newAux1]. destruct (OP OClock) as (q & Eq & Fq & Kq & Sq & Aq). rewrite Eq. cbn [bind]. simpl in Sq. injection Sq as T1 T2.
      close West North true false ltac:(rewrite Aq by lia; cbn [from fst snd]; f_equal; lia).
    + unfold run_1; cbn [foldM]; unfold run1_1; cbn [geo1 newAux1]. destruct (OP OTwice) as (q & Eq & Fq & Kq & Sq & Aq). rewrite Eq. cbn [bind]. simpl in Sq. injection Sq as T1 T2.
      close North East true true ltac:(rewrite Aq by lia; cbn [from fst snd]; f_equal; lia).
Qed.
End Flags.
