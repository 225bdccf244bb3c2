(** Examples for C61: a test for dependent columns, and two patches along a straight boundary. *)
From Coq Require Import Reals Lra ZifyBool.
From Verif Require Import Common SplineModel SplineSpec SurfGDSpec KernModel KernSpec KernProofs KernProofs2 KernProofs3.
Open Scope R_scope.

(** ** A test by elimination *)
Definition nonzero (m : nat) (q : nat -> R) : bool := if Req_EM_T (q m) 0 then false else true.
Fixpoint depRows (m : nat) (rows : list (nat -> R)) : bool :=
  match m with
  | O => false
  | S m => match find (nonzero m) rows with None => true | Some q => depRows m (map (fun r j => r j - r m / q m * q j) rows) end
  end.
Definition depb (K : list (nat -> R)) : bool := depRows (length K) (map (fun i j => column_at K j i) (seq 0 6)).

Lemma depRows_ok : forall m rows, depRows m rows = true <-> exists c : nat -> R, (exists j, (j < m)%nat /\ c j <> 0) /\ forall q, In q rows -> sumTo m (fun j => q j * c j) = 0.
Proof.
  induction m as [|m IH]; intros rows; cbn [depRows].
  - split; [discriminate|]. intros (c & (j & L & _) & _). lia.
  - destruct (find (nonzero m) rows) as [q|] eqn:F.
    + apply find_some in F. destruct F as (I & N). unfold nonzero in N. destruct (Req_EM_T (q m) 0) as [|NZ]; [discriminate|]. clear N. rewrite IH.
      assert (RED : forall c r, sumTo m (fun j => (r j - r m / q m * q j) * c j) = sumTo m (fun j => r j * c j) + - (r m / q m) * sumTo m (fun j => q j * c j)).
      { intros c r. rewrite <- sumTo_scal, <- sumTo_add. apply sumTo_ext. intros i _. ring. }
      split.
      * intros (c & (j & L & NC) & E). set (x := - sumTo m (fun j => q j * c j) / q m). exists (fun j => if (j =? m)%nat then x else c j).
        split; [exists j; split; [lia|]; replace (j =? m)%nat with false by lia; exact NC|]. intros r R. cbn [sumTo]. rewrite Nat.eqb_refl.
        rewrite (sumTo_ext m _ (fun j => r j * c j)) by (intros i Li; replace (i =? m)%nat with false by lia; reflexivity).
        specialize (E _ (in_map (fun r j => r j - r m / q m * q j) rows r R)). cbv beta in E. rewrite RED in E. etransitivity; [|exact E]. unfold x. field. exact NZ.
      * intros (c & (j & L & NC) & E). exists c. split.
        -- destruct (Nat.eq_dec j m) as [->|NE]; [|exists j; split; [lia|exact NC]]. specialize (E q I). cbn [sumTo] in E.
           assert (X : (exists i, (i < m)%nat /\ c i <> 0) \/ forall i, (i < m)%nat -> c i = 0).
           { clear. induction m as [|m [(i & L & N)|H]]; [right; lia|left; exists i; split; [lia|exact N]|]. destruct (Req_EM_T (c m) 0) as [Z|Z]; [right; intros i L; destruct (Nat.eq_dec i m) as [->|]; [exact Z|apply H; lia]|left; exists m; split; [lia|exact Z]]. }
           destruct X as [X|X]; [exact X|]. exfalso. rewrite sumTo_0 in E by (intros i L'; rewrite X by exact L'; ring). rewrite Rplus_0_l in E. apply Rmult_integral in E. tauto.
        -- intros r' R. apply in_map_iff in R. destruct R as (r & <- & R). rewrite RED. pose proof (E r R) as E1. pose proof (E q I) as E2. cbn [sumTo] in E1, E2.
           replace (sumTo m (fun j0 => r j0 * c j0)) with (- (r m * c m)) by lra. replace (sumTo m (fun j0 => q j0 * c j0)) with (- (q m * c m)) by lra. field. exact NZ.
    + split; [|reflexivity]. intros _. exists (fun j => if (j =? m)%nat then 1 else 0). split; [exists m; split; [lia|rewrite Nat.eqb_refl; lra]|].
      intros q I. assert (Z : q m = 0). { pose proof (find_none _ _ F q I) as N. unfold nonzero in N. destruct (Req_EM_T (q m) 0); [assumption|discriminate]. }
      cbn [sumTo]. rewrite Z, sumTo_0; [ring|]. intros i L. replace (i =? m)%nat with false by lia. ring.
Qed.
Lemma depb_ok K : depb K = true <-> dependent K.
Proof.
  unfold depb, dependent. rewrite depRows_ok. split; intros (c & N & E); exists c; (split; [exact N|]).
  - intros i L. specialize (E _ (in_map (fun i j => column_at K j i) _ i (proj2 (in_seq 6 0 i) ltac:(lia)))). cbv beta in E. etransitivity; [|exact E]. apply sumTo_ext. intros j _. ring.
  - intros q I. apply in_map_iff in I. destruct I as (i & <- & I). apply in_seq in I. etransitivity; [|apply (E i); lia]. apply sumTo_ext. intros j _. ring.
Qed.

(** ** Two patches above the axis y = 0; the functions 1, x, y, x^2, xy, y^2 *)
Definition rightOf : vpatch := mkVP 3 3 (fun j k => if (k =? nth j [0; 1; 3; 2; 4; 6] 9)%nat then 1 else 0) false true.
Definition leftOf : vpatch := mkVP 3 3 (fun j k => if (k =? nth j [0; 3; 1; 6; 4; 2] 9)%nat then nth j [1; -1; 1; 1; -1; 1] 0 else 0) true false.
Definition halfPlane : list vpatch := [rightOf; leftOf].
Definition quad3 : sbasis := mkSB [0; 0; 0; 1; 1; 1] 2.

Lemma half_meets x : (forall p, In p halfPlane -> meets false p x) <-> forall j, (j < 5)%nat -> x j = 0.
Proof.
  split.
  - intros H. destruct (H rightOf (or_introl eq_refl)) as (A & _). specialize (A eq_refl).
    destruct (A 0%nat ltac:(cbn; lia)) as (A0 & A3). destruct (A 1%nat ltac:(cbn; lia)) as (A1 & A4). destruct (A 2%nat ltac:(cbn; lia)) as (A2 & _). specialize (A3 eq_refl). specialize (A4 eq_refl).
    unfold comb in *. cbn in A0, A1, A2, A3, A4. intros j L. destruct j as [|[|[|[|[|j]]]]]; [lra|lra|lra|lra|lra|lia].
  - intros Z p I. assert (Z0 := Z 0%nat ltac:(lia)). assert (Z1 := Z 1%nat ltac:(lia)). assert (Z2 := Z 2%nat ltac:(lia)). assert (Z3 := Z 3%nat ltac:(lia)). assert (Z4 := Z 4%nat ltac:(lia)).
    destruct I as [<-|[<-|[]]]; (split; [|split]); try discriminate; intros _ i L; cbn [vdu vdv rightOf leftOf] in L;
      destruct i as [|[|[|i]]]; try lia; unfold comb; cbn; rewrite Z0, Z1, Z2, Z3, Z4; split; intros; ring.
Qed.
Theorem kern_example_pf : (forall K, depb K = true <-> dependent K) /\ (forall p, In p halfPlane -> (2 <= vdu p)%nat /\ (2 <= vdv p)%nat) /\ open_basis quad3 3 /\
  ~ dependent [unitVec 5] /\ (exists M, coefsCorner false halfPlane = Ok M /\ (forall x, in_kernel M x <-> forall j, (j < 5)%nat -> x j = 0) /\ Forall (in_kernel M) [unitVec 5]) /\
  (exists K, kernelColumns depb (dofsCorner false 0 (detPlanar (1, 0) (-1, 0))) [unitVec 5] = Ok K /\ length K = 6%nat) /\
  (exists c, combined rightOf [unitVec 5] 0 = Ok c /\ c 6%nat = 1 /\ exists f, tensor_spline quad3 quad3 3 3 c f).
Proof.
  assert (SZ : forall p, In p halfPlane -> (2 <= vdu p)%nat /\ (2 <= vdv p)%nat) by (intros p I; repeat (destruct I as [<-|I]; [cbn; lia|]); destruct I).
  assert (ND : ~ dependent [unitVec 5]).
  { intros (c & (j & L & N) & E). cbn in L. replace j with 0%nat in N by lia. specialize (E 5%nat ltac:(lia)). cbn in E. lra. }
  split; [exact depb_ok|]. split; [exact SZ|]. split; [|split; [exact ND|split; [|split]]].
  - split; [cbn; lia|]. split; [|split].
    + intros i j x y L X Y. destruct i as [|[|[|[|[|[|i]]]]]]; cbn in X; try (destruct i; discriminate X); destruct j as [|[|[|[|[|[|j]]]]]]; cbn in Y; try (destruct j; discriminate Y); try lia; injection X as <-; injection Y as <-; lra.
    + intros i L. cbn in L. destruct i as [|[|[|i]]]; [reflexivity|reflexivity|reflexivity|lia].
    + exists 1. split; [reflexivity|lra].
  - destruct (matrix_pf false halfPlane SZ (or_introl eq_refl)) as (M & E & H). exists M. split; [exact E|].
    assert (HK : forall x, in_kernel M x <-> forall j, (j < 5)%nat -> x j = 0) by (intros x; rewrite H; apply half_meets). split; [exact HK|].
    constructor; [|constructor]. apply HK. intros j L. unfold unitVec. replace (j =? 5)%nat with false by lia. reflexivity.
  - destruct (columns_pf depb (dofsCorner false 0 (detPlanar (1, 0) (-1, 0))) [unitVec 5] depb_ok ND) as (K & E & L & _). exists K. auto.
  - destruct (combined_comb rightOf [unitVec 5] 0 ltac:(cbn; lia)) as (c & E & C). exists c. split; [exact E|]. split; [rewrite C; unfold comb; cbn; ring|].
    exists (fun uv => sumTo 3 (fun j => sumTo 3 (fun i => c (i + j * 3)%nat * ((match evalSingle quad3 i (fst uv) with Ok y => y | Err => 0 end) * (match evalSingle quad3 j (snd uv) with Ok y => y | Err => 0 end))))).
    exists (fun i x => match evalSingle quad3 i x with Ok y => y | Err => 0 end), (fun i x => match evalSingle quad3 i x with Ok y => y | Err => 0 end). split; [|split; [|reflexivity]].
    + intros i x L. destruct i as [|[|[|i]]]; [reflexivity|reflexivity|reflexivity|lia].
    + intros i x L. destruct i as [|[|[|i]]]; [reflexivity|reflexivity|reflexivity|lia].
Qed.
