(** Proofs for C62: regularity at the inner knots of the geometry, and what fails. *)
From Coq Require Import Reals Qreals Lra ZifyBool Sorted.
From Verif Require Import Common BaseModel ReparamModel C1Model SpaceModel SpaceSpec PolyProofs SpaceProofs SpaceProofs3.
Open Scope Z_scope.

Lemma remap_knots f l : knots_ok l -> (forall xm, In xm l -> (0 < f (snd xm))%nat) -> knots_ok (remap f l).
Proof.
  intros (S & P) F. split.
  - revert S. clear. induction l as [|(x & m) l IH]; intros S; [constructor|]. inversion S as [|? ? S1 S2]; subst. cbn. constructor; [exact (IH S1)|]. rewrite Forall_forall in *. intros a I. apply in_map_iff in I. destruct I as (b & <- & I). exact (S2 b I).
  - apply Forall_forall. intros a I. apply in_map_iff in I. destruct I as (b & <- & I). exact (F b I).
Qed.

Theorem geometry_pf : forall redn geo b, reduces redn -> knots_ok (kvin b) -> first_least b -> knots_ok (kvin geo) -> (1 <= kvdeg b)%nat -> (forall x, (0 < mult (kvin geo) x)%nat -> (0 < mult (kvin b) x)%nat) ->
  let lowered x := (mult (kvin b) x - (if (multAfterEnd b =? 1)%nat then 0 else 1))%nat in
  let rgeo x := Z.of_nat (kvdeg geo) - Z.of_nat (mult (kvin geo) x) in
  (exists plus, createPlusSpace (redn 1%nat) geo b = Ok plus /\ knots_ok (kvin plus) /\ kvdeg plus = kvdeg b /\
    forall x, mult (kvin plus) x = if (0 <? mult (kvin geo) x)%nat then Z.to_nat (Z.of_nat (kvdeg plus) - rgeo x) else lowered x) /\
  (exists minus, createMinusSpace (redn 1%nat) geo b = Ok minus /\ knots_ok (kvin minus) /\ kvdeg minus = (kvdeg b - 1)%nat /\
    forall x, mult (kvin minus) x = if (0 <? mult (kvin geo) x)%nat then (if (rgeo x =? 1) && (lowered x =? kvdeg minus)%nat then (kvdeg minus - 1)%nat else Z.to_nat (Z.of_nat (kvdeg minus) - (rgeo x - 1))) else lowered x) /\
  (forall pt rt gd, gluingSpace geo b pt rt = Ok gd -> knots_ok (kvin gd) /\
    forall x, mult (kvin gd) x = if (0 <? mult (kvin geo) x)%nat then Z.to_nat (Z.of_nat (kvdeg gd) - (if rgeo x =? 1 then 1 else rgeo x - 1))
      else if (0 <? mult (kvin b) x)%nat then Z.to_nat (Z.of_nat (kvdeg gd) - (if rt =? -1 then Z.of_nat (kvdeg gd) - 1 else rt)) else 0%nat) /\
  (forall k, knots_ok (kvin k) -> (forall x, (0 < mult (kvin geo) x)%nat -> (0 < mult (kvin k) x)%nat) -> exists k', geoCheck geo k = Ok k' /\ knots_ok (kvin k') /\ kvdeg k' = kvdeg k /\
    forall x, mult (kvin k') x = if (0 <? mult (kvin geo) x)%nat then Z.to_nat (Z.of_nat (kvdeg k) - rgeo x) else mult (kvin k) x).
Proof.
  intros redn geo b RD KO FL KG P1 SUB lowered rgeo. set (d := if (multAfterEnd b =? 1)%nat then 0%nat else 1%nat) in *.
  assert (KL : knots_ok (remap (fun m => m - d)%nat (kvin b))).
  { apply remap_knots; [exact KO|]. intros xm I. assert (N : kvin b <> []) by (intros N; rewrite N in I; destruct I). destruct (all_least b KO FL N) as (A & _). rewrite Forall_forall in A. specialize (A xm I). pose proof (d_le b KO FL N) as DL. fold d in DL. lia. }
  assert (ML : forall x, mult (remap (fun m => m - d)%nat (kvin b)) x = lowered x).
  { intros x. rewrite mult_remap by apply KO. unfold lowered. destruct (Nat.eqb_spec (mult (kvin b) x) 0) as [->|N]; reflexivity. }
  assert (SL : forall x, (0 < mult (kvin geo) x)%nat -> (0 < mult (remap (fun m => m - d)%nat (kvin b)) x)%nat).
  { intros x G. specialize (SUB x G). rewrite ML. unfold lowered. assert (N : kvin b <> []) by (intros N; rewrite N in SUB; cbn in SUB; lia). destruct (all_least b KO FL N) as (A & _). pose proof (mult_least _ _ x A SUB) as L. pose proof (d_le b KO FL N) as DL. fold d in DL. lia. }
  split; [|split; [|split]].
  - unfold createPlusSpace. rewrite (inner_eq redn RD b KO FL). fold d.
    destruct (fold_steps (geoStep false (kvdeg geo) (kvdeg b)) (target false (kvdeg geo) (kvdeg b)) (fun l x mg K M => geoStep_ok false (kvdeg geo) (kvdeg b) l x mg K M) (kvin geo) _ KG KL SL) as (l' & E & K' & M'). rewrite E. cbn [bind]. eexists. split; [reflexivity|]. cbn [kvin kvdeg]. split; [exact K'|]. split; [reflexivity|].
    intros x. rewrite M', ML. unfold target, rgeo. cbn [andb]. rewrite Z.sub_0_r. reflexivity.
  - unfold createMinusSpace. rewrite (inner_eq redn RD b KO FL). fold d. replace (0 <? kvdeg b)%nat with true by lia. cbn [ensure bind].
    destruct (fold_steps (geoStep true (kvdeg geo) (kvdeg b - 1)) (target true (kvdeg geo) (kvdeg b - 1)) (fun l x mg K M => geoStep_ok true (kvdeg geo) (kvdeg b - 1) l x mg K M) (kvin geo) _ KG KL SL) as (l' & E & K' & M'). rewrite E. cbn [bind]. eexists. split; [reflexivity|]. cbn [kvin kvdeg]. split; [exact K'|]. split; [reflexivity|].
    intros x. rewrite M', ML. unfold target. cbn [andb]. fold (rgeo x). destruct (0 <? mult (kvin geo) x)%nat; [|reflexivity].
    replace ((Z.of_nat (kvdeg b - 1) - Z.of_nat (lowered x) =? 0) && (rgeo x - 1 =? 0)) with ((rgeo x =? 1) && (lowered x =? kvdeg b - 1)%nat) by lia. destruct ((rgeo x =? 1) && (lowered x =? kvdeg b - 1)%nat) eqn:E1; [|reflexivity]. replace (lowered x) with (kvdeg b - 1)%nat by lia. reflexivity.
  - intros pt rt gd. unfold gluingSpace. set (p := if pt =? -1 then _ else pt). set (r := if rt =? -1 then _ else rt). destruct (0 <=? p) eqn:P0; [|discriminate]. destruct (r <? p) eqn:PR; [|discriminate]. cbn [andb ensure bind].
    change (map (fun xm => (fst xm, Z.to_nat (p - r))) (kvin b)) with (remap (fun _ => Z.to_nat (p - r)) (kvin b)).
    assert (KR : knots_ok (remap (fun _ => Z.to_nat (p - r)) (kvin b))) by (apply remap_knots; [exact KO|intros; lia]).
    assert (MR : forall x, mult (remap (fun _ => Z.to_nat (p - r)) (kvin b)) x = if (0 <? mult (kvin b) x)%nat then Z.to_nat (p - r) else 0%nat) by (intros x; rewrite mult_remap by apply KO; destruct (Nat.eqb_spec (mult (kvin b) x) 0) as [->|N]; [reflexivity|]; replace (0 <? mult (kvin b) x)%nat with true by lia; reflexivity).
    assert (SR : forall x, (0 < mult (kvin geo) x)%nat -> (0 < mult (remap (fun _ => Z.to_nat (p - r)) (kvin b)) x)%nat) by (intros x G; specialize (SUB x G); rewrite MR; replace (0 <? mult (kvin b) x)%nat with true by lia; lia).
    destruct (fold_steps (gluingStep (kvdeg geo) r) (fun mg m => let r0 := Z.of_nat (kvdeg geo) - Z.of_nat mg - 1 in Z.to_nat (Z.of_nat m + r - (if r0 =? 0 then 1 else r0))) (fun l x mg K M => gluingStep_ok (kvdeg geo) r l x mg K M) (kvin geo) _ KG KR SR) as (l' & E & K' & M').
    rewrite E. cbn [bind]. intros H. injection H as <-. cbn [kvin kvdeg]. split; [exact K'|]. intros x. rewrite M', MR. fold (rgeo x). replace (Z.of_nat (Z.to_nat p)) with p by lia. fold r.
    destruct (Nat.ltb_spec 0 (mult (kvin geo) x)) as [G|G]; [|reflexivity]. specialize (SUB x G). replace (0 <? mult (kvin b) x)%nat with true by lia. cbv zeta. replace (rgeo x - 1 =? 0) with (rgeo x =? 1) by lia. destruct (rgeo x =? 1); lia.
  - intros k KK SK. unfold geoCheck. destruct (fold_steps (geoStep false (kvdeg geo) (kvdeg k)) (target false (kvdeg geo) (kvdeg k)) (fun l x mg K M => geoStep_ok false (kvdeg geo) (kvdeg k) l x mg K M) (kvin geo) _ KG KK SK) as (l' & E & K' & M'). rewrite E. cbn [bind]. eexists. split; [reflexivity|]. cbn [kvin kvdeg]. split; [exact K'|]. split; [reflexivity|].
    intros x. rewrite M'. unfold target, rgeo. cbn [andb]. rewrite Z.sub_0_r. reflexivity.
Qed.

(** ** Truncated powers *)
Open Scope R_scope.
(** the coefficients of [c * (t - x)^n] *)
Fixpoint shifted (x : R) (n : nat) : list R := match n with O => [1] | S n => pmul [- x; 1] (shifted x n) end.
Lemma shifted_eval x n t : peval (shifted x n) t = (t - x) ^ n.
Proof. induction n as [|n IH]; [cbn; ring|]. cbn [shifted pow]. rewrite peval_mul, IH. cbn. ring. Qed.
Lemma shifted_length x n : length (shifted x n) = (n + 1)%nat.
Proof. induction n as [|n IH]; [reflexivity|]. cbn [shifted pmul]. rewrite padd_length. cbn [length]. rewrite padd_length. unfold pscal. rewrite !map_length, IH. cbn [length]. lia. Qed.
Definition trunc (k : Q) (c : R) (n : nat) (x : Q) : list R := if Qle_bool k x then pscal c (shifted (Q2R k) n) else [].
Lemma trunc_in p l k c n : (n <= p)%nat -> (0 < mult l k)%nat -> (p + 1 - mult l k <= n)%nat -> (forall z, (z == k)%Q -> mult l z = mult l k) -> in_space p l (trunc k c n).
Proof.
  intros NP M L C. split.
  - intros x. unfold trunc. destruct (Qle_bool k x).
    + exists (pscal c (shifted (Q2R k) n)). split; [|reflexivity]. unfold pscal. rewrite map_length. pose proof (shifted_length (Q2R k) n). lia.
    + exists []. split; [cbn; lia|reflexivity].
  - intros y x LT NK. unfold trunc. destruct (Qle_bool k y) eqn:KY.
    + apply Qle_bool_iff in KY. replace (Qle_bool k x) with true by (symmetry; apply Qle_bool_iff; apply Qle_trans with y; [exact KY|apply Qlt_le_weak, LT]). apply agree_same. reflexivity.
    + destruct (Qle_bool k x) eqn:KX; [|apply agree_same; reflexivity]. assert (YK : (y < k)%Q) by (apply Qnot_le_lt; intros H; apply Qle_bool_iff in H; congruence). apply Qle_bool_iff in KX. apply Qle_lteq in KX. destruct KX as [KX|KX]; [exfalso; specialize (NK k YK KX); lia|].
      rewrite (C x) by (symmetry; exact KX). apply (agree_le _ n); [lia|]. exists [- c]. intros t. cbn [peval]. rewrite peval_scal, shifted_eval. rewrite (Qreals.Qeq_eqR k x KX). ring.
Qed.
Lemma trunc_out p l k c n : (n < p + 1 - mult l k)%nat -> c <> 0 -> (exists y, (y < k)%Q /\ forall z, (y < z)%Q -> (z < k)%Q -> mult l z = 0%nat) -> ~ in_space p l (trunc k c n).
Proof.
  intros L NC (y & LT & NK) (_ & H). specialize (H y k LT NK). unfold trunc in H. replace (Qle_bool k y) with false in H by (symmetry; apply Qleb_false, LT). replace (Qle_bool k k) with true in H by (symmetry; apply Qle_bool_iff, Qle_refl).
  apply (agree_le (S n)) in H; [|lia]. destruct H as (q & E). assert (Z : forall t, peval [- c] t = peval (pmul [- Q2R k; 1] q) t).
  { apply (equal_off _ _ (Q2R k)). intros t NE. rewrite peval_mul. specialize (E t). cbn [peval] in *. rewrite peval_scal, shifted_eval in E. cbn [pow] in E. apply (Rmult_eq_reg_l ((t - Q2R k) ^ n)); [|apply pow_nonzero; lra]. replace ((t - Q2R k) ^ n * (- c + t * 0)) with (0 - c * (t - Q2R k) ^ n) by ring. rewrite E. ring. }
  specialize (Z (Q2R k)). rewrite peval_mul in Z. cbn [peval] in Z. apply NC. lra.
Qed.
Lemma const_in p l c : in_space p l (fun _ => [c]).
Proof. split; [intros x; exists [c]; split; [cbn; lia|reflexivity]|]. intros y x _ _. apply agree_same. reflexivity. Qed.
Lemma in_space_ext p l s s' : (forall x t, peval (s x) t = peval (s' x) t) -> in_space p l s -> in_space p l s'.
Proof.
  intros E (A & B). split; [intros x; destruct (A x) as (a & L & H); exists a; split; [exact L|intros t; rewrite <- E; apply H]|]. intros y x LT NK. destruct (B y x LT NK) as (q & H). exists q. intros t. rewrite <- !E. apply H.
Qed.

(** ** What fails *)
Definition half : Q := (1 # 2).
Definition cubic1 : kvec := mkKV 3 0 1 [(half, 1%nat)].
Definition quartic2 : kvec := mkKV 4 0 1 [(half, 2%nat)].
Lemma half_left m : exists y, (y < half)%Q /\ forall z, (y < z)%Q -> (z < half)%Q -> mult [(half, m)] z = 0%nat.
Proof.
  exists 0%Q. split; [reflexivity|]. intros z _ L. cbn. replace (Qeq_bool half z) with false; [reflexivity|]. symmetry. apply Qeqb_false. intros E. rewrite E in L. apply (Qlt_irrefl z L).
Qed.
Theorem geometry_refuted_pf : forall redn, reduces redn -> exists geo b gd plus minus E, knots_ok (kvin b) /\ first_least b /\ gluingSpace geo b (-1) (-1) = Ok gd /\ createPlusSpace (redn 1%nat) geo b = Ok plus /\ createMinusSpace (redn 1%nat) geo b = Ok minus /\ edgeSpace redn geo b plus minus gd = Ok E /\
  exists P P' be s, space_of plus P /\ derivative P P' /\ space_of gd be /\ product be P' s /\ ~ space_of E s.
Proof.
  intros redn _. exists cubic1, cubic1, (mkKV 2 0 1 [(half, 1%nat)]), cubic1, (mkKV 2 0 1 [(half, 1%nat)]), quartic2.
  split; [split; repeat constructor; cbn; lia|]. split; [constructor|]. split; [reflexivity|]. split; [reflexivity|]. split; [reflexivity|]. split; [reflexivity|].
  exists (trunc half 1 3), (trunc half 3 2), (fun _ => [1]), (trunc half 3 2). split; [|split; [|split; [|split]]].
  - apply trunc_in; cbn; try lia. intros z E. replace (Qeq_bool half z) with true; [reflexivity|]. symmetry. apply Qeqb_iff. symmetry. exact E.
  - intros x t. unfold trunc. destruct (Qle_bool half x); [|exact (peval_der [] t)]. rewrite peval_scal, shifted_eval.
    apply (derivable_pt_lim_ext (fun u => (u - Q2R half) ^ 3)); [intros u; rewrite peval_scal, shifted_eval; ring|]. replace (3 * (t - Q2R half) ^ 2) with ((INR 3 * (t - Q2R half) ^ 2) * (1 - 0)) by (cbn; ring).
    apply (derivable_pt_lim_comp (minus_fct id (fct_cte (Q2R half))) (fun u => u ^ 3)); [apply derivable_pt_lim_minus; [apply derivable_pt_lim_id|apply derivable_pt_lim_const]|]. apply (derivable_pt_lim_pow (t - Q2R half) 3).
  - apply const_in.
  - intros x t. cbn [peval]. ring.
  - apply trunc_out; [cbn; lia|lra|apply half_left].
Qed.

Definition third : Q := (1 # 3).
Definition twoThirds : Q := (2 # 3).
Definition uneven : kvec := mkKV 3 0 1 [(third, 2%nat); (twoThirds, 1%nat)].
Definition bezier : kvec := mkKV 3 0 1 [].
Theorem uneven_refuted_pf : forall redn, reduces redn -> exists geo b gd plus minus E, kvin geo = [] /\ knots_ok (kvin b) /\ gluingSpace geo b (-1) (-1) = Ok gd /\ createPlusSpace (redn 1%nat) geo b = Ok plus /\ createMinusSpace (redn 1%nat) geo b = Ok minus /\ edgeSpace redn geo b plus minus gd = Ok E /\
  exists M al s, space_of minus M /\ space_of gd al /\ product al M s /\ ~ space_of E s.
Proof.
  intros redn RD. pose proof (RD 1%nat 2%nat ltac:(lia)) as R21. cbn in R21.
  exists bezier, uneven, (mkKV 2 0 1 [(third, 1%nat); (twoThirds, 1%nat)]), (mkKV 3 0 1 (reduceInner (redn 1%nat) (kvin uneven))), (mkKV 2 0 1 (reduceInner (redn 1%nat) (kvin uneven))), (mkKV 4 0 1 [(third, 3%nat); (twoThirds, 2%nat)]).
  split; [reflexivity|]. split; [split; repeat constructor; cbn; try lia; reflexivity|]. split; [reflexivity|]. split; [reflexivity|]. split; [reflexivity|]. split.
  - unfold edgeSpace. cbn [kvdeg ensure bind]. unfold reduceInner. cbn [kvin uneven map filter fst snd]. rewrite R21. cbn [Nat.ltb Nat.leb]. unfold regularity at 1 2 3. unfold multAfterEnd. cbn [kvin kvdeg]. reflexivity.
  - exists (fun _ => [1]), (trunc twoThirds 1 2), (trunc twoThirds 1 2). split; [apply const_in|]. split; [|split].
    + apply trunc_in; cbn; try lia. intros z E. replace (Qeq_bool third z) with false by (symmetry; apply Qeqb_false; rewrite E; discriminate). replace (Qeq_bool twoThirds z) with true; [reflexivity|]. symmetry. apply Qeqb_iff. symmetry. exact E.
    + intros x t. cbn [peval]. ring.
    + apply trunc_out; [cbn; lia|lra|]. exists half. split; [reflexivity|]. intros z L1 L2. cbn. replace (Qeq_bool third z) with false; [|symmetry; apply Qeqb_false; intros E; rewrite <- E in L1; discriminate]. replace (Qeq_bool twoThirds z) with false; [reflexivity|]. symmetry. apply Qeqb_false. intros E. rewrite E in L2. apply (Qlt_irrefl z L2).
Qed.

(** ** Example *)
Definition redMinus (n m : nat) : nat := (m - n)%nat.
Definition cubic2 : kvec := mkKV 3 0 1 [(third, 1%nat); (twoThirds, 1%nat)].
Theorem space_example_pf : reduces redMinus /\ knots_ok (kvin cubic2) /\ first_least cubic2 /\ kvin bezier = [] /\
  exists gd plus minus E, gluingSpace bezier cubic2 (-1) (-1) = Ok gd /\ createPlusSpace (redMinus 1) bezier cubic2 = Ok plus /\ createMinusSpace (redMinus 1) bezier cubic2 = Ok minus /\
    edgeSpace redMinus bezier cubic2 plus minus gd = Ok E /\ vertexSpace redMinus bezier cubic2 true (-1) (-1) = Ok E /\
    kvdeg E = 4%nat /\ kvin E = [(third, 3%nat); (twoThirds, 3%nat)] /\ (exists k, vertexSpace redMinus bezier cubic2 false (-1) (-1) = Ok k /\ kvin k = [(third, 2%nat); (twoThirds, 2%nat)]) /\
    space_of plus (trunc third 1 3) /\ ~ space_of plus (trunc third 1 2) /\ space_of gd (trunc third 1 2) /\ space_of E (trunc third 1 2) /\ ~ space_of E (trunc third 1 1).
Proof.
  assert (CZ : forall z, (z == third)%Q -> Qeq_bool third z = true) by (intros z E; apply Qeqb_iff; symmetry; exact E).
  assert (LZ : forall m m', exists y, (y < third)%Q /\ forall z, (y < z)%Q -> (z < third)%Q -> mult [(third, m); (twoThirds, m')] z = 0%nat).
  { intros m m'. exists 0%Q. split; [reflexivity|]. intros z _ L. cbn. replace (Qeq_bool third z) with false; [replace (Qeq_bool twoThirds z) with false; [reflexivity|]|]; symmetry; apply Qeqb_false; intros E; rewrite <- E in L; discriminate. }
  split; [intros n m L; reflexivity|]. split; [split; repeat constructor; cbn; try lia; reflexivity|]. split; [repeat constructor|]. split; [reflexivity|].
  exists (mkKV 2 0 1 [(third, 1%nat); (twoThirds, 1%nat)]), cubic2, (mkKV 2 0 1 [(third, 1%nat); (twoThirds, 1%nat)]), (mkKV 4 0 1 [(third, 3%nat); (twoThirds, 3%nat)]).
  split; [reflexivity|]. split; [reflexivity|]. split; [reflexivity|]. split; [reflexivity|]. split; [reflexivity|]. split; [reflexivity|]. split; [reflexivity|]. split; [eexists; split; reflexivity|].
  split; [apply trunc_in; cbn; try lia; intros z E; rewrite (CZ z E); reflexivity|]. split; [apply trunc_out; [cbn; lia|lra|apply LZ]|]. split; [apply trunc_in; cbn; try lia; intros z E; rewrite (CZ z E); reflexivity|].
  split; [apply trunc_in; cbn; try lia; intros z E; rewrite (CZ z E); reflexivity|apply trunc_out; [cbn; lia|lra|apply LZ]].
Qed.
