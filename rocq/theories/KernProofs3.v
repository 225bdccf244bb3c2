(** Proofs for C61: the functions along the boundary, the tangents, and the patches that are looked up wrongly. *)
From Coq Require Import Reals Lra ZifyBool.
From Verif Require Import Common SplineModel SplineSpec SplineProofs SurfGDSpec KernModel KernSpec KernProofs KernProofs2.
Open Scope R_scope.

Lemma sumTo_rderiv n (F : nat -> R -> R) (D : nat -> R) x : (forall i, (i < n)%nat -> rderiv (F i) x (D i)) -> rderiv (fun y => sumTo n (fun i => F i y)) x (sumTo n D).
Proof.
  induction n as [|n IH]; intros H; cbn [sumTo]; [apply rderiv_const|]. apply rderiv_add; [apply IH; intros i L; apply H; lia|apply H; lia].
Qed.

(** one direction *)
Lemma edge1 b n (N : nat -> R -> R) (r : nat -> R) : open_basis b n -> (forall i x, (i < n)%nat -> evalSingle b i x = Ok (N i x)) -> r 0%nat = 0 ->
  sumTo n (fun i => r i * N i 0) = 0 /\ ((1 <= sdeg b)%nat -> r 1%nat = 0 -> rderiv (fun x => sumTo n (fun i => r i * N i x)) 0 0).
Proof.
  intros O E Z. split.
  - apply sumTo_0. intros i L. pose proof (first_value b n O i L) as V. rewrite (E i 0 L) in V. injection V as V. destruct (Nat.eqb_spec i 0) as [->|NE]; [rewrite Z; ring|rewrite V; ring].
  - intros D Z1. apply (rderiv_eq _ _ (sumTo n (fun _ => 0))); [|apply sumTo_0; reflexivity]. apply (sumTo_rderiv n (fun i x => r i * N i x) (fun _ => 0)). intros i L.
    destruct (single_ok b n i O L) as (f & f' & f'' & F & F' & _ & RD & _).
    assert (EX : forall x, f x = N i x) by (intros x; specialize (F x); rewrite (E i x L) in F; congruence).
    apply (rderiv_eq _ _ (r i * f' 0)); [apply (rderiv_ext (fun x => r i * f x)); [intros y; rewrite EX; reflexivity|apply rderiv_scal, RD]|].
    pose proof (first_deriv b n O i D L) as V. rewrite F' in V. injection V as V. destruct i as [|[|i]]; [rewrite Z; ring|rewrite Z1; ring|rewrite V; ring].
Qed.

Theorem edges_pf : forall bu bv du dv c f, open_basis bu du -> open_basis bv dv -> (1 <= sdeg bu)%nat -> (1 <= sdeg bv)%nat -> tensor_spline bu bv du dv c f ->
  ((forall i, (i < du)%nat -> c i = 0) -> forall u, f (u, 0) = 0) /\
  ((forall i, (i < du)%nat -> c i = 0 /\ c (i + du)%nat = 0) -> forall u, rderiv (fun v => f (u, v)) 0 0) /\
  ((forall j, (j < dv)%nat -> c (j * du)%nat = 0) -> forall v, f (0, v) = 0) /\
  ((forall j, (j < dv)%nat -> c (j * du)%nat = 0 /\ c (j * du + 1)%nat = 0) -> forall v, rderiv (fun u => f (u, v)) 0 0).
Proof.
  intros bu bv du dv c f Ou Ov Du Dv (N & M & EN & EM & F).
  assert (FV : forall u v, f (u, v) = sumTo dv (fun j => sumTo du (fun i => c (i + j * du)%nat * N i u) * M j v)).
  { intros u v. rewrite F. apply sumTo_ext. intros j _. rewrite (Rmult_comm (sumTo _ _)), <- sumTo_scal. apply sumTo_ext. intros i _. ring. }
  assert (FU : forall u v, f (u, v) = sumTo du (fun i => sumTo dv (fun j => c (i + j * du)%nat * M j v) * N i u)).
  { intros u v. rewrite F, sumTo_swap. apply sumTo_ext. intros i _. rewrite (Rmult_comm (sumTo _ _)), <- sumTo_scal. apply sumTo_ext. intros j _. ring. }
  split; [|split; [|split]].
  - intros Z u. rewrite FV. apply (edge1 bv dv M (fun j => sumTo du (fun i => c (i + j * du)%nat * N i u)) Ov EM). apply sumTo_0. intros i L. rewrite Nat.mul_0_l, Nat.add_0_r, Z by exact L. ring.
  - intros Z u. apply (rderiv_ext (fun v => sumTo dv (fun j => sumTo du (fun i => c (i + j * du)%nat * N i u) * M j v))); [intros y; rewrite FV; reflexivity|].
    apply (edge1 bv dv M (fun j => sumTo du (fun i => c (i + j * du)%nat * N i u)) Ov EM); [|exact Dv|]; apply sumTo_0; intros i L; destruct (Z i L) as (Z0 & Z1).
    + rewrite Nat.mul_0_l, Nat.add_0_r, Z0. ring.
    + rewrite Nat.mul_1_l, Z1. ring.
  - intros Z v. rewrite FU. apply (edge1 bu du N (fun i => sumTo dv (fun j => c (i + j * du)%nat * M j v)) Ou EN). apply sumTo_0. intros j L. rewrite Nat.add_0_l, Z by exact L. ring.
  - intros Z v. apply (rderiv_ext (fun u => sumTo du (fun i => sumTo dv (fun j => c (i + j * du)%nat * M j v) * N i u))); [intros y; rewrite FU; reflexivity|].
    apply (edge1 bu du N (fun i => sumTo dv (fun j => c (i + j * du)%nat * M j v)) Ou EN); [|exact Du|]; apply sumTo_0; intros j L; destruct (Z j L) as (Z0 & Z1).
    + rewrite Nat.add_0_l, Z0. ring.
    + rewrite Nat.add_comm, Z1. ring.
Qed.

(** From the matrix to the functions. *)
Theorem vertex_pf : forall second ps dep dofs ker M, (forall p, In p ps -> (2 <= vdu p)%nat /\ (2 <= vdv p)%nat) -> second = false \/ (between ps <= boundary_sides ps)%nat ->
  (forall K, dep K = true <-> dependent K) -> ~ dependent ker -> coefsCorner second ps = Ok M -> Forall (in_kernel M) ker -> (0 < dofs)%nat ->
  exists K, kernelColumns dep dofs ker = Ok K /\
    forall p j, In p ps -> (j < length ker)%nat -> exists c, combined p K j = Ok c /\
      forall bu bv f, open_basis bu (vdu p) -> open_basis bv (vdv p) -> (1 <= sdeg bu)%nat -> (1 <= sdeg bv)%nat -> tensor_spline bu bv (vdu p) (vdv p) c f ->
        (vin3 p = false -> forall u, f (u, 0) = 0 /\ (second = false -> rderiv (fun v => f (u, v)) 0 0)) /\
        (vin1 p = false -> forall v, f (0, v) = 0 /\ (second = false -> rderiv (fun u => f (u, v)) 0 0)).
Proof.
  intros second ps dep dofs ker M SZ OKS DS ND CM FK P.
  destruct (columns_pf dep dofs ker DS ND) as (K & EK & LK & NK & X & _). destruct (X P) as (rest & ->). exists (ker ++ rest). split; [exact EK|]. intros p j I L.
  destruct (combined_comb p (ker ++ rest) j) as (g & EG & G); [rewrite app_length; lia|]. exists g. split; [exact EG|]. intros bu bv f Ou Ov Du Dv T.
  destruct (matrix_pf second ps SZ OKS) as (M' & CM' & KM). rewrite CM in CM'. injection CM' as <-.
  assert (KC : in_kernel M (column_at (ker ++ rest) j)).
  { unfold column_at. rewrite app_nth1 by exact L. rewrite Forall_forall in FK. exact (FK _ (nth_In ker (fun _ => 0) L)). }
  destruct (proj1 (KM _) KC p I) as (M3 & M1 & _). destruct (edges_pf bu bv (vdu p) (vdv p) g f Ou Ov Du Dv T) as (E1 & E2 & E3 & E4). split.
  - intros W u. split; [apply E1; intros i Li; rewrite G; apply (M3 W i Li)|]. intros S. apply E2. intros i Li. rewrite !G. destruct (M3 W i Li) as (A & B). auto.
  - intros W v. split; [apply E3; intros i Li; rewrite G; apply (M1 W i Li)|]. intros S. apply E4. intros i Li. rewrite !G. destruct (M1 W i Li) as (A & B). auto.
Qed.

(** ** Tangents *)
Lemma sq3 a b c : a * a + b * b + c * c = 0 -> a = 0 /\ b = 0 /\ c = 0.
Proof.
  intros Z. assert (A := Rle_0_sqr a). assert (B := Rle_0_sqr b). assert (C := Rle_0_sqr c). unfold Rsqr in *. repeat split; apply Rsqr_0_uniq; unfold Rsqr; lra.
Qed.
Lemma tangents : forall second,
  (forall a b, dofsCorner second 0 (detPlanar a b) = (if second then 1 else 0)%nat <-> independent2 a b) /\
  (forall u v a b, independent3 u v -> in_plane u v a -> in_plane u v b -> (dofsCorner second 0 (detSurface a b (normalOf u v)) = (if second then 1 else 0)%nat <-> independent3 a b)).
Proof.
  assert (DC : forall second d, dofsCorner second 0 d = (if second then 1 else 0)%nat <-> d <> 0).
  { intros second d. unfold dofsCorner. cbv zeta. destruct (Rlt_dec 0 (d * d)) as [L|L].
    - split; [intros _ Z; rewrite Z in L; lra|reflexivity].
    - split; [destruct second; discriminate|]. intros N. exfalso. apply L. nra. }
  intros second. split.
  - intros (a0 & a1) (b0 & b1). rewrite DC. unfold detPlanar, independent2. cbn [fst snd]. split.
    + intros N s t E0 E1. split.
      * apply (Rmult_eq_reg_r (a0 * b1 - a1 * b0)); [|exact N]. transitivity (b1 * (s * a0 + t * b0) - b0 * (s * a1 + t * b1)); [ring|]. rewrite E0, E1. ring.
      * apply (Rmult_eq_reg_r (a0 * b1 - a1 * b0)); [|exact N]. transitivity (a0 * (s * a1 + t * b1) - a1 * (s * a0 + t * b0)); [ring|]. rewrite E0, E1. ring.
    + intros H Z. destruct (H b0 (- a0)) as (B0 & A0); [ring|lra|]. destruct (H b1 (- a1)) as (B1 & A1); [lra|ring|]. assert (a0 = 0) by lra. assert (a1 = 0) by lra. subst. destruct (H 1 0); lra.
  - intros ((u0 & u1) & u2) ((v0 & v1) & v2) a b IU (x & y & ->) (z & w & ->). rewrite DC.
    assert (NN : (u1 * v2 - u2 * v1) * (u1 * v2 - u2 * v1) + (u2 * v0 - u0 * v2) * (u2 * v0 - u0 * v2) + (u0 * v1 - u1 * v0) * (u0 * v1 - u1 * v0) <> 0).
    { intros Z. apply sq3 in Z. destruct Z as (Z0 & Z1 & Z2).
      unfold independent3 in IU. destruct (IU v0 (- u0)) as (A0 & B0); [ring|lra|lra|]. destruct (IU v1 (- u1)) as (A1 & B1); [lra|ring|lra|]. destruct (IU v2 (- u2)) as (A2 & B2); [lra|lra|ring|]. assert (u0 = 0) by lra. assert (u1 = 0) by lra. assert (u2 = 0) by lra. subst. destruct (IU 1 0); lra. }
    unfold detSurface, normalOf. set (n2 := _ + _ + _) in NN.
    match goal with |- ?d <> 0 <-> _ => assert (ED : d = (x * w - y * z) * n2) by (unfold n2; ring) end. rewrite ED. clear ED. unfold independent3 in *. split.
    + intros N s t E0 E1 E2. destruct (IU (s * x + t * z) (s * y + t * w)) as (P1 & P2); [rewrite <- E0 at 1; ring|rewrite <- E1 at 1; ring|rewrite <- E2 at 1; ring|].
      assert (D : x * w - y * z <> 0) by (intros Z; apply N; rewrite Z; ring). split.
      * apply (Rmult_eq_reg_r (x * w - y * z)); [|exact D]. transitivity (w * (s * x + t * z) - z * (s * y + t * w)); [ring|]. rewrite P1, P2. ring.
      * apply (Rmult_eq_reg_r (x * w - y * z)); [|exact D]. transitivity (x * (s * y + t * w) - y * (s * x + t * z)); [ring|]. rewrite P1, P2. ring.
    + intros H Z. apply Rmult_integral in Z. destruct Z as [Z|Z]; [|contradiction].
      assert (H' : forall s t, s * x + t * z = 0 -> s * y + t * w = 0 -> s = 0 /\ t = 0).
      { intros s t E F. apply (H s t).
        - transitivity ((s * x + t * z) * u0 + (s * y + t * w) * v0); [ring|]. rewrite E, F. ring.
        - transitivity ((s * x + t * z) * u1 + (s * y + t * w) * v1); [ring|]. rewrite E, F. ring.
        - transitivity ((s * x + t * z) * u2 + (s * y + t * w) * v2); [ring|]. rewrite E, F. ring. }
      destruct (H' z (- x)) as (B0 & A0); [ring|lra|]. destruct (H' w (- y)) as (B1 & A1); [lra|ring|]. assert (x = 0) by lra. assert (y = 0) by lra. subst. destruct (H' 1 0); lra.
Qed.

Theorem tangents_pf : forall second,
  (forall a b, (independent2 a b -> dofsCorner second 0 (detPlanar a b) = (if second then 1 else 0)%nat) /\ (~ independent2 a b -> dofsCorner second 0 (detPlanar a b) = (if second then 3 else 1)%nat)) /\
  (forall u v a b, independent3 u v -> in_plane u v a -> in_plane u v b ->
    (independent3 a b -> dofsCorner second 0 (detSurface a b (normalOf u v)) = (if second then 1 else 0)%nat) /\ (~ independent3 a b -> dofsCorner second 0 (detSurface a b (normalOf u v)) = (if second then 3 else 1)%nat)).
Proof.
  intros second. destruct (tangents second) as (A & B).
  assert (D : forall d, dofsCorner second 0 d = (if second then 1 else 0)%nat \/ dofsCorner second 0 d = (if second then 3 else 1)%nat) by (intros d; unfold dofsCorner; cbv zeta; destruct (Rlt_dec 0 (d * d)); auto).
  split.
  - intros a b. specialize (A a b). destruct (D (detPlanar a b)); tauto.
  - intros u v a b IU IA IB. specialize (B u v a b IU IA IB). destruct (D (detSurface a b (normalOf u v))); tauto.
Qed.

(** ** Looked up in the wrong list *)
Definition flat (i3 i1 : bool) : vpatch := mkVP 3 3 (fun _ _ => 0) i3 i1.
Definition chain5 : list vpatch := [flat false true; flat true true; flat true true; flat true true; flat true false].
Theorem second_refuted_pf : exists ps, (forall p, In p ps -> (2 <= vdu p)%nat /\ (2 <= vdv p)%nat) /\ boundary_sides ps = 2%nat /\ coefsCorner true ps = Err /\ exists M, coefsCorner false ps = Ok M.
Proof.
  assert (SZ : forall p, In p chain5 -> (2 <= vdu p)%nat /\ (2 <= vdv p)%nat) by (intros p I; repeat (destruct I as [<-|I]; [cbn; lia|]); destruct I).
  exists chain5. split; [exact SZ|]. split; [reflexivity|]. split; [vm_compute; reflexivity|]. destruct (matrix_pf false chain5 SZ (or_introl eq_refl)) as (M & E & _). exists M. exact E.
Qed.
