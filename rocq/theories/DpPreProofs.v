(** The coefficients that gsDPatch computes from a geometry: proofs. *)
From Verif Require Import Common TopoModel BaseModel BaseModel2 BaseSpec2 IndexSpec TopoSpec SmoothSpec SmoothSpec2 RefModel RefSpec RingModel RingSpec DpModel DpSpec
  IndexProofs IndexTopoProofs ListLemmas TopoProofs PointProofs MapperProofs CountProofs MatrixProofs HandlerProofs ResultProofs GeometryProofs
  BaseProofs2 RefProofs RingProofs RingProofs2 RingProofs3 DpProofs DpProofs2 DpProofs3 DpProofs4 AcProofs2 PreModel DpPreModel DpPreSpec.
From Verif Require MapProofs ExportProofs PreProofs.
From Coq Require Import ZifyBool.
Open Scope nat_scope.

(* ------------------------------------------------------------------ *)
(** * Coefficients of free functions, coupled ones included *)
Section Free.
Variables (sz : list nat) (m : cmap).
Hypothesis ES : cmsizes m = sz.
Notation D := (dofs_from 0 sz).
Context {A : Type} (d : A) (P : list (list A)).
Hypothesis HP : map (@length A) P = sz.
Notation at_dof := (ExportProofs.at_dof d P).

Lemma cfreeCoefs_some : exists v, cfreeCoefs m P = Ok v /\ length v = cfreeSize m /\
    forall x, In x D -> (0 <= cmval m x)%Z -> exists y, In y D /\ (0 <= cmval m y)%Z /\ ridx m y = ridx m x /\ nth_error v (ridx m x) = Some (at_dof y).
Proof.
  unfold cfreeCoefs. rewrite (cdofs_D sz m ES).
  match goal with |- context [foldM ?f D ?s] =>
    destruct (foldM_inv (fun pre (v : list (option A)) => length v = cfreeSize m /\
      forall x, In x pre -> (0 <= cmval m x)%Z -> exists y, In y D /\ (0 <= cmval m y)%Z /\ ridx m y = ridx m x /\ nth_error v (ridx m x) = Some (Some (at_dof y)))
      f D s) as (v & E & L & Hv) end.
  - split; [apply repeat_length|]. intros x [].
  - intros pre x post v E [L Hv]. assert (In x D) as Hx by (rewrite E; apply in_elt).
    unfold cis_free. replace (fst x, snd x) with x by (destruct x; reflexivity). destruct (0 <=? cmval m x)%Z eqn:F.
    + rewrite (cindex_ok sz m ES x Hx). cbn [bind]. destruct (PreProofs.P_get sz d P HP x Hx) as (cs & -> & E2 & _). cbn [bind]. rewrite E2. cbn [bind].
      assert (ridx m x < length v) as Lx by (rewrite L; apply (ridx_lt sz m ES); auto; lia).
      eexists. split; [apply vset_ok; auto|]. split; [rewrite upd_length; auto|]. intros y Hy Fy. rewrite nth_error_upd by auto.
      destruct (Nat.eqb_spec (ridx m y) (ridx m x)) as [Ey|Ny].
      * exists x. split; auto. split; [lia|]. auto.
      * apply in_app_iff in Hy. destruct Hy as [Hy|[<-|[]]]; [apply Hv; auto|congruence].
    + exists v. split; auto. split; auto. intros y Hy Fy. apply in_app_iff in Hy. destruct Hy as [Hy|[<-|[]]]; [apply Hv; auto|lia].
  - rewrite E. cbn [bind].
    assert (forall w : list (option A), (forall i, i < length w -> exists a, nth_error w i = Some (Some a)) ->
      exists u, mapM (fun o => match o with Some a => Ok a | None => Err end) w = Ok u /\ map Some u = w) as K.
    { induction w as [|o w IH]; intros H; [exists []; auto|]. destruct (H 0) as (a & Ha); [simpl; lia|]. simpl in Ha. injection Ha as ->.
      destruct IH as (u & Eu & <-); [intros i Hi; apply (H (S i)); simpl; lia|]. exists (a :: u). simpl. rewrite Eu. auto. }
    destruct (K v) as (u & Eu & Ev).
    + intros i Hi. rewrite L in Hi. destruct (ridx_onto sz m ES i Hi) as (x & Hx & Fx & <-). destruct (Hv x Hx Fx) as (y & _ & _ & _ & G). eauto.
    + exists u. rewrite Eu. split; auto. split; [rewrite <- L, <- Ev, map_length; auto|]. intros x Hx Fx. destruct (Hv x Hx Fx) as (y & Hy & Fy & Ey & G).
      exists y. split; auto. split; auto. split; auto. rewrite <- Ev, nth_error_map in G. destruct (nth_error u (ridx m x)); [injection G as ->; auto|discriminate].
Qed.
End Free.

(* ------------------------------------------------------------------ *)
(** * Transfer to the refined bases *)
Lemma tmul_ok M cs : (if (tmRows M =? 0) || (tmCols M =? 0) then True else length cs = tmCols M) ->
  exists l, tmul M cs = Ok l /\ length l = (if (tmRows M =? 0) || (tmCols M =? 0) then length cs else tmRows M) /\
    forall k u, nth_error l k = Some u <->
      ((tmRows M = 0 \/ tmCols M = 0) /\ nth_error cs k = Some u \/
       k < tmRows M /\ 0 < tmCols M /\ u = sumQ (map (fun j => (tmAt M k j * nth j cs 0)%Q) (seq 0 (tmCols M)))).
Proof.
  unfold tmul. intros H. destruct (tmRows M =? 0) eqn:E1; cbn [negb andb orb] in *.
  { exists cs. split; auto. split; auto. intros k u. split; [intros K; left; split; auto; lia|]. intros [[_ K]|K]; auto. lia. }
  destruct (tmCols M =? 0) eqn:E2; cbn [negb andb orb] in *.
  { exists cs. split; auto. split; auto. intros k u. split; [intros K; left; split; auto; lia|]. intros [[_ K]|K]; auto. lia. }
  rewrite H, Nat.eqb_refl. cbn [ensure bind]. eexists. split; [reflexivity|]. split; [rewrite map_length, seq_length; auto|].
  assert (forall r, map (fun x : nat * Q => (tmAt M r (fst x) * snd x)%Q) (combine (seq 0 (tmCols M)) cs) =
                    map (fun j => (tmAt M r j * nth j cs 0)%Q) (seq 0 (tmCols M))) as K.
  { intros r. rewrite <- H. clear.
    assert (forall a (pre : list Q), length pre = a -> map (fun x : nat * Q => (tmAt M r (fst x) * snd x)%Q) (combine (seq a (length cs)) cs) =
      map (fun j => (tmAt M r j * nth j (pre ++ cs) 0)%Q) (seq a (length cs))) as K.
    { induction cs as [|c cs IH]; intros a pre La; auto. cbn [length seq combine map fst snd]. f_equal.
      - rewrite app_nth2, La, Nat.sub_diag by lia. reflexivity.
      - rewrite (IH (S a) (pre ++ [c])) by (rewrite app_length; simpl; lia). rewrite <- app_assoc. reflexivity. }
    apply (K 0 []). reflexivity. }
  intros k u. rewrite nth_error_map. split.
  - intros G. destruct (nth_error (seq 0 (tmRows M)) k) as [r|] eqn:Er; [|discriminate]. cbn [option_map] in G. injection G as <-.
    assert (k < tmRows M) as Hk by (rewrite <- (seq_length (tmRows M) 0); apply nth_error_Some; congruence).
    rewrite (nth_error_nth' _ 0) in Er by (rewrite seq_length; auto). rewrite seq_nth in Er by auto. injection Er as <-. right. rewrite K. split; auto. split; [lia|reflexivity].
  - intros [[G _]|(Hk & _ & ->)]; [lia|]. rewrite (nth_error_nth' _ 0) by (rewrite seq_length; auto). rewrite seq_nth by auto. cbn [option_map plus]. rewrite K. reflexivity.
Qed.

Section T.
Variable DI : dinput.
Notation I := (dring DI).
Notation np := (length (ribases I)).
Variables (T : list tmat) (P : list (list Q)).
Hypothesis FT : fits_refined DI T P.

Lemma dpTransferred_ok : exists tmp, dpTransferred np T P = Ok tmp /\ map (@length Q) tmp = sizes I /\
  forall p k u, p < np -> ((exists cs, nth_error tmp p = Some cs /\ nth_error cs k = Some u) <-> transferred T P p k u).
Proof.
  destruct FT as (LT & LP & F). unfold dpTransferred.
  assert (forall p, p < np -> exists b M cs l, nth_error (ribases I) p = Some b /\ nth_error T p = Some M /\ nth_error P p = Some cs /\
     (do M <- vget T p; do cs <- vget P p; tmul M cs) = Ok l /\ length l = rsize b /\
     forall k u, nth_error l k = Some u <-> transferred T P p k u) as K.
  { intros p Hp. destruct (nth_error (ribases I) p) as [b|] eqn:Eb; [|apply nth_error_None in Eb; lia].
    destruct (nth_error T p) as [M|] eqn:EM; [|apply nth_error_None in EM; lia]. destruct (nth_error P p) as [cs|] eqn:EP; [|apply nth_error_None in EP; lia].
    specialize (F p b M cs Eb EM EP). destruct (tmul_ok M cs) as (l & El & Ll & Hl).
    { destruct ((tmRows M =? 0) || (tmCols M =? 0)); tauto. }
    exists b, M, cs, l. unfold vget. rewrite EM, EP. cbn [bind]. repeat (split; [auto; fail|]). split.
    - rewrite Ll. destruct ((tmRows M =? 0) || (tmCols M =? 0)); [auto|tauto].
    - intros k u. rewrite Hl. unfold transferred. rewrite EM, EP. split; [intros G; eauto|]. intros (M' & cs' & [= <-] & [= <-] & G). exact G. }
  set (f := fun p => match (do M <- vget T p; do cs <- vget P p; tmul M cs) with Ok l => l | Err => [] end).
  exists (map f (seq 0 np)). split; [|split].
  - apply mapM_ok. intros p Hp. apply in_seq in Hp. destruct (K p ltac:(lia)) as (b & M & cs & l & _ & _ & _ & E & _). unfold f. rewrite E. reflexivity.
  - unfold sizes. apply nth_ext with (d := 0) (d' := 0); [rewrite !map_length, seq_length; auto|]. rewrite !map_length, seq_length. intros p Hp.
    destruct (K p Hp) as (b & M & cs & l & Eb & _ & _ & E & Ll & _). rewrite map_map.
    rewrite (nth_indep _ 0 ((fun x => length (f x)) 0)) by (rewrite map_length, seq_length; auto). rewrite (map_nth (fun x => length (f x))), seq_nth by auto. cbn [plus]. unfold f. rewrite E, Ll.
    symmetry. apply nth_error_nth. rewrite nth_error_map, Eb. reflexivity.
  - intros p k u Hp. destruct (K p Hp) as (b & M & cs & l & Eb & _ & _ & E & Ll & Hl). rewrite <- Hl.
    rewrite nth_error_map, (nth_error_nth' _ 0) by (rewrite seq_length; auto). rewrite seq_nth by auto. cbn [option_map plus].
    assert (f p = l) as -> by (unfold f; rewrite E; auto). split; [intros (x & [= <-] & G); exact G|eauto].
Qed.
End T.

(* ------------------------------------------------------------------ *)
(** * Boundary vertices of three patches *)
Section C.
Variable DI : dinput.
Notation I := (dring DI).
Hypothesis RI : ring_input I.
Variable m : cmap.
Hypothesis V : vals I m.
Notation t := (ritopo I).
Notation np := (length (ribases I)).
Hypothesis Hsup : forall c, fst c < np -> dsup I c = true.
Notation S0 := (shadow I).
Let Hcons : consistent t := ri_topo I RI.
Notation cls := (cls t).
Notation valence := (valence t).
Notation inner := (inner t).
Notation ifl := (ifl t).
Notation sizes := (sizes I).
Notation D := (dofs_from 0 sizes).
Notation B := (B I).
Notation rbas := (rbas I).
Notation tri := (tri I).
Notation ridx := (ridx m).
Notation vmarks := (marks S0 vertIndex (@fst nat corner)).
Let rvalidc := rvalidc I RI.
Let np0 := np0 I.
Let ES : cmsizes m = sizes := va_sizes I m V.

Definition outer (c : pcorner) : bool := negb (ifl c 0) || negb (ifl c 1).
Definition sgn (c : pcorner) (q : Q) : Q := if outer c then q else (- q)%Q.

Lemma lone (c : pcorner) : fst c < np -> dnext t (c, 0) = None -> dnext t (c, 1) = None -> valence c <= 1.
Proof.
  intros Hc E0 E1. pose proof (proj2 (rvalidc c) Hc) as Hv. assert (forall x, In x (cls c) -> x = c) as K.
  { intros x Hx. apply (in_cls t Hcons) in Hx; auto. remember c as a eqn:Ea. revert E0 E1. induction Hx as [|a b x Hr IH Hin]; intros E0 E1; auto.
    specialize (IH Ea Hc Hv E0 E1). subst b. apply in_cn in Hin. destruct Hin as (d & d' & Hd & En). destruct d as [|[|]]; [congruence|congruence|lia]. }
  pose proof (cls_nodup t Hcons c Hv) as N. unfold TopoProofs.valence. destruct (cls c) as [|a [|b l]]; simpl; try lia. exfalso.
  inversion N as [|? ? N1 _]; subst. apply N1. rewrite (K a), (K b); simpl; auto.
Qed.

Lemma outer_two (c : pcorner) : fst c < np -> tri c = true -> length (filter outer (cls c)) = 2.
Proof.
  intros Hc T. destruct (tri3 DI RI Hsup c Hc T) as [Ev Ei]. rewrite <- (bdarts_two DI RI c Hc Ei). unfold bdarts.
  assert (forall c', In c' (cls c) -> dnext t (c', 0) = None -> dnext t (c', 1) = None -> False) as K.
  { intros c' Hc' E0 E1. pose proof (lone c' (rcls_valid I RI c c' Hc Hc') E0 E1) as L. rewrite (valence_cls t Hcons c c') in L; [lia| |auto]. apply rvalidc; auto. }
  revert K. generalize (cls c). induction l as [|a l IH]; intros K; auto.
  specialize (IH (fun c' H => K c' (or_intror H))). cbn [filter darts flat_map app]. change (flat_map (fun c => [(c, 0); (c, 1)]) l) with (darts l).
  assert (outer a = true <-> dnext t (a, 0) = None \/ dnext t (a, 1) = None) as Ho.
  { unfold outer. assert (forall d, ifl a d = false <-> dnext t (a, d) = None) as G.
    { intros d. split; [|apply (dnext_none DI)]. intros F. destruct (dnext t (a, d)) as [[c' d']|] eqn:En; auto. exfalso.
      assert (ifl a d = true) by (apply (ifl_dnext DI); eauto). congruence. }
    rewrite <- !G. destruct (ifl a 0), (ifl a 1); simpl; intuition discriminate. }
  specialize (K a (or_introl eq_refl)).
  destruct (dnext t (a, 0)) eqn:E0, (dnext t (a, 1)) eqn:E1, (outer a) eqn:Eo; simpl; try (rewrite IH; reflexivity); try (exfalso; auto; fail);
    try (destruct Ho as [Ho _]; destruct (Ho eq_refl); discriminate); try (assert (false = true) by (apply Ho; auto); discriminate).
Qed.

Lemma step_ok (c : pcorner) bb bi vc P : fst c < np -> vmarks vc P -> (outer c = true \/ bi = None) ->
  exists vc', v3Step I m (bb, bi, vc) c = Ok ((if outer c then bb ++ [ridx (B c 1 1)] else bb), (if outer c then bi else Some (ridx (B c 1 1))), vc') /\
    vmarks vc' (fun x => x = c \/ P x).
Proof.
  intros Hc Hm Ho. unfold v3Step. rewrite (rbas_get I RI) by auto. cbn [bind].
  change (rifv (rbas (fst c)) 1 (snd c) (cside (snd c) 0) 1) with (snd (B c 1 1)). change (cindex m (snd (B c 1 1)) (fst c)) with (cindex m (snd (B c 1 1)) (fst (B c 1 1))).
  rewrite (cindex_ok sizes m ES) by (apply (B_in I RI); auto). cbn [bind]. rewrite !(isBoundary_ifl I RI) by auto. fold (outer c).
  destruct (vmarks_set S0 vc P c Hm (np0 _ Hc)) as (vc' & E & Hm'). exists vc'. split; auto.
  destruct (outer c).
  - cbn [bind]. rewrite E. reflexivity.
  - destruct Ho as [Ho| ->]; [discriminate|]. cbn [bind]. rewrite E. reflexivity.
Qed.

Lemma correct_ok (coefs : list Q) vc P (pc : pcorner) : fst pc < np -> tri pc = true -> vmarks vc P -> length coefs = cfreeSize m ->
  exists q vc', v3Correct I m coefs vc pc = Ok (upd coefs (ridx (B pc 0 0)) q, vc') /\ vmarks vc' (fun x => In x (cls pc) \/ P x) /\
    (q == sumQ (map (fun c => sgn c (coef_of coefs (ridx (B c 1 1)))) (cls pc)))%Q.
Proof.
  intros Hp T Hm L. pose proof (outer_two pc Hp T) as Two. destruct (tri3 DI RI Hsup pc Hp T) as [Ev Ei].
  unfold v3Correct. rewrite (cornerList_cls t Hcons pc) by (apply rvalidc; auto). cbn [bind].
  pose proof (rcls_valid I RI pc) as Vc. specialize (fun c => Vc c Hp).
  assert (forall c, In c (cls pc) -> ridx (B c 0 0) = ridx (B pc 0 0)) as Eq by (intros c Hc; apply (tri_eq DI RI m V); auto).
  unfold TopoProofs.valence in Ev. destruct (cls pc) as [|c1 [|c2 [|c3 [|]]]]; try discriminate. clear Ev.
  assert (fst c1 < np /\ fst c2 < np /\ fst c3 < np) as (P1 & P2 & P3) by (repeat split; apply Vc; simpl; auto).
  assert (forall c, fst c < np -> vget coefs (ridx (B c 1 1)) = Ok (coef_of coefs (ridx (B c 1 1)))) as G.
  { intros c Hc. unfold vget, coef_of. rewrite (nth_error_nth' _ 0%Q); auto. rewrite L. apply (ridx_lt sizes m ES); [apply (B_in I RI); auto|].
    rewrite (value11 DI RI m V c Hc). lia. }
  assert (cindex m (rcorner (rbas (fst c1)) (snd c1)) (fst c1) = Ok (ridx (B pc 0 0))) as E00.
  { rewrite rcorner_blk by (apply (rbas_like I RI); auto). change (cindex m (snd (B c1 0 0)) (fst (B c1 0 0)) = Ok (ridx (B pc 0 0))).
    rewrite (cindex_ok sizes m ES) by (apply (B_in I RI); auto). f_equal. apply Eq. simpl; auto. }
  assert (ridx (B pc 0 0) < length coefs) as Lt.
  { rewrite L. apply (ridx_lt sizes m ES); [apply (B_in I RI); auto|]. pose proof (value_tri DI RI m V pc Hp T). lia. }
  cbn [foldM].
  cbn [filter] in Two. unfold sgn.
  destruct (outer c1) eqn:O1, (outer c2) eqn:O2, (outer c3) eqn:O3; try discriminate Two.
  - destruct (step_ok c1 [] None vc P P1 Hm) as (v1 & -> & M1); auto. rewrite O1. cbn [bind foldM].
    destruct (step_ok c2 ([] ++ [ridx (B c1 1 1)]) None v1 _ P2 M1) as (v2 & -> & M2); auto. rewrite O2. cbn [bind foldM].
    match goal with |- context [v3Step I m (?a, ?b, v2) c3] => destruct (step_ok c3 a b v2 _ P3 M2) as (v3 & -> & M3) end; auto. rewrite O3. cbn [bind foldM app].
    rewrite (rbas_get I RI) by auto. cbn [bind]. rewrite E00. cbn [bind]. rewrite !G by auto. cbn [bind]. rewrite vset_ok by auto. cbn [bind].
    eexists _, v3. split; [reflexivity|]. split; [revert M3; apply marks_ext; intros x _; simpl; intuition|].
    cbn [map sumQ]. rewrite O1, O2, O3. ring.
  - destruct (step_ok c1 [] None vc P P1 Hm) as (v1 & -> & M1); auto. rewrite O1. cbn [bind foldM].
    destruct (step_ok c2 ([] ++ [ridx (B c1 1 1)]) None v1 _ P2 M1) as (v2 & -> & M2); auto. rewrite O2. cbn [bind foldM].
    match goal with |- context [v3Step I m (?a, ?b, v2) c3] => destruct (step_ok c3 a b v2 _ P3 M2) as (v3 & -> & M3) end; auto. rewrite O3. cbn [bind foldM app].
    rewrite (rbas_get I RI) by auto. cbn [bind]. rewrite E00. cbn [bind]. rewrite !G by auto. cbn [bind]. rewrite vset_ok by auto. cbn [bind].
    eexists _, v3. split; [reflexivity|]. split; [revert M3; apply marks_ext; intros x _; simpl; intuition|].
    cbn [map sumQ]. rewrite O1, O2, O3. ring.
  - destruct (step_ok c1 [] None vc P P1 Hm) as (v1 & -> & M1); auto. rewrite O1. cbn [bind foldM].
    match goal with |- context [v3Step I m (?a, ?b, v1) c2] => destruct (step_ok c2 a b v1 _ P2 M1) as (v2 & -> & M2) end; auto. rewrite O2. cbn [bind foldM].
    match goal with |- context [v3Step I m (?a, ?b, v2) c3] => destruct (step_ok c3 a b v2 _ P3 M2) as (v3 & -> & M3) end; auto. rewrite O3. cbn [bind foldM app].
    rewrite (rbas_get I RI) by auto. cbn [bind]. rewrite E00. cbn [bind]. rewrite !G by auto. cbn [bind]. rewrite vset_ok by auto. cbn [bind].
    eexists _, v3. split; [reflexivity|]. split; [revert M3; apply marks_ext; intros x _; simpl; intuition|].
    cbn [map sumQ]. rewrite O1, O2, O3. ring.
Qed.

(** ** all corners *)
Variable v0 : list Q.
Hypothesis L0 : length v0 = cfreeSize m.
Definition hit (pre : list pcorner) (c : pcorner) : Prop := exists c', In c' (cls c) /\ In c' pre /\ c0Count (riC0 I) c' = false.
Definition corrv (v : list Q) (c : pcorner) : Q := sumQ (map (fun c' => sgn c' (coef_of v (ridx (B c' 1 1)))) (cls c)).

Record pinv (pre : list pcorner) (st : list Q * list bool) : Prop := {
  pi_len : length (fst st) = cfreeSize m;
  pi_marks : exists Pm, vmarks (snd st) Pm /\ forall c, fst c < np -> tri c = true -> (Pm c <-> hit pre c);
  pi_other : forall r, r < cfreeSize m -> (forall c, fst c < np -> tri c = true -> ridx (B c 0 0) <> r) -> nth_error (fst st) r = nth_error v0 r;
  pi_hit : forall c, fst c < np -> tri c = true -> hit pre c -> (coef_of (fst st) (ridx (B c 0 0)) == corrv v0 c)%Q;
  pi_miss : forall c, fst c < np -> tri c = true -> ~ hit pre c -> nth_error (fst st) (ridx (B c 0 0)) = nth_error v0 (ridx (B c 0 0)) }.

Lemma hit_cls pre (c c' : pcorner) : fst c < np -> In c' (cls c) -> hit pre c <-> hit pre c'.
Proof.
  intros Hc Hc'. pose proof (cls_perm t Hcons c c' (proj2 (rvalidc c) Hc) Hc') as P.
  split; intros (x & H1 & H2); exists x; (split; [|exact H2]); [eapply Permutation_in; eauto|eapply Permutation_in; [symmetry; exact P|auto]].
Qed.
Lemma hit_snoc pre (pc c : pcorner) : hit (pre ++ [pc]) c <-> hit pre c \/ In pc (cls c) /\ c0Count (riC0 I) pc = false.
Proof.
  split.
  - intros (x & H1 & H2 & H3). apply in_app_iff in H2. destruct H2 as [H2|[<-|[]]]; [left; exists x; auto|right; auto].
  - intros [(x & H1 & H2 & H3)|[H1 H2]]; [exists x; rewrite in_app_iff; auto|exists pc; rewrite in_app_iff; simpl; auto].
Qed.

Lemma pinv_same pre st pc : pinv pre st -> (forall c, fst c < np -> tri c = true -> (hit (pre ++ [pc]) c <-> hit pre c)) -> pinv (pre ++ [pc]) st.
Proof.
  intros [H1 (Pm & M & HM) H3 H4 H5] K. constructor; auto.
  - exists Pm. split; auto. intros c Hc T. rewrite K by auto. auto.
  - intros c Hc T H. apply H4; auto. apply K; auto.
  - intros c Hc T H. apply H5; auto. rewrite <- K by auto. auto.
Qed.

Lemma row_tri (c : pcorner) : fst c < np -> tri c = true -> ridx (B c 0 0) < cfreeSize m.
Proof. intros Hc T. apply (ridx_lt sizes m ES); [apply (B_in I RI); auto|]. pose proof (value_tri DI RI m V c Hc T). lia. Qed.
Lemma row11 (c c' : pcorner) : fst c < np -> fst c' < np -> tri c' = true -> ridx (B c' 0 0) <> ridx (B c 1 1).
Proof.
  intros Hc Hc' T E. symmetry in E. apply (ridx_neq DI RI m V) in E; try (apply (B_in I RI); auto); [|apply (value11 DI RI m V); auto|pose proof (value_tri DI RI m V c' Hc' T); lia].
  apply (B_inj I RI) in E; auto. destruct E as (_ & E & _). discriminate.
Qed.
Lemma tri_row (c c' : pcorner) : fst c < np -> fst c' < np -> tri c = true -> tri c' = true -> ridx (B c 0 0) = ridx (B c' 0 0) -> In c' (cls c).
Proof.
  intros Hc Hc' T T' E. pose proof (value_tri DI RI m V c Hc T). pose proof (value_tri DI RI m V c' Hc' T').
  destruct (ridx_inj sizes m ES (B c 0 0) (B c' 0 0)) as [E'|[_ E']]; auto; try (apply (B_in I RI); auto); try lia.
  - apply (B_inj I RI) in E'; auto. destruct E' as (<- & _). apply (cls_self t Hcons), rvalidc; auto.
  - apply (va_group I m V) in E'; auto.
Qed.
Lemma same11 v : (forall r, r < cfreeSize m -> (forall c, fst c < np -> tri c = true -> ridx (B c 0 0) <> r) -> nth_error v r = nth_error v0 r) ->
  forall c, fst c < np -> coef_of v (ridx (B c 1 1)) = coef_of v0 (ridx (B c 1 1)).
Proof.
  intros H c Hc. unfold coef_of. apply (f_equal (fun o => match o with Some q => q | None => 0%Q end)) with (x := nth_error v (ridx (B c 1 1))) (y := nth_error v0 (ridx (B c 1 1))) in H as E.
  - assert (forall (w : list Q) i, match nth_error w i with Some q => q | None => 0%Q end = nth i w 0%Q) as K.
    { induction w as [|x w IH]; intros [|i]; simpl; auto. }
    rewrite !K in E. exact E.
  - apply (ridx_lt sizes m ES); [apply (B_in I RI); auto|]. rewrite (value11 DI RI m V c Hc). lia.
  - intros c' Hc' T. apply row11; auto.
Qed.

Lemma pstep pre st pc : fst pc < np -> pinv pre st -> exists st', dpPreStep I m st pc = Ok st' /\ pinv (pre ++ [pc]) st'.
Proof.
  intros Hp HI. pose proof HI as [H1 (Pm & M & HM) H3 H4 H5]. unfold dpPreStep. destruct M as [ML MM]. destruct (MM pc (np0 _ Hp)) as (b & Eb & Hb).
  rewrite Eb. cbn [bind]. destruct b.
  { exists st. split; auto. apply pinv_same; auto. intros c Hc T. rewrite hit_snoc. split; auto. intros [H|[Hin _]]; auto.
    apply (hit_cls pre c pc Hc Hin). apply HM; auto; [|apply Hb; auto]. rewrite (tri_cls I RI c pc); auto. }
  rewrite (rvertexData I RI pc Hp). cbn [bind fst snd]. destruct (c0Count (riC0 I) pc) eqn:C0.
  { exists st. split; auto. apply pinv_same; auto. intros c Hc T. rewrite hit_snoc. split; auto. intros [H|[_ H]]; auto. congruence. }
  assert ((valence pc =? 3) && negb (inner pc) = tri pc) as Et.
  { unfold DpProofs.tri. pose proof (Hsup pc Hp) as Hs. unfold dsup in Hs. destruct (inner pc); cbn [negb andb orb] in *; [rewrite andb_false_r; auto|].
    rewrite andb_true_r. apply Nat.leb_le in Hs. destruct (Nat.eqb_spec (valence pc) 3) as [->|N]; [reflexivity|]. symmetry. apply Nat.ltb_ge. lia. }
  rewrite Et. destruct (tri pc) eqn:T.
  - destruct (correct_ok (fst st) (snd st) Pm pc Hp T (conj ML MM) H1) as (q & vc' & -> & M' & Eq). eexists. split; [reflexivity|].
    pose proof (row_tri pc Hp T) as Lr. constructor; cbn [fst snd].
    + rewrite upd_length. auto.
    + exists (fun x => In x (cls pc) \/ Pm x). split; auto. intros c Hc Tc. rewrite hit_snoc, (HM c Hc Tc).
      assert (In c (cls pc) <-> In pc (cls c)) as E by (split; intros G; apply (in_cls_sym t Hcons); auto; apply rvalidc; auto). rewrite E. tauto.
    + intros r Hr N. rewrite nth_error_upd by lia. destruct (Nat.eqb_spec r (ridx (B pc 0 0))) as [->|]; [exfalso; apply (N pc); auto|apply H3; auto].
    + intros c Hc Tc Hh. assert (forall i w, i < length w -> forall q, nth_error w i = Some q -> coef_of w i = q) as K by (intros i w _ x E; unfold coef_of; apply nth_error_nth; auto).
      destruct (Nat.eq_dec (ridx (B c 0 0)) (ridx (B pc 0 0))) as [E|N].
      * rewrite (K (ridx (B c 0 0)) (upd (fst st) (ridx (B pc 0 0)) q) ltac:(rewrite upd_length, E; lia) q) by (rewrite nth_error_upd, E, Nat.eqb_refl by lia; reflexivity).
        rewrite Eq. assert (In c (cls pc)) as Hin by (apply tri_row; auto). unfold corrv.
        rewrite <- (sumQ_perm _ _ (Permutation_map _ (cls_perm t Hcons pc c (proj2 (rvalidc pc) Hp) Hin))).
        apply sumQ_map_ext. intros c' Hc'. rewrite (same11 (fst st) H3 c' (rcls_valid I RI pc c' Hp Hc')). reflexivity.
      * assert (coef_of (upd (fst st) (ridx (B pc 0 0)) q) (ridx (B c 0 0)) = coef_of (fst st) (ridx (B c 0 0))) as ->.
        { pose proof (row_tri c Hc Tc) as Lc. destruct (nth_error (fst st) (ridx (B c 0 0))) as [u|] eqn:Eu; [|apply nth_error_None in Eu; lia].
          rewrite (K (ridx (B c 0 0)) (fst st) ltac:(lia) u Eu). apply K; [rewrite upd_length; lia|]. rewrite nth_error_upd by lia. rewrite (proj2 (Nat.eqb_neq _ _) N). exact Eu. }
        apply H4; auto. apply hit_snoc in Hh. destruct Hh as [Hh|[Hin _]]; auto. exfalso. apply N.
        symmetry. apply (tri_eq DI RI m V c pc); auto.
    + intros c Hc Tc Hn. rewrite nth_error_upd by lia. destruct (Nat.eqb_spec (ridx (B c 0 0)) (ridx (B pc 0 0))) as [E|N].
      * exfalso. apply Hn, hit_snoc. right. split; auto. apply tri_row; auto.
      * apply H5; auto. intros Hh. apply Hn, hit_snoc. auto.
  - destruct (vmarks_set S0 (snd st) Pm pc (conj ML MM) (np0 _ Hp)) as (vc' & -> & M'). cbn [bind]. eexists. split; [reflexivity|].
    assert (forall c, fst c < np -> tri c = true -> (hit (pre ++ [pc]) c <-> hit pre c)) as K.
    { intros c Hc Tc. rewrite hit_snoc. split; auto. intros [H|[H _]]; auto. rewrite (tri_cls I RI c pc) in T; auto. congruence. }
    apply (pinv_same pre (fst st, vc') pc); auto. constructor; cbn [fst snd]; auto. exists (fun x => x = pc \/ Pm x). split; auto.
    intros c Hc Tc. rewrite <- HM by auto. split; auto. intros [->|?]; auto. congruence.
Qed.

Lemma ploop : exists st, foldM (dpPreStep I m) (all_corners np) (v0, repeat false (4 * np)) = Ok st /\ pinv (all_corners np) st.
Proof.
  apply foldM_inv.
  - constructor; cbn [fst snd]; auto.
    + exists (fun _ => False). split; [|intros c _ _; split; [intros []|intros (x & _ & [] & _)]].
      pose proof (vmarks_init S0) as M. unfold nVerts in M. rewrite shadow_np in M. exact M.
    + intros c _ _ (x & _ & [] & _).
  - intros pre x post s E. apply pstep. apply in_all_corners. rewrite E. apply in_elt.
Qed.
End C.

(* ------------------------------------------------------------------ *)
(** * The theorems *)
Section M.
Variable DI : dinput.
Notation I := (dring DI).
Hypothesis RI : ring_input I.
Hypothesis RM : rows_match DI.
Notation t := (ritopo I).
Notation np := (length (ribases I)).
Hypothesis SU : supported SchemeDPatch t.
Let Hcons : consistent t := ri_topo I RI.
Notation cls := (cls t).
Notation sizes := (sizes I).
Notation D := (dofs_from 0 sizes).
Notation B := (B I).
Notation tri := (tri I).
Notation cidx := (cidx sizes).
Let rvalidc := rvalidc I RI.
Let Hsup := dsups DI RI SU.
Variables (T : list tmat) (P : list (list Q)).
Hypothesis FT : fits_refined DI T P.

(** the coefficients in terms of the values of the mapper *)
Record pre_coefs (m : cmap) (v : list Q) : Prop := {
  pc_len : length v = cfreeSize m;
  pc_own : forall x u, In x D -> cmval m x = 0%Z -> transferred T P (fst x) (snd x) u -> nth_error v (ridx m x) = Some u;
  pc_hit : forall c, fst c < np -> tri c = true -> hit DI (all_corners np) c -> (coef_of v (ridx m (B c 0 0)) == corrv DI m v c)%Q;
  pc_miss : forall c, fst c < np -> tri c = true -> ~ hit DI (all_corners np) c ->
    exists c' u, In c' (cls c) /\ transferred T P (fst c') (snd (B c' 0 0)) u /\ nth_error v (ridx m (B c 0 0)) = Some u }.

Lemma pre_coefs_ok m R : is_dres DI m R -> exists v, dpPre I m T P = Ok v /\ pre_coefs m v.
Proof.
  intros HR. pose proof (proj1 (proj2 HR)) as V. pose proof (va_sizes I m V) as ES. destruct (dpTransferred_ok DI T P FT) as (tmp & E & Lt & Ht).
  assert (map (@length Q) tmp = sizes) as Lt' by exact Lt.
  destruct (cfreeCoefs_some sizes m ES 0%Q tmp Lt') as (v0 & E0 & L0 & H0).
  destruct (ploop DI RI m V Hsup v0 L0) as (st & E1 & [H1 _ H3 H4 H5]). exists (fst st).
  split; [unfold dpPre; rewrite E; cbn [bind]; rewrite E0; cbn [bind]; rewrite E1; reflexivity|].
  assert (forall x u, In x D -> transferred T P (fst x) (snd x) u <-> u = ExportProofs.at_dof 0%Q tmp x) as Hx.
  { intros x u Hx. destruct (PreProofs.P_get sizes 0%Q tmp Lt' x Hx) as (cs & _ & _ & G1 & G2).
    assert (fst x < np) as Hp by (unfold sizes in Lt'; apply (f_equal (@length nat)) in Lt'; rewrite !map_length in Lt'; rewrite <- Lt'; apply nth_error_Some; congruence).
    rewrite <- (Ht (fst x) (snd x) u Hp). rewrite G1. split; [intros (cs' & [= <-] & G); congruence|intros ->; eauto]. }
  constructor; auto.
  - intros x u Hin Zx Hu. apply (Hx x u Hin) in Hu. subst u. rewrite H3.
    + destruct (H0 x Hin ltac:(lia)) as (y & Hy & Fy & Ey & ->). symmetry in Ey. apply (ridx_neq DI RI m V) in Ey; auto. subst y. reflexivity.
    + apply (ridx_lt sizes m ES); auto. lia.
    + intros c Hc Tc Er. symmetry in Er. pose proof (value_tri DI RI m V c Hc Tc). apply (ridx_neq DI RI m V) in Er; auto; [|apply (B_in I RI); auto|lia]. subst x. lia.
  - intros c Hc Tc Hh. rewrite (H4 c Hc Tc Hh). unfold corrv. apply sumQ_map_ext. intros c' Hc'.
    rewrite (same11 DI RI m V v0 L0 (fst st) H3 c' (rcls_valid I RI c c' Hc Hc')). reflexivity.
  - intros c Hc Tc Hh. assert (In (B c 0 0) D) as Hin by (apply (B_in I RI); auto). pose proof (value_tri DI RI m V c Hc Tc) as Pc.
    destruct (H0 (B c 0 0) Hin ltac:(lia)) as (y & Hy & Fy & Ey & G).
    destruct (ridx_inj sizes m ES y (B c 0 0) Hy Hin Fy ltac:(lia) Ey) as [->|[Py Eq]].
    + exists c, (ExportProofs.at_dof 0%Q tmp (B c 0 0)). split; [apply (cls_self t Hcons), rvalidc; auto|]. split; [apply (Hx (B c 0 0)); auto|]. rewrite (H5 c Hc Tc Hh). auto.
    + destruct (coupled_tri DI RI RM SU m R HR y Hy Py) as (c' & Hc' & Tc' & ->). exists c', (ExportProofs.at_dof 0%Q tmp (B c' 0 0)).
      split; [apply (va_group I m V); auto|]. split; [apply (Hx (B c' 0 0)); auto|]. rewrite (H5 c Hc Tc Hh). auto.
Qed.

Lemma own_zero m R p k r : is_dres DI m R -> own_row DI R p k -> cindex m k p = Ok r -> In (p, k) D /\ cmval m (p, k) = 0%Z /\ r = ridx m (p, k).
Proof.
  intros HR (r' & Ei & Lr & Hu) Er. pose proof HR as (_ & V & R1 & R2 & R3 & E1 & E2). rewrite R1, Er in Ei. injection Ei as <-.
  pose proof (va_sizes I m V) as ES.
  assert (In (p, k) D) as Hin.
  { unfold cindex in Er. destruct (cvalid m (p, k)) eqn:Ec; [|discriminate]. apply (cvalid_in sizes m (p, k) ES) in Ec. exact Ec. }
  pose proof (cindex_ok sizes m ES (p, k) Hin) as Ec. cbn [fst snd] in Ec. rewrite Er in Ec. injection Ec as ->. split; auto. split; auto.
  destruct (Z.lt_trichotomy (cmval m (p, k)) 0) as [N|[Z|Pz]]; auto.
  - exfalso. unfold ridx in Lr. rewrite R2, (cfree_split m) in Lr. assert ((cmval m (p, k) =? 0)%Z = false) as Ea by lia. rewrite Ea in Lr.
    assert ((0 <? cmval m (p, k))%Z = false) as Eb by lia. rewrite Eb in Lr. lia.
  - exfalso. destruct (coupled_tri DI RI RM SU m R HR (p, k) Hin Pz) as (c & Hc & Tc & E). specialize (Hu (ridx m (p, k)) Lr). rewrite Nat.eqb_refl in Hu.
    change (dcolumn DI p k) with (dcolumn DI (fst (p, k)) (snd (p, k))) in Hu. rewrite <- (cidx_dof DI RI (p, k) Hin) in Hu.
    pose proof (k_tri0 DI m c Hc Tc) as K. rewrite E in Hu. assert (In (B c 0 0) D) as Hin' by (rewrite <- E; auto). rewrite (E1 _ _ _ quarter Hin' K (or_introl eq_refl)) in Hu. discriminate.
Qed.

Lemma dpre_thm R : dCompute DI = Ok R -> exists v, dpPre I (drMap R) T P = Ok v /\ length v = drRows R /\
  forall p k r u, own_row DI R p k -> cindex (drMap R) k p = Ok r -> transferred T P p k u -> nth_error v r = Some u.
Proof.
  intros E. destruct (some_res DI RI RM SU R E) as (m & HR). pose proof HR as (_ & V & R1 & R2 & _).
  destruct (pre_coefs_ok m R HR) as (v & Ev & [H1 H2 _ _]). rewrite R1, R2. exists v. split; auto. split; auto.
  intros p k r u Ho Er Hu. destruct (own_zero m R p k r HR Ho Er) as (Hin & Z & ->). apply (H2 (p, k)); auto.
Qed.

Lemma c0Count_iff C0 (c : pcorner) : c0Count C0 c = true <-> In true C0 /\ snd c = SW.
Proof.
  unfold c0Count. rewrite existsb_exists. split.
  - intros ([|] & H1 & H2); apply Nat.eqb_eq in H2; destruct (snd c); try discriminate. auto.
  - intros [H1 H2]. exists true. rewrite H2. auto.
Qed.
Lemma hit_iff c c1 c2 c3 : fst c < np -> Permutation [c1; c2; c3] (cls c) -> hit DI (all_corners np) c <-> ~ skipped DI c1 c2 c3.
Proof.
  intros Hc Hp. unfold hit, skipped, some_sharp. split.
  - intros (c' & H1 & _ & H3) (S1 & E1 & E2 & E3). assert (c0Count (riC0 I) c' = true) as E; [|congruence]. apply c0Count_iff. split; auto.
    apply (Permutation_in _ (Permutation_sym Hp)) in H1. destruct H1 as [<-|[<-|[<-|[]]]]; auto.
  - intros N. assert (forall c', In c' [c1; c2; c3] -> In c' (cls c) /\ In c' (all_corners np)) as K.
    { intros c' H. assert (In c' (cls c)) as G by (eapply Permutation_in; eauto). split; auto. apply in_all_corners, (rcls_valid I RI c); auto. }
    destruct (c0Count (riC0 I) c1) eqn:E1; [|exists c1; destruct (K c1); simpl; auto].
    destruct (c0Count (riC0 I) c2) eqn:E2; [|exists c2; destruct (K c2); simpl; auto].
    destruct (c0Count (riC0 I) c3) eqn:E3; [|exists c3; destruct (K c3); simpl; auto].
    exfalso. apply c0Count_iff in E1, E2, E3. apply N. tauto.
Qed.
Lemma outer_iff (c : pcorner) : fst c < np -> outer DI c = true <-> outer_corner DI c.
Proof.
  intros Hc. assert (forall d, ifl t c d = false <-> In (fst c, cside (snd c) d) (tbd t)) as K.
  { intros d. pose proof (isBoundary_ifl I RI c d Hc) as E. unfold isBoundary in E. split.
    - intros F. rewrite F in E. apply existsb_exists in E. destruct E as (ps & H & Eq). destruct ps as [p s]. unfold ps_eqb in Eq. cbn [fst snd] in Eq.
      apply andb_true_iff in Eq. destruct Eq as [E1 E2]. apply Nat.eqb_eq in E1. subst p. destruct s, (cside (snd c) d); try discriminate; auto.
    - intros H. destruct (ifl t c d); auto. cbn [negb] in E. rewrite existsb_false in E. specialize (E _ H). unfold ps_eqb in E. rewrite Nat.eqb_refl in E.
      cbn [fst snd andb] in E. destruct (cside (snd c) d); discriminate. }
  unfold outer. split.
  - intros H. apply orb_true_iff in H. destruct H as [H|H]; apply negb_true_iff, K in H; eexists; (split; [|exact H]); apply touches_on; apply on_side_cside.
  - intros (s & H1 & H2). apply touches_on in H1. rewrite <- (cside_of_on _ _ H1) in H2. apply K in H2. destruct (side_dir s) as [|[|]] eqn:Es; [| |destruct s; discriminate];
      rewrite H2; cbn [negb orb]; auto using orb_true_r.
Qed.

Lemma inner_index (b : pcorner) : snd (B b 1 1) = rifv (basis_at DI (fst b)) 1 (snd b) (cside (snd b) 0) 1. Proof. reflexivity. Qed.

Lemma inner_point_thm R v (b : pcorner) u : dCompute DI = Ok R -> dpPre I (drMap R) T P = Ok v -> fst b < np ->
  transferred T P (fst b) (rifv (basis_at DI (fst b)) 1 (snd b) (cside (snd b) 0) 1) u -> (dcontrol R (coef_of v) (inner_column DI b) == u)%Q.
Proof.
  intros E Ev Hb Hu. destruct (some_res DI RI RM SU R E) as (m & HR). pose proof HR as (_ & V & R1 & R2 & _). rewrite R1 in Ev.
  destruct (pre_coefs_ok m R HR) as (v' & Ev' & [H1 H2 _ _]). rewrite Ev in Ev'. injection Ev' as <-.
  rewrite (proj1 (inner_col DI RI RM m R (coef_of v) b HR Hb)). unfold coef_of. rewrite (nth_error_nth v _ 0%Q (H2 (B b 1 1) u (B_in I RI b 1 1 Hb ltac:(lia) ltac:(lia)) (value11 DI RI m V b Hb) Hu)). reflexivity.
Qed.

Lemma dvertex_thm R v c c1 c2 c3 : dCompute DI = Ok R -> dpPre I (drMap R) T P = Ok v -> fan_of DI c c1 c2 c3 -> ~ skipped DI c1 c2 c3 ->
  let g b := dcontrol R (coef_of v) (inner_column DI b) in
  forall b s, In b [c1; c2; c3] -> touches (snd b) s ->
    (dcontrol R (coef_of v) (vcolumn DI b s 0 0) == (1 # 2) * (g c1 + g c3))%Q /\
    (In (fst b, s) (tbd t) -> (dcontrol R (coef_of v) (vcolumn DI b s 1 0) == (1 # 2) * (g b + (g c1 + g c3 - g c2)))%Q).
Proof.
  intros E Ev (Hc & Hni & Hval & N & Hl & O1 & O3 & O2) Hs g b s Hb Ts.
  destruct (some_res DI RI RM SU R E) as (m & HR). pose proof HR as (_ & V & R1 & R2 & _). rewrite R1 in Ev.
  destruct (pre_coefs_ok m R HR) as (v' & Ev' & [H1 H2 H3 _]). rewrite Ev in Ev'. injection Ev' as <-.
  destruct (boundary3_row DI RI RM m R c [c1; c2; c3] HR Hc Hni Hval N Hl) as (Tc & Pc & Lr & G).
  assert (forall x, In x [c1; c2; c3] -> fst x < np) as Hnp by (intros x Hx; apply (rcls_valid I RI c); auto; eapply Permutation_in; eauto).
  assert (coef_of v (ridx m (B c 0 0)) == g c1 + g c3 - g c2)%Q as Ee.
  { rewrite (H3 c Hc Tc (proj2 (hit_iff c c1 c2 c3 Hc Pc) Hs)). unfold corrv. rewrite <- (sumQ_perm _ _ (Permutation_map _ Pc)). cbn [map sumQ]. unfold sgn.
    rewrite (proj2 (outer_iff c1 (Hnp c1 ltac:(simpl; auto))) O1), (proj2 (outer_iff c3 (Hnp c3 ltac:(simpl; auto))) O3).
    assert (outer DI c2 = false) as -> by (destruct (outer DI c2) eqn:F; auto; exfalso; apply O2, outer_iff; auto; apply Hnp; simpl; auto).
    unfold g. rewrite !(fun b Hb => proj1 (inner_col DI RI RM m R (coef_of v) b HR Hb)) by (apply Hnp; simpl; auto). ring. }
  destruct (G (coef_of v) b s Hb Ts) as [G1 G2]. split.
  - rewrite G1, Ee. cbn [map sumQ]. fold (g c1) (g c2) (g c3). ring.
  - intros Hbd. rewrite (G2 Hbd), Ee. reflexivity.
Qed.

Lemma dskipped_thm R v c c1 c2 c3 : dCompute DI = Ok R -> dpPre I (drMap R) T P = Ok v -> fan_of DI c c1 c2 c3 -> skipped DI c1 c2 c3 ->
  let g b := dcontrol R (coef_of v) (inner_column DI b) in
  exists b0 u, In b0 [c1; c2; c3] /\ transferred T P (fst b0) (rcorner (basis_at DI (fst b0)) (snd b0)) u /\
  forall b s, In b [c1; c2; c3] -> touches (snd b) s ->
    (dcontrol R (coef_of v) (vcolumn DI b s 0 0) == (1 # 4) * (u + g c1 + g c2 + g c3))%Q /\
    (In (fst b, s) (tbd t) -> (dcontrol R (coef_of v) (vcolumn DI b s 1 0) == (1 # 2) * (g b + u))%Q).
Proof.
  intros E Ev (Hc & Hni & Hval & N & Hl & O1 & O3 & O2) Hs g.
  destruct (some_res DI RI RM SU R E) as (m & HR). pose proof HR as (_ & V & R1 & R2 & _). rewrite R1 in Ev.
  destruct (pre_coefs_ok m R HR) as (v' & Ev' & [H1 H2 _ H3]). rewrite Ev in Ev'. injection Ev' as <-.
  destruct (boundary3_row DI RI RM m R c [c1; c2; c3] HR Hc Hni Hval N Hl) as (Tc & Pc & Lr & G).
  destruct (H3 c Hc Tc) as (b0 & u & Hb0 & Hu & Ee); [rewrite (hit_iff c c1 c2 c3 Hc Pc); tauto|].
  exists b0, u. split; [eapply Permutation_in; [symmetry; exact Pc|auto]|].
  split; [change (basis_at DI (fst b0)) with (rbas I (fst b0)); rewrite rcorner_blk by (apply (rbas_like I RI), (rcls_valid I RI c); auto); exact Hu|].
  intros b s Hb Ts. destruct (G (coef_of v) b s Hb Ts) as [G1 G2].
  assert (coef_of v (ridx m (B c 0 0)) = u) as Eu by (unfold coef_of; apply nth_error_nth; exact Ee). rewrite Eu in *. split.
  - rewrite G1. cbn [map sumQ]. fold (g c1) (g c2) (g c3). ring.
  - intros Hbd. apply (G2 Hbd).
Qed.
End M.
