(** The smoothing matrix of gsAlmostC1: statements of C67. *)
From Verif Require Import Common TopoModel BaseModel BaseModel2 IndexSpec TopoSpec SmoothSpec SmoothSpec2 RingModel RingSpec DpModel DpSpec
  IndexProofs IndexTopoProofs ListLemmas TopoProofs PointProofs MapperProofs CountProofs MatrixProofs HandlerProofs ResultProofs GeometryProofs
  RingProofs RingProofs2 RingProofs3 DpProofs DpProofs2 DpProofs3 DpProofs4 AcModel AcSpec AcProofs AcProofs2 AcProofs3.
From Coq Require Import ZifyBool.
Open Scope nat_scope.

Section F.
Variable DI : dinput.
Notation I := (dring DI).
Hypothesis RI : ring_input I.
Hypothesis RM : rows_match DI.
Notation t := (ritopo I).
Notation np := (length (ribases I)).
Hypothesis SU : supported SchemeAlmostC1 t.
Let Hcons : consistent t := ri_topo I RI.
Let Hnp : tnp t = np := ri_np I RI.
Notation cls := (cls t).
Notation valence := (valence t).
Notation inner := (inner t).
Notation ifl := (ifl t).
Notation rc0 := (rc0 I).
Notation sizes := (sizes I).
Notation D := (dofs_from 0 sizes).
Notation B := (B I).
Notation rbas := (rbas I).
Notation cidx := (cidx sizes).
Notation dpt := (dpt DI).
Notation rem1 := (rem1 DI).
Notation rem2 := (rem2 DI).
Let rvalidc := rvalidc I RI.

Lemma asups (c : pcorner) : fst c < np -> sup I SchemeAlmostC1 c = true.
Proof. intros H. apply (proj1 (supported_sup I RI SchemeAlmostC1) SU c H). Qed.

Definition is_ares (m : cmap) (R : dresult) : Prop :=
  rMapper SchemeAlmostC1 I = Ok m /\ avals I m /\ drMap R = m /\ drRows R = cfreeSize m /\ drCols R = cfreeSize (cmap_of sizes) /\
  (forall y P r w, In y D -> akid DI m y P -> In (r, w) P -> dentry R r (cidx y) = w) /\
  (forall y P r, In y D -> akid DI m y P -> (forall w, ~ In (r, w) P) -> dentry R r (cidx y) = 0%Q).

Lemma acompute_ok : exists m R, acCompute DI = Ok R /\ is_ares m R.
Proof.
  destruct (aMapper_val I RI asups) as (m & Em & V). destruct (ring_count I RI SchemeAlmostC1 SU) as (m' & Em' & Ec).
  rewrite Em in Em'. injection Em' as <-.
  destruct (amatrix_ok DI RI RM m V) as (s & Es & Ep & E1 & E2).
  exists m, (mkDR (cfreeSize m) (cfreeSize (cmap_of sizes)) m (xs_mat s)). split.
  - unfold acCompute. rewrite Ec. cbn [bind]. rewrite Em. cbn [bind]. rewrite Z.eqb_refl. cbn [ensure bind]. rewrite Nat2Z.id.
    change (mkDC DI m (cfreeSize m) (cfreeSize (cmap_of (map rsize (ribases I))))) with (C DI m).
    rewrite Es. cbn [bind]. rewrite Ep. reflexivity.
  - unfold is_ares. auto 10.
Qed.

Notation cidx_column := (cidx_column DI RI).
Notation cidx_dof := (cidx_dof DI RI).
Notation vcol := (vcol DI RI).
Notation joined_dnext := (joined_dnext DI RI).

Section M.
Variable m : cmap.
Variable R : dresult.
Hypothesis HR : is_ares m R.
Notation ridx := (ridx m).
Let V : avals I m := proj1 (proj2 HR).
Let ES : cmsizes m = sizes := av_sizes I m V.
Notation own := (own DI m).
Notation keptd := (keptd DI m).

Lemma acontrol_spec coef y P : In y D -> akid DI m y P -> (dcontrol R coef (cidx y) == psum coef P)%Q.
Proof.
  intros Hy K. pose proof HR as (_ & _ & R1 & R2 & R3 & E1 & E2). unfold dcontrol.
  rewrite (sumQ_support _ (map fst P)).
  - rewrite map_map. unfold psum. apply sumQ_map_ext. intros [r w] Hin. cbn [fst snd]. rewrite (E1 y P r w); auto. ring.
  - apply seq_NoDup.
  - apply (akid_nodup DI RI RM m V y P); auto.
  - intros r Hr. apply in_map_iff in Hr. destruct Hr as ([r' w] & <- & Hin). cbn [fst]. apply in_seq.
    destruct (akid_rows DI RI RM m V y P r' w K Hy Hin) as (x & Hx & (Hz & _) & ->). pose proof (ridx_lt sizes m ES x Hx ltac:(lia)). lia.
  - intros r _ Hn. rewrite (E2 y P r); auto; [ring|]. intros w Hin. apply Hn. apply in_map_iff. exists (r, w). auto.
Qed.

Lemma acolumn_unity c : c < drCols R -> (sumQ (map (fun r => dentry R r c) (seq 0 (drRows R))) == 1)%Q.
Proof.
  intros Hc. pose proof HR as (_ & _ & R1 & R2 & R3 & _). rewrite R3 in Hc. destruct (cidx_onto sizes c Hc) as (y & Hy & <-).
  destruct (akid_total DI RI RM m V y Hy) as (P & K).
  transitivity (dcontrol R (fun _ => 1%Q) (cidx y)).
  - unfold dcontrol. apply sumQ_map_ext. intros r _. ring.
  - rewrite (acontrol_spec _ y P) by auto. unfold psum. rewrite <- (akid_sum DI RI m y P K). apply sumQ_map_ext. intros [r w] _. simpl. ring.
Qed.

Lemma aentry_range r c : c < drCols R -> (0 <= dentry R r c <= 1)%Q.
Proof.
  intros Hc. pose proof HR as (_ & _ & R1 & R2 & R3 & E1 & E2). rewrite R3 in Hc. destruct (cidx_onto sizes c Hc) as (y & Hy & <-).
  destruct (akid_total DI RI RM m V y Hy) as (P & K).
  destruct (in_dec Nat.eq_dec r (map fst P)) as [Hi|Hi].
  - apply in_map_iff in Hi. destruct Hi as ([r' w] & <- & Hi). cbn [fst]. rewrite (E1 y P r' w) by auto. apply (akid_weight DI RI m y P r' w); auto.
  - rewrite (E2 y P r); auto; [split; discriminate|]. intros w Hw. apply Hi. apply in_map_iff. exists (r, w). auto.
Qed.

Lemma own_own x : In x D -> own x -> own_row DI R (fst x) (snd x).
Proof.
  intros Hx Ox. pose proof (proj1 Ox) as Zx. pose proof HR as (_ & _ & R1 & R2 & R3 & E1 & E2). exists (ridx x). split; [rewrite R1; apply (cindex_ok sizes m ES x Hx)|].
  split; [rewrite R2; apply (ridx_lt sizes m ES); auto; lia|]. intros r' Hr'. rewrite <- cidx_dof by auto.
  destruct (r' =? ridx x) eqn:E.
  - apply Nat.eqb_eq in E. subst r'. apply (E1 x [(ridx x, 1%Q)]); auto; [apply ak_own; auto|left; auto].
  - apply Nat.eqb_neq in E. apply (E2 x [(ridx x, 1%Q)]); auto; [apply ak_own; auto|]. intros w [[= <- _]|[]]. congruence.
Qed.
Lemma own_control coef x : In x D -> own x -> (dcontrol R coef (cidx x) == coef (ridx x))%Q.
Proof. intros Hx Zx. rewrite (acontrol_spec coef x [(ridx x, 1%Q)]) by (auto; apply ak_own; auto). unfold psum. simpl. ring. Qed.

(** rows of averaged functions have no entries *)
Lemma kept_spare x : In x D -> keptd x -> spare R (ridx x).
Proof.
  intros Hx Kx c Hc. pose proof HR as (_ & _ & R1 & R2 & R3 & E1 & E2). rewrite R3 in Hc. destruct (cidx_onto sizes c Hc) as (y & Hy & <-).
  destruct (akid_total DI RI RM m V y Hy) as (P & K). apply (E2 y P); auto. intros w Hin.
  destruct (akid_rows DI RI RM m V y P _ w K Hy Hin) as (x' & Hx' & Ox' & Er). apply (aridx_neq DI RI m V) in Er; auto; [|apply Kx|apply Ox'].
  subst x'. apply (own_kept DI m x); auto.
Qed.

Lemma arows_independent coef : (forall c, c < drCols R -> (dcontrol R coef c == 0)%Q) -> forall r, r < drRows R -> (coef r == 0)%Q \/ spare R r.
Proof.
  intros H r Hr. pose proof HR as (_ & _ & R1 & R2 & R3 & E1 & E2). rewrite R2 in Hr. rewrite R3 in H.
  destruct (ridx_onto sizes m ES r Hr) as (x & Hx & Fx & <-).
  pose proof (val_le DI RI m V x Hx) as Le. assert (cmval m x = 0%Z) as Zx by lia.
  destruct (zero_cases DI RI m V x Zx) as [Ox|Kx]; [left|right; apply kept_spare; auto].
  rewrite <- (own_control coef x) by auto. apply H, cidx_lt, Hx.
Qed.

Lemma arows r : r < drRows R -> spare R r \/ exists x, In x D /\ own x /\ ridx x = r.
Proof.
  intros Hr. pose proof HR as (_ & _ & R1 & R2 & _). rewrite R2 in Hr. destruct (ridx_onto sizes m ES r Hr) as (x & Hx & Fx & <-).
  pose proof (val_le DI RI m V x Hx) as Le. assert (cmval m x = 0%Z) as Zx by lia.
  destruct (zero_cases DI RI m V x Zx) as [Ox|Kx]; [right; eauto|left; apply kept_spare; auto].
Qed.

Lemma adart_control coef (c : pcorner) d k (c' : pcorner) d' : fst c < np -> dnext t (c, d) = Some (c', d') -> adart DI c d k ->
  (dcontrol R coef (cidx (dpt c d k 0)) == (1 # 2) * (dcontrol R coef (cidx (dpt c d k 1)) + dcontrol R coef (cidx (dpt c' d' k 1))))%Q.
Proof.
  intros Hc Hn Hk. pose proof (proj1 Hk) as Hd. pose proof (dnext_dir t _ _ _ Hn) as Hd'. destruct (dnext_np DI RI _ _ _ _ Hn) as [_ Hp'].
  pose proof (dnext_sym t Hcons _ _ _ _ Hd Hn) as Hn'. pose proof (adart_lt DI RI c d k Hk) as K2.
  assert (ifl c d = true) as F by (apply (ifl_dnext DI); eauto). pose proof (adart_cls DI RI c d c' d' k Hc Hn Hk) as Hk'.
  assert (ifl c' d' = true) as F' by (apply (ifl_dnext DI); eauto).
  assert (akid DI m (dpt c d k 0) (dartP DI m c d k)) as K.
  { destruct (dart_avg DI RI m c d k Hk F) as (a & e & Ha & He & EB & Hav & EP). rewrite EB, <- EP by auto. apply ak_near; auto. }
  rewrite (acontrol_spec coef _ _ (dpt_in DI RI c d k 0 Hc K2 ltac:(lia)) K).
  rewrite !own_control; try (apply (dpt_in DI RI); auto); try (apply (dart_own DI RI m V); auto).
  unfold psum, dartP. rewrite Hn. cbn [map sumQ fst snd]. unfold half. ring.
Qed.
End M.

Lemma some_ares R : acCompute DI = Ok R -> exists m, is_ares m R.
Proof. intros E. destruct acompute_ok as (m & R' & E' & H). rewrite E in E'. injection E' as <-. eauto. Qed.

(** ** statements *)
Lemma amatrix_thm : exists R, acCompute DI = Ok R /\ rMapper SchemeAlmostC1 I = Ok (drMap R) /\ drRows R = cfreeSize (drMap R) /\
  drCols R = sumN (map rsize (ribases I)).
Proof.
  destruct acompute_ok as (m & R & E & H). exists R. destruct H as (H1 & V & R1 & R2 & R3 & _). split; auto.
  split; [congruence|]. split; [congruence|]. rewrite R3. apply cmap_of_free.
Qed.

Lemma aunity_thm R c : acCompute DI = Ok R -> c < drCols R ->
  (sumQ (map (fun r => dentry R r c) (seq 0 (drRows R))) == 1)%Q /\ forall r, (0 <= dentry R r c <= 1)%Q.
Proof.
  intros E Hc. destruct (some_ares R E) as (m & H). split; [apply (acolumn_unity m R H c Hc)|]. intros r. apply (aentry_range m R H r c Hc).
Qed.

Lemma aindependent_thm R coef : acCompute DI = Ok R -> (forall c, c < drCols R -> (dcontrol R coef c == 0)%Q) ->
  forall r, r < drRows R -> (coef r == 0)%Q \/ spare R r.
Proof. intros E. destruct (some_ares R E) as (m & H). apply (arows_independent m R H). Qed.

Lemma ainterface_thm R f l1 l2 l1' l2' i x1 x2 y1 y2 : acCompute DI = Ok R -> In f (tif t) ->
  dmatch DI f 0 = Ok (l1, l2) -> dmatch DI f 1 = Ok (l1', l2') ->
  nth_error (central (basis_at DI (fst (if1 f))) (snd (if1 f)) l1) i = Some x1 ->
  nth_error (central (basis_at DI (fst (if2 f))) (snd (if2 f)) l2) i = Some x2 ->
  nth_error (central (basis_at DI (fst (if1 f))) (snd (if1 f)) l1') i = Some y1 ->
  nth_error (central (basis_at DI (fst (if2 f))) (snd (if2 f)) l2') i = Some y2 ->
  forall coef,
    (dcontrol R coef (dcolumn DI (fst (if1 f)) x1) ==
       (1 # 2) * (dcontrol R coef (dcolumn DI (fst (if1 f)) y1) + dcontrol R coef (dcolumn DI (fst (if2 f)) y2)))%Q /\
    (dcontrol R coef (dcolumn DI (fst (if2 f)) x2) ==
       (1 # 2) * (dcontrol R coef (dcolumn DI (fst (if1 f)) y1) + dcontrol R coef (dcolumn DI (fst (if2 f)) y2)))%Q /\
    own_row DI R (fst (if1 f)) y1 /\ own_row DI R (fst (if2 f)) y2.
Proof.
  intros E Hf M0 M1 N1 N2 N3 N4 coef. destruct (some_ares R E) as (m & H). pose proof (proj1 (proj2 H)) as V.
  destruct (iface_np DI RI f Hf) as [Q1 Q2].
  destruct (RM f 0 Hf ltac:(lia)) as (k1 & k2 & A & _ & P1 & P2). rewrite M0 in A. injection A as <- <-.
  destruct (RM f 1 Hf ltac:(lia)) as (k1 & k2 & A & _ & P3 & P4). rewrite M1 in A. injection A as <- <-.
  assert (forall (l q : list nat), Permutation l q -> incl l q) as PI by (intros l q G x; apply Permutation_in; exact G).
  rewrite (central_without _ _ 0) in N1; [|apply (rbas_like I RI); auto|lia|auto].
  rewrite (central_without _ _ 0) in N2; [|apply (rbas_like I RI); auto|lia|auto].
  rewrite (central_without _ _ 1) in N3; [|apply (rbas_like I RI); auto|lia|auto].
  rewrite (central_without _ _ 1) in N4; [|apply (rbas_like I RI); auto|lia|auto].
  change (basis_at DI) with rbas in *.
  assert (nth_error (rem1 f 0) i = Some x1) as G1 by (unfold DpProofs2.rem1; rewrite M0; exact N1).
  assert (nth_error (rem2 f 0) i = Some x2) as G2 by (unfold DpProofs2.rem2; rewrite M0; exact N2).
  assert (nth_error (rem1 f 1) i = Some y1) as G3 by (unfold DpProofs2.rem1; rewrite M1; exact N3).
  assert (nth_error (rem2 f 1) i = Some y2) as G4 by (unfold DpProofs2.rem2; rewrite M1; exact N4).
  destruct (arem1_1 DI RI RM m V f y1 Hf (nth_error_In _ _ G3)) as [A1 A2], (arem2_1 DI RI RM m V f y2 Hf (nth_error_In _ _ G4)) as [A3 A4].
  destruct (strip_D DI RI RM f x1 x2 Hf) as [S1 S2]. specialize (S1 (nth_error_In _ _ G1)). specialize (S2 (nth_error_In _ _ G2)).
  pose proof (cidx_dof _ A1) as C1. pose proof (cidx_dof _ A3) as C2. pose proof (cidx_dof _ S1) as C3. pose proof (cidx_dof _ S2) as C4.
  cbn [fst snd] in C1, C2, C3, C4. rewrite <- C1, <- C2, <- C3, <- C4.
  split; [|split; [|split]].
  - rewrite (acontrol_spec m R H coef _ _ S1 (ak_strip DI m f i x1 y1 x2 y2 _ Hf G1 G3 G2 G4 (or_introl eq_refl))).
    rewrite !(own_control m R H) by auto. unfold psum. cbn [map sumQ fst snd]. unfold half. ring.
  - rewrite (acontrol_spec m R H coef _ _ S2 (ak_strip DI m f i x1 y1 x2 y2 _ Hf G1 G3 G2 G4 (or_intror eq_refl))).
    rewrite !(own_control m R H) by auto. unfold psum. cbn [map sumQ fst snd]. unfold half. ring.
  - apply (own_own m R H _ A1 A2).
  - apply (own_own m R H _ A3 A4).
Qed.

Lemma acorner_thm R (c : pcorner) s (c' : pcorner) s' coef : acCompute DI = Ok R -> joined t c s c' s' ->
  (dcontrol R coef (vcolumn DI c s 1 0) == (1 # 2) * (dcontrol R coef (vcolumn DI c s 1 1) + dcontrol R coef (vcolumn DI c' s' 1 1)))%Q.
Proof.
  intros E J. destruct (some_ares R E) as (m & H). destruct (joined_dnext c s c' s' J) as (T1 & T2 & Q1 & Q2 & En).
  destruct (vcol c s 1 0 Q1 T1) as (-> & _ & Hd); try lia. destruct (vcol c s 1 1 Q1 T1) as (-> & _); try lia.
  destruct (vcol c' s' 1 1 Q2 T2) as (-> & _); try lia. apply (adart_control m R H); auto. split; auto.
Qed.


Lemma c0_rc0 (c : pcorner) : fst c < np -> nth_error (riC0 I) (vertIndex c) = Some (rc0 c).
Proof. intros Q1. pose proof (rc0_vget I RI c Q1) as G. unfold vget in G. destruct (nth_error (riC0 I) (vertIndex c)); congruence. Qed.
Lemma not_inner (c : pcorner) : fst c < np -> ~ interior_vertex t c -> inner c = false.
Proof. intros Hc Hni. destruct (inner c) eqn:Ei; auto. exfalso. apply Hni, (interior_vertex_iff t Hcons); auto. apply rvalidc; auto. Qed.
Lemma rifv_dpt (c : pcorner) s k o : fst c < np -> touches (snd c) s -> k < 2 -> o < 2 -> rifv (basis_at DI (fst c)) k (snd c) s o = snd (dpt c (side_dir s) k o).
Proof.
  intros Hc T1 Hk Ho. apply touches_on in T1. change (basis_at DI (fst c)) with (rbas (fst c)).
  apply on_side_iff_cside in T1. destruct T1 as [->| ->]; rewrite side_dir_cside by lia; simpl.
  - apply rifv_blk0.
  - apply rifv_blk1; auto. apply (rbas_like I RI); auto.
Qed.
Lemma edge_none (b : pcorner) s : boundary_edge DI b s -> fst b < np /\ side_dir s < 2 /\ dnext t (b, side_dir s) = None.
Proof.
  intros [Ts Hbd]. assert (fst b < np) as Hpb by (rewrite <- Hnp; apply (sides_valid t Hcons (fst b, s)); auto).
  split; auto. split; [apply side_dir_lt|]. destruct (dnext t (b, side_dir s)) as [[c2 d2]|] eqn:En; auto. exfalso.
  assert (ifl b (side_dir s) = true) as F by (apply (ifl_dnext DI); eauto). unfold TopoProofs.ifl in F.
  rewrite cside_of_on in F by (apply touches_on; auto). apply isInterface_in in F. apply (iface_not_bd t Hcons (fst b, s)); auto.
Qed.

Lemma aedge_thm R (c : pcorner) s : acCompute DI = Ok R -> boundary_edge DI c s ->
  own_row DI R (fst c) (rifv (basis_at DI (fst c)) 1 (snd c) s 0).
Proof.
  intros E Hb. destruct (some_ares R E) as (m & H). destruct (edge_none c s Hb) as (Hc & Hd & Hn).
  rewrite rifv_dpt by (auto; apply Hb). rewrite (fst_dpt DI c (side_dir s) 1 0). apply (own_own m R H).
  - apply (dpt_in DI RI); auto.
  - apply (boundary_own DI RI m (proj1 (proj2 H))); auto.
Qed.

Lemma asharp_thm R (c : pcorner) s : acCompute DI = Ok R -> fst c < np -> touches (snd c) s -> ~ interior_vertex t c -> is_sharp DI c ->
  own_row DI R (fst c) (rifv (basis_at DI (fst c)) 0 (snd c) s 0).
Proof.
  intros E Hc Ts Hni Hs. destruct (some_ares R E) as (m & H). unfold is_sharp in Hs. rewrite (c0_rc0 c Hc) in Hs. injection Hs as Hs.
  rewrite rifv_dpt by auto. rewrite (fst_dpt DI c (side_dir s) 0 0). rewrite (dpt00 DI). apply (own_own m R H).
  - apply (B_in I RI); auto.
  - apply (sharp_own DI RI m (proj1 (proj2 H))); auto. apply not_inner; auto.
Qed.

Lemma aflat_thm R (c : pcorner) s (c' : pcorner) s' coef : acCompute DI = Ok R -> joined t c s c' s' -> ~ interior_vertex t c -> has_valence t c 2 ->
  is_smooth DI c ->
  (dcontrol R coef (vcolumn DI c s 0 0) == (1 # 2) * (dcontrol R coef (vcolumn DI c s 0 1) + dcontrol R coef (vcolumn DI c' s' 0 1)))%Q.
Proof.
  intros E J Hni Hv2 Hs. destruct (some_ares R E) as (m & H).
  destruct (joined_dnext c s c' s' J) as (T1 & T2 & Q1 & Q2 & En). pose proof (proj2 (rvalidc c) Q1) as Hv.
  apply (has_valence_iff t Hcons c 2 Hv) in Hv2. unfold is_smooth in Hs. rewrite (c0_rc0 c Q1) in Hs. injection Hs as Hs.
  destruct (vcol c s 0 0 Q1 T1) as (-> & _ & Hd); try lia. destruct (vcol c s 0 1 Q1 T1) as (-> & _); try lia.
  destruct (vcol c' s' 0 1 Q2 T2) as (-> & _); try lia. apply (adart_control m R H); auto. split; auto. right. split; auto.
  apply (flat2_iff DI RI). split; [apply not_inner; auto|]. auto.
Qed.

Lemma ahalf_thm R (c : pcorner) s v (b1 : pcorner) s1 (b2 : pcorner) s2 coef : acCompute DI = Ok R -> fst c < np -> touches (snd c) s ->
  ~ interior_vertex t c -> has_valence t c v -> 2 < v -> is_smooth DI c ->
  same_vertex t c b1 -> boundary_edge DI b1 s1 -> same_vertex t c b2 -> boundary_edge DI b2 s2 -> (b1, s1) <> (b2, s2) ->
  (dcontrol R coef (vcolumn DI c s 0 0) == (1 # 2) * (dcontrol R coef (vcolumn DI b1 s1 1 0) + dcontrol R coef (vcolumn DI b2 s2 1 0)))%Q.
Proof.
  intros E Hc Ts Hni Hval Hv2 Hs S1 B1 S2 B2 Nb. destruct (some_ares R E) as (m & H). pose proof (proj1 (proj2 H)) as V.
  pose proof (proj2 (rvalidc c) Hc) as Hv. apply (has_valence_iff t Hcons c v Hv) in Hval. subst v.
  unfold is_smooth in Hs. rewrite (c0_rc0 c Hc) in Hs. injection Hs as Hs. pose proof (not_inner c Hc Hni) as Hi.
  assert (half0 I c = true) as Hh by (unfold AcProofs.half0; rewrite Hi, Hs; assert (2 <? valence c = true) as -> by lia; reflexivity).
  destruct (edge_none b1 s1 B1) as (P1 & D1 & N1), (edge_none b2 s2 B2) as (P2 & D2 & N2).
  apply (same_vertex_cls t Hcons c b1 Hv) in S1. apply (same_vertex_cls t Hcons c b2 Hv) in S2.
  assert (In (b1, side_dir s1) (bdarts DI c)) as I1 by (apply in_bdarts; auto). assert (In (b2, side_dir s2) (bdarts DI c)) as I2 by (apply in_bdarts; auto).
  assert ((b1, side_dir s1) <> (b2, side_dir s2)) as Nd.
  { intros [= -> Ed]. apply Nb. f_equal. destruct B1 as [B1 _], B2 as [B2 _]. apply touches_on, on_side_iff_cside in B1, B2.
    destruct B1 as [->| ->], B2 as [->| ->]; rewrite !side_dir_cside in Ed by lia; congruence. }
  assert (sumQ (map (fun x => coef (ridx m (dpt (fst x) (snd x) 1 0))) (bdarts DI c)) ==
          coef (ridx m (dpt b1 (side_dir s1) 1 0)) + coef (ridx m (dpt b2 (side_dir s2) 1 0)))%Q as Es.
  { pose proof (bdarts_two DI RI c Hc Hi) as L. destruct (bdarts DI c) as [|x [|y [|]]]; try discriminate.
    destruct I1 as [E1|[E1|[]]], I2 as [E2|[E2|[]]]; [exfalso; apply Nd; congruence| | |exfalso; apply Nd; congruence]; subst x y;
      cbn [map sumQ fst snd]; ring. }
  destruct (vcol c s 0 0 Hc Ts) as (-> & Din & _); try lia. rewrite (dpt00 DI) in *.
  destruct (vcol b1 s1 1 0 P1 (proj1 B1)) as (-> & Din1 & _); try lia. destruct (vcol b2 s2 1 0 P2 (proj1 B2)) as (-> & Din2 & _); try lia.
  rewrite (own_control m R H coef _ Din1) by (apply (boundary_own DI RI m V); auto).
  rewrite (own_control m R H coef _ Din2) by (apply (boundary_own DI RI m V); auto).
  assert (akid DI m (B c 0 0) (map (fun x => (ridx m (dpt (fst x) (snd x) 1 0), half)) (bdarts DI c))) as K.
  { assert (nearP DI m c 0 0 = map (fun x => (ridx m (dpt (fst x) (snd x) 1 0), half)) (bdarts DI c)) as <- by (unfold nearP; rewrite Hi, Hh; reflexivity).
    apply ak_near; auto. unfold AcProofs.avg. rewrite Hi, Hh. reflexivity. }
  rewrite (acontrol_spec m R H coef _ _ Din K). rewrite <- Es. unfold psum. rewrite map_map. cbn [fst snd].
  generalize (bdarts DI c). induction l as [|x l IH]; cbn [map sumQ]; [ring|]. rewrite IH. unfold half. ring.
Qed.

Lemma ainner_col m R coef (c : pcorner) : is_ares m R -> fst c < np -> (dcontrol R coef (inner_column DI c) == coef (ridx m (B c 1 1)))%Q.
Proof.
  intros H Hc. unfold inner_column.
  destruct (vcol c (cside (snd c) 0) 1 1 Hc) as (-> & Din & Hd); try lia; [apply cside_touches|]. rewrite (dpt11 DI) in *.
  apply (own_control m R H); auto. apply (own11 DI RI m (proj1 (proj2 H))); auto.
Qed.

Lemma ainner_thm R (c : pcorner) s v l coef : acCompute DI = Ok R -> fst c < np -> touches (snd c) s -> interior_vertex t c -> has_valence t c v ->
  NoDup l -> (forall b, In b l <-> same_vertex t c b) ->
  (dcontrol R coef (vcolumn DI c s 0 0) == (1 # Pos.of_nat v) * sumQ (map (fun b => dcontrol R coef (inner_column DI b)) l))%Q.
Proof.
  intros E Hc Ts Hi Hval Nl Hl. destruct (some_ares R E) as (m & H). pose proof (proj2 (rvalidc c) Hc) as Hv.
  apply (has_valence_iff t Hcons c v Hv) in Hval. apply (interior_vertex_iff t Hcons c Hv) in Hi. subst v.
  destruct (vcol c s 0 0 Hc Ts) as (-> & Din & _); try lia. rewrite (dpt00 DI) in *.
  assert (akid DI m (B c 0 0) (map (fun c' => (ridx m (B c' 1 1), (1 # Pos.of_nat (valence c))%Q)) (cls c))) as K.
  { assert (nearP DI m c 0 0 = map (fun c' => (ridx m (B c' 1 1), (1 # Pos.of_nat (valence c))%Q)) (cls c)) as <- by (unfold nearP; rewrite Hi; reflexivity).
    apply ak_near; auto. unfold AcProofs.avg. rewrite Hi. reflexivity. }
  rewrite (acontrol_spec m R H coef _ _ Din K). unfold psum. rewrite mean_of.
  apply Qmult_comp; [reflexivity|].
  assert (Permutation l (cls c)) as P.
  { apply NoDup_Permutation; auto; [apply (cls_nodup t Hcons); auto|]. intros x. rewrite Hl. apply (same_vertex_cls t Hcons); auto. }
  rewrite (sumQ_perm _ _ (Permutation_map _ P)). apply sumQ_map_ext. intros b Hb. symmetry. apply (ainner_col m R coef b H).
  apply (rcls_valid I RI c); auto.
Qed.

(** all other functions keep rows of their own *)
Lemma ainterior_thm R p k : acCompute DI = Ok R -> p < np -> k < rsize (basis_at DI p) ->
  (forall s, ~ In k (roff (basis_at DI p) s 0)) -> own_row DI R p k.
Proof.
  intros E Hp Hk Hs. destruct (some_ares R E) as (m & H). pose proof (proj1 (proj2 H)) as V.
  destruct (cidx_column p k Hp Hk) as [Din _]. apply (own_own m R H (p, k) Din).
  pose proof (rbas_like I RI p Hp) as L. change (basis_at DI p) with (rbas p) in *.
  destruct (existsb (fun c => k =? rblk (rbas p) c 1 1) [SW; SE; NW; NE]) eqn:Ex.
  - apply existsb_exists in Ex. destruct Ex as (c & _ & Ec). apply Nat.eqb_eq in Ec. rewrite Ec.
    change (p, rblk (rbas p) c 1 1) with (B (p, c) 1 1). apply (own11 DI RI m V); auto.
  - assert (forall (c : pcorner) a e, a < 2 -> e < 2 -> (p, k) <> B c a e) as N.
    { intros c a e Ha He Eb. injection Eb as Ep Ek. rewrite existsb_false in Ex.
      assert (k = rblk (rbas p) (snd c) a e) as Ek' by (rewrite Ep; exact Ek).
      destruct (proj1 (rblk_meet (rbas p) L (snd c) a e k Ha He) Ek') as [G1 G2].
      destruct a as [|[|]]; [eapply Hs; exact G1| |lia]. destruct e as [|[|]]; [eapply Hs; exact G2| |lia].
      assert (In (snd c) [SW; SE; NW; NE]) as Hin by (destruct (snd c); simpl; auto). specialize (Ex _ Hin).
      rewrite <- Ek', Nat.eqb_refl in Ex. discriminate. }
    split.
    + apply (av_other I m V).
      * intros (c & a & e & Hc & Ha & He & Eb). apply (N c a e); auto.
      * intros ps Hps Hin. apply in_map_iff in Hin. destruct Hin as (x & Ex' & Hx). injection Ex' as Ep Ek. apply in_rstrip in Hx.
        destruct Hx as [Hx _]. apply (Hs (snd ps)). rewrite <- Ep, <- Ek. exact Hx.
    + intros c a e Hc Ha He Eb. exfalso. apply (N c a e); auto.
Qed.
Lemma aboundary_thm R p s k : acCompute DI = Ok R -> In (p, s) (tbd t) -> In k (central (basis_at DI p) s (roff (basis_at DI p) s 0)) -> own_row DI R p k.
Proof.
  intros E Hps Hk. destruct (some_ares R E) as (m & H). pose proof (proj1 (proj2 H)) as V.
  assert (p < np) as Hp by (rewrite <- Hnp; apply (sides_valid t Hcons (p, s)); auto).
  rewrite (central_without _ _ 0) in Hk; [|apply (rbas_like I RI); auto|lia|apply incl_refl].
  destruct (abstrip_own DI RI m V (p, s) (p, k) Hps) as [Din Zx]; [apply in_map_iff; exists k; auto|].
  apply (own_own m R H (p, k) Din Zx).
Qed.
Lemma acorner1_thm R (c : pcorner) s k o : acCompute DI = Ok R -> fst c < np -> touches (snd c) s -> ~ interior_vertex t c -> has_valence t c 1 -> k < 2 -> o < 2 ->
  own_row DI R (fst c) (rifv (basis_at DI (fst c)) k (snd c) s o).
Proof.
  intros E Hc Ts Hni Hval Hk Ho. destruct (some_ares R E) as (m & H). pose proof (proj1 (proj2 H)) as V. pose proof (proj2 (rvalidc c) Hc) as Hv.
  apply (has_valence_iff t Hcons c 1 Hv) in Hval. pose proof (not_inner c Hc Hni) as Hi.
  rewrite rifv_dpt by auto. rewrite (fst_dpt DI c (side_dir s) k o). apply (own_own m R H); [apply (dpt_in DI RI); auto|].
  pose proof (side_dir_lt s). destruct (side_dir s) as [|[|]]; [| |lia]; simpl; apply (corner_own DI RI m V); auto.
Qed.
End F.

Lemma arows_thm DI : ac_input DI -> forall R r, acCompute DI = Ok R -> r < drRows R ->
  spare R r \/ exists p k, p < length (ribases (dring DI)) /\ k < rsize (basis_at DI p) /\ cindex (drMap R) k p = Ok r /\ own_row DI R p k.
Proof.
  intros [RI RM SU] R r E Hr. destruct (some_ares DI RI RM SU R E) as (m & H). destruct (arows DI RI RM m R H r Hr) as [Hs|(x & Hx & Ox & <-)]; auto.
  right. exists (fst x), (snd x). pose proof (proj1 (in_D (dring DI) RI x) Hx) as Hx'. destruct Hx' as [H1 H2]. split; auto. split; auto.
  split; [|apply (own_own DI RI m R H); auto]. destruct H as (_ & V & -> & _). apply (cindex_ok _ m (av_sizes _ m V)); auto.
Qed.

Lemma aunsupported_thm DI : ring_input (dring DI) -> ~ supported SchemeAlmostC1 (ritopo (dring DI)) -> acCompute DI = Err.
Proof.
  intros RI H. unfold acCompute. destruct (rcountDoFs SchemeAlmostC1 (dring DI)); cbn [bind]; auto.
  rewrite (ring_unsupported (dring DI) RI SchemeAlmostC1 H). reflexivity.
Qed.
