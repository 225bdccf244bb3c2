(** Every geometry on an input of C69 has refined patches that satisfy the hypotheses; exporting given patches ignores them. *)
From Coq Require Import Reals Qreals Lra.
From Verif Require Import Common TopoModel BaseModel BaseModel2 BaseSpec2 IndexSpec TopoSpec SmoothSpec SmoothSpec2 SmoothExamples RefModel RefSpec RingModel RingSpec DpModel DpSpec
  IndexProofs IndexTopoProofs ListLemmas TopoProofs PointProofs MapperProofs CountProofs MatrixProofs HandlerProofs ResultProofs GeometryProofs BaseProofs2 RefProofs RingProofs RingProofs2 DpProofs DpProofs2 DpProofs3 DpProofs4
  RingInstance RingExamples DpExamples PiSpec PiProofs TriangleModel TriangleSpec TriangleProofs EvModel EvSpec
  AcModel AcSpec AcSpec2 AcProofs AcProofs2 AcProofs4 AcProofs5 AcProofs6 AcProofs7 AcExamples AcExamples2 PreModel PreSpec PreProofs.
From Verif Require ExportProofs.
Open Scope nat_scope.

Section X.
Variable DI : dinput.
Notation I := (dring DI).
Notation np := (length (ribases I)).
Variable loc : list vec3.

(** The fine functions next to a corner come from the coarse functions at the same places; behind them one fine function for every coarse
    function that is not a corner function of a special vertex.  The vertex is one unit away from the corner's control point. *)
Definition pcol (c : pcorner) (a e : nat) : nat := dcolumn DI (fst c) (snd (B I c a e)).
Definition psrc (x : nat) : nat :=
  if x <? 16 * np then match find (fun c => vertIndex c =? x / 4) (all_corners np) with Some c => pcol c ((x / 2) mod 2) (x mod 2) | None => ek0 DI end
  else if especial DI (x - 16 * np) then ek0 DI else x - 16 * np.
Definition ppt (c : pcorner) (a e : nat) : vec3 := points loc (psrc (ecl c a e)).
Definition pF : refinedIn := mkRF (fun a c _ e => Ok (ecl c a e)) (fun i _ => Ok i) 2 (fun _ i => points loc (psrc i))
  (fun c => vadd (ppt c 0 0) (V3 1 0 0)) (fun _ => V3 0 0 1) (fun x k => if k =? psrc x then 1%R else 0%R).

Hypothesis RI : ring_input I.

Lemma pcol_cidx (c : pcorner) a e : fst c < np -> a < 2 -> e < 2 -> pcol c a e = cidx (sizes I) (B I c a e) /\ In (B I c a e) (dofs_from 0 (sizes I)).
Proof. intros Hc Ha He. pose proof (B_in I RI c a e Hc ltac:(lia) ltac:(lia)) as Hb. split; auto. rewrite (cidx_dof DI RI) by auto. reflexivity. Qed.
Lemma psrc_cl (c : pcorner) a e : fst c < np -> a < 2 -> e < 2 -> psrc (ecl c a e) = pcol c a e.
Proof.
  intros Hc Ha He. unfold psrc. pose proof (ecl_lt DI c a e Hc Ha He) as Lt. rewrite (proj2 (Nat.ltb_lt _ _) Lt).
  destruct (ecl_parts c a e Ha He) as (E1 & E2 & E3). rewrite E1, E2, E3. destruct (find _ (all_corners np)) as [c'|] eqn:Ef.
  - apply find_some in Ef. destruct Ef as [_ Ef]. apply Nat.eqb_eq, vertIndex_inj in Ef. subst c'. reflexivity.
  - exfalso. pose proof (find_none _ _ Ef c (proj2 (in_all_corners np c) Hc)) as N. cbn beta in N. rewrite Nat.eqb_refl in N. discriminate.
Qed.
Lemma psrc_special (c : pcorner) x : special DI c -> ~ near_special DI ecl x -> psrc x <> ecorner DI c.
Proof.
  intros Hs Hn E. pose proof (proj1 (proj1 (spc_iff DI RI c) Hs)) as Hc. unfold psrc in E. destruct (x <? 16 * np) eqn:Ex.
  - destruct (find _ (all_corners np)) as [c'|] eqn:Ef; [|apply (ek0_corner DI RI c); auto].
    apply find_some in Ef. destruct Ef as [Hc' Ev]. apply in_all_corners in Hc'. apply Nat.eqb_eq in Ev.
    set (a := (x / 2) mod 2) in *. set (e := x mod 2) in *. assert (a < 2 /\ e < 2) as [Ha He] by (split; apply Nat.mod_upper_bound; lia).
    destruct (pcol_cidx c' a e Hc' Ha He) as [E1 H1], (ecorner_cidx DI RI c Hc) as [E2 H2]. rewrite E1, E2 in E. apply cidx_inj in E; auto.
    apply (B_inj I RI) in E; auto; try lia. destruct E as (-> & _). apply Hn. exists c, a, e. split; auto. split; auto. split; auto.
    unfold ecl. rewrite Ev. unfold a, e. pose proof (Nat.div_mod x 2 ltac:(lia)). pose proof (Nat.div_mod (x / 2) 2 ltac:(lia)).
    rewrite Nat.div_div in * by lia. change (2 * 2) with 4 in *. lia.
  - destruct (especial DI (x - 16 * np)) eqn:Es; [apply (ek0_corner DI RI c); auto|].
    assert (especial DI (x - 16 * np) = true) as Es' by (apply (especial_iff DI RI); eauto). congruence.
Qed.

Lemma pok : refined_ok DI pF (enf DI) ecl ppt.
Proof.
  constructor.
  - intros c a e Hs Ha He. exists (ecl c a e). auto.
  - intros c a e Hs Ha He. apply (spc_iff DI RI) in Hs. pose proof (ecl_lt DI c a e (proj1 Hs) Ha He). unfold enf. lia.
  - intros c a e c' a' e' _ _ Ha He Ha' He' E. destruct (ecl_parts c a e Ha He) as (E1 & E2 & E3), (ecl_parts c' a' e' Ha' He') as (F1 & F2 & F3).
    rewrite E in E1, E2, E3. split; [apply vertIndex_inj; congruence|]. split; congruence.
  - intros c Hs. pose proof (proj1 (proj1 (spc_iff DI RI c) Hs)) as Hc. left. split; [reflexivity|]. exists c, 0, 0.
    split; [apply (same_vertex_cls (ritopo I) (ri_topo I RI)); [apply (rvalidc I RI); auto|apply (cls_self _ (ri_topo I RI)); apply (rvalidc I RI); auto]|].
    split; [lia|]. split; [lia|]. unfold dropz. cbn [rf_point pF]. unfold vadd. cbn [vx vy vz]. intros E. injection E. lra.
Qed.

Lemma psrc_pick n x : psrc x < n -> weighted n (rf_t pF x) (points loc) = points loc (psrc x).
Proof.
  intros Hx. assert (forall h : nat -> R, rsum n (fun k => rf_t pF x k * h k)%R = h (psrc x)) as K.
  { intros h. cbn [rf_t pF]. rewrite (rsum_ext _ _ (fun i => if i =? psrc x then h (psrc x) else 0%R)); [apply rsum_point; auto|].
    intros i _. destruct (Nat.eqb_spec i (psrc x)) as [->|]; ring. }
  unfold weighted. rewrite !K. destruct (points loc (psrc x)); reflexivity.
Qed.
Lemma ppoints : length loc = cfreeSize (cmap_of (sizes I)) -> points_of DI pF (cfreeSize (cmap_of (sizes I))) ecl ppt loc.
Proof.
  intros L. split; auto. intros c a e Hs Ha He. pose proof (proj1 (proj1 (spc_iff DI RI c) Hs)) as Hc. unfold ppt. rewrite psrc_pick; auto.
  rewrite psrc_cl by auto. destruct (pcol_cidx c a e Hc Ha He) as [-> H]. apply cidx_lt; auto.
Qed.
Lemma pnear : corners_near DI pF (enf DI) ecl.
Proof.
  intros c x Hs Hx Hn. cbn [rf_t pF]. destruct (Nat.eqb_spec (dcolumn DI (fst c) (snd (corner_dof DI c))) (psrc x)) as [E|]; auto.
  exfalso. apply (psrc_special c x Hs Hn). symmetry. exact E.
Qed.
End X.

Lemma pre_hypotheses_pf : forall I, ac_input I -> forall P, fits I P -> exists F nf cl pt R A L G, refined_ok I F nf cl pt /\ rf_dim F = 2 /\
  corners_near I F nf cl /\ acFinal I F = Ok (R, A) /\ acLocal I R P = Ok L /\ points_of I F (drCols R) cl pt (concat L) /\ acExport I F nf P = Ok G.
Proof.
  intros DI [RI RM SU] P HP. destruct (acompute_ok DI RI RM SU) as (m & R & E & HR). destruct (local_thm DI RI RM SU P HP R E) as (v & L & _ & EL & _ & Lc & _).
  pose proof HR as (_ & _ & _ & _ & R3 & _). pose proof (pok DI (concat L) RI) as RO.
  destruct (final_thm DI RI RM SU _ _ _ _ RO) as (R' & A & EF & E'). rewrite E in E'. injection E' as <-.
  destruct (export_ok DI RI RM SU P HP _ _ _ _ RO R A EF) as (v' & G & _ & EG & _).
  exists (pF DI (concat L)), (enf DI), ecl, (ppt DI (concat L)), R, A, L, G. split; auto. split; [reflexivity|]. split; [apply pnear; auto|].
  split; auto. split; auto. split; auto. rewrite R3 in *. apply ppoints; auto.
Qed.

(** ** given patches *)
Lemma four_input : ac_input (dtensor four_patches).
Proof. apply atensor_pf; [exact four_patches_wf|]. apply (sup_check four_patches _ four_patches_wf). vm_compute. reflexivity. Qed.
Lemma four_regular : forall c, ~ special (dtensor four_patches) c.
Proof.
  intros c Hs. pose proof four_input as [RI _ _]. apply (spc_iff _ RI) in Hs. destruct Hs as [Hc Hs].
  assert (forallb (fun c => negb (spc (dtensor four_patches) c)) (all_corners (length (ribases (dring (dtensor four_patches))))) = true) as K by (vm_compute; reflexivity).
  rewrite forallb_forall in K. specialize (K c (proj2 (in_all_corners _ c) Hc)). rewrite Hs in K. discriminate.
Qed.

Definition const_patches (I : dinput) (u : vec3) : list (list vec3) := map (fun b => repeat u (rsize b)) (ribases (dring I)).
Lemma const_fits I u : fits I (const_patches I u).
Proof. unfold fits, const_patches. rewrite map_map. apply map_ext. intros b. apply repeat_length. Qed.
Lemma const_point I u x w : point_at (const_patches I u) x w -> w = u.
Proof.
  intros (cs & H1 & H2). unfold const_patches in H1. rewrite nth_error_map in H1. destruct (nth_error (ribases (dring I)) (fst x)); [|discriminate].
  cbn [option_map] in H1. injection H1 as <-. apply nth_error_In in H2. apply repeat_spec in H2. exact H2.
Qed.

Lemma const_concat I u : concat (const_patches I u) = repeat u (sumN (sizes (dring I))).
Proof.
  unfold const_patches, sizes. induction (ribases (dring I)) as [|b l IH]; [reflexivity|]. cbn [map concat sumN]. rewrite IH.
  symmetry. apply repeat_app.
Qed.

Lemma const_local I u R L : ac_input I -> acCompute I = Ok R -> acLocal I R (const_patches I u) = Ok L -> length (concat L) = drCols R /\
  forall k, k < drCols R -> points (concat L) k = u.
Proof.
  intros [RI RM SU] E EL. destruct (some_ares I RI RM SU R E) as (m & HR).
  destruct (local_ok I RI (const_patches I u) (const_fits I u) m R HR) as (v & L' & Ev & Lv & EL' & _ & Lc & Hl & Hv). rewrite EL in EL'. injection EL' as <-.
  split; auto. intros k Hk. rewrite Hl by auto. pose proof HR as (_ & V & _ & R2 & _).
  assert (forall r, r < drRows R -> points v r = u) as Ku.
  { intros r Hr. rewrite R2 in Hr. destruct (ridx_onto (sizes (dring I)) m (av_sizes (dring I) m V) r Hr) as (y & Hy & Fy & <-). pose proof (val_le I RI m V y Hy).
    rewrite (points_nth v _ _ (Hv y Hy ltac:(lia))). apply (const_point I u y). apply (point_dof I _ (const_fits I u) y _ Hy). reflexivity. }
  assert (forall h : vec3 -> Rdefinitions.RbaseSymbolsImpl.R, rsum (drRows R) (fun r => Q2R (dentry R r k) * h (points v r))%R = h u) as K.
  { intros h. rewrite (rsum_ext _ _ (fun r => h u * Q2R (dentry R r k))%R) by (intros r Hr; rewrite Ku by auto; ring). rewrite rsum_scal, (rsum_Q (drRows R) (fun r => dentry R r k)).
    rewrite (Qeq_eqR _ _ (acolumn_unity I RI RM m R HR k Hk)). unfold Q2R. cbn. field. }
  unfold weighted. rewrite !K. destruct u; reflexivity.
Qed.

Lemma given_refuted_pf : exists I F nf cl pt P given G G', ac_input I /\ (forall c, ~ special I c) /\ refined_ok I F nf cl pt /\ fits I P /\ fits I given /\
  acExportGiven I F nf P given = Ok G /\ acExport I F nf given = Ok G' /\ G <> G' /\ G' = concat given.
Proof.
  set (J := dtensor four_patches). pose proof four_input as AI. fold J in AI. pose proof AI as [RI RM SU]. destruct (acompute_ok J RI RM SU) as (m & R & E & HR).
  set (F := pF J []). set (n := drCols R).
  assert (refined_ok J F n ecl (ppt J [])) as RO by (constructor; intros c; intros; exfalso; apply (four_regular c); auto).
  destruct (final_thm J RI RM SU F n ecl _ RO) as (R' & A & EF & E'). rewrite E in E'. injection E' as <-.
  assert (forall u, exists L, acLocal J R (const_patches J u) = Ok L /\ acExport J F n (const_patches J u) = Ok (concat L) /\ concat L = repeat u n) as K.
  { intros u. destruct (local_thm J RI RM SU _ (const_fits J u) R E) as (v & L & _ & EL & _). exists L. split; auto.
    split; [apply (regular_geo J RI RM SU _ (const_fits J u) F n ecl _ RO R A L EF four_regular eq_refl EL)|].
    destruct (const_local J u R L AI E EL) as [Lc Hc]. apply (nth_ext _ _ vzero vzero); [rewrite repeat_length; auto|].
    intros k Hk. rewrite Lc in Hk. change (points (concat L) k = nth k (repeat u n) vzero). rewrite Hc by auto. symmetry.
    apply (repeat_spec n u). apply nth_In. rewrite repeat_length. exact Hk. }
  assert (n = sumN (sizes (dring J))) as En by (pose proof HR as (_ & _ & _ & _ & R3 & _); unfold n; rewrite R3; apply set_cols).
  assert (0 < n) as Hn by (rewrite En; vm_compute; lia).
  destruct (K (V3 0 0 0)) as (L & EL & EG & EC), (K (V3 1 0 0)) as (L' & EL' & EG' & EC').
  exists J, F, n, ecl, (ppt J []), (const_patches J (V3 0 0 0)), (const_patches J (V3 1 0 0)), (concat L), (concat L').
  split; auto. split; [exact four_regular|]. split; auto. split; [apply const_fits|]. split; [apply const_fits|]. split; [rewrite given_thm; exact EG|]. split; [exact EG'|].
  rewrite EC, EC'. split; [intros H; destruct n; [lia|]; cbn [repeat] in H; injection H; lra|]. rewrite const_concat, En. reflexivity.
Qed.
