(** Every input of C68 has refined patches that satisfy the hypotheses; a sharp vertex with four patches loses a function. *)
From Coq Require Import Reals Qreals Lra.
From Verif Require Import Common TopoModel BaseModel BaseModel2 BaseSpec2 IndexSpec TopoSpec SmoothSpec SmoothSpec2 SmoothExamples RefModel RefSpec RingModel RingSpec DpModel DpSpec
  IndexProofs IndexTopoProofs ListLemmas TopoProofs PointProofs MapperProofs CountProofs MatrixProofs HandlerProofs ResultProofs GeometryProofs BaseProofs2 RefProofs RingProofs RingProofs2 DpProofs DpProofs2 DpProofs3 DpProofs4
  RingInstance RingExamples DpExamples PiSpec PiProofs TriangleModel TriangleSpec TriangleProofs EvModel EvSpec
  AcModel AcSpec AcSpec2 AcProofs AcProofs2 AcProofs4 AcProofs5 AcProofs6 AcProofs7 AcExamples.
Open Scope nat_scope.

(** columns of the refined functions next to the corners come first *)
Definition ecl (c : pcorner) (a e : nat) : nat := 4 * vertIndex c + 2 * a + e.
Definition ept (c : pcorner) (a e : nat) : vec3 := V3 (INR a) (INR e) 0.

Section X.
Variable DI : dinput.
Notation I := (dring DI).
Notation np := (length (ribases I)).

Definition ecorner (c : pcorner) : nat := dcolumn DI (fst c) (snd (corner_dof DI c)).
Definition ek0 : nat := dcolumn DI 0 (snd (B I (0, SW) 1 1)).
Definition especial (j : nat) : bool := existsb (fun c => spc DI c && (j =? ecorner c)) (all_corners np).
Definition enear (x : nat) : nat := match find (fun c => vertIndex c =? x / 4) (all_corners np) with Some c => ecorner c | None => ek0 end.
(** the coarse function that a fine function comes from *)
Definition esrc (x : nat) : nat := if x <? 16 * np then enear x else if especial (x - 16 * np) then ek0 else x - 16 * np.
Definition eF : refinedIn := mkRF (fun a c _ e => Ok (ecl c a e)) (fun i _ => Ok i) 2 (fun _ i => V3 (INR ((i / 2) mod 2)) (INR (i mod 2)) 0)
  (fun _ => V3 0 0 0) (fun _ => V3 0 0 1) (fun x k => if k =? esrc x then 1%R else 0%R).
Definition enf : nat := 16 * np + cfreeSize (cmap_of (sizes I)).

Hypothesis RI : ring_input I.

Lemma ecl_parts c a e : a < 2 -> e < 2 -> ecl c a e / 4 = vertIndex c /\ (ecl c a e / 2) mod 2 = a /\ ecl c a e mod 2 = e.
Proof.
  intros Ha He. unfold ecl. replace (4 * vertIndex c + 2 * a + e) with (e + (a + vertIndex c * 2) * 2) by lia. repeat split.
  - change 4 with (2 * 2). rewrite <- Nat.div_div by lia. rewrite Nat.div_add, (Nat.div_small e) by lia. cbn [plus]. rewrite Nat.div_add, (Nat.div_small a) by lia. reflexivity.
  - rewrite Nat.div_add, (Nat.div_small e) by lia. cbn [plus]. rewrite Nat.mod_add by lia. apply Nat.mod_small; lia.
  - rewrite Nat.mod_add by lia. apply Nat.mod_small; lia.
Qed.

Lemma ecl_lt (c : pcorner) a e : fst c < np -> a < 2 -> e < 2 -> ecl c a e < 16 * np.
Proof. intros Hc Ha He. apply RefProofs.vertIndex_lt in Hc. unfold ecl. lia. Qed.

Lemma enear_cl (c : pcorner) x : fst c < np -> x / 4 = vertIndex c -> enear x = ecorner c.
Proof.
  intros Hc E. unfold enear. rewrite E. destruct (find _ (all_corners np)) as [c'|] eqn:Ef.
  - apply find_some in Ef. destruct Ef as [_ Ef]. apply Nat.eqb_eq, vertIndex_inj in Ef. subst c'. reflexivity.
  - exfalso. pose proof (find_none _ _ Ef c (proj2 (in_all_corners np c) Hc)) as N. cbn beta in N. rewrite Nat.eqb_refl in N. discriminate.
Qed.

Lemma ecorner_cidx (c : pcorner) : fst c < np -> ecorner c = cidx (sizes I) (B I c 0 0) /\ In (B I c 0 0) (dofs_from 0 (sizes I)).
Proof.
  intros Hc. pose proof (B_in I RI c 0 0 Hc ltac:(lia) ltac:(lia)) as Hb. split; auto. rewrite (cidx_dof DI RI) by auto.
  unfold ecorner. rewrite <- (corner_dof_B DI RI) by auto. reflexivity.
Qed.
Lemma ek0_cidx : 0 < np -> ek0 = cidx (sizes I) (B I (0, SW) 1 1) /\ In (B I (0, SW) 1 1) (dofs_from 0 (sizes I)).
Proof.
  intros Hc. pose proof (B_in I RI (0, SW) 1 1 Hc ltac:(lia) ltac:(lia)) as Hb. split; auto. rewrite (cidx_dof DI RI) by auto. reflexivity.
Qed.
Lemma ecorner_inj (c c' : pcorner) : fst c < np -> fst c' < np -> ecorner c = ecorner c' -> c = c'.
Proof.
  intros Hc Hc' E. destruct (ecorner_cidx c Hc) as [E1 H1], (ecorner_cidx c' Hc') as [E2 H2]. rewrite E1, E2 in E. apply cidx_inj in E; auto.
  apply (B_inj I RI) in E; auto; try lia. tauto.
Qed.
Lemma ek0_corner (c : pcorner) : fst c < np -> ek0 <> ecorner c.
Proof.
  intros Hc E. destruct (ecorner_cidx c Hc) as [E1 H1], (ek0_cidx ltac:(lia)) as [E2 H2]. rewrite E1, E2 in E. apply cidx_inj in E; auto.
  apply (B_inj I RI) in E; auto; try lia. cbn [fst]. lia.
Qed.
Lemma especial_iff j : especial j = true <-> exists c, special DI c /\ j = ecorner c.
Proof.
  unfold especial. rewrite existsb_exists. split.
  - intros (c & Hc & E). apply andb_true_iff in E. destruct E as [Hs E]. apply Nat.eqb_eq in E. apply in_all_corners in Hc. exists c. split; auto. apply (spc_iff DI RI); auto.
  - intros (c & Hs & ->). apply (spc_iff DI RI) in Hs. destruct Hs as [Hc Hs]. exists c. split; [apply in_all_corners; auto|]. rewrite Hs, Nat.eqb_refl. reflexivity.
Qed.

Lemma esrc_lt x : 0 < np -> x < enf -> esrc x < cfreeSize (cmap_of (sizes I)).
Proof.
  intros Hnp Hx. unfold esrc. assert (ek0 < cfreeSize (cmap_of (sizes I))) as K0 by (destruct (ek0_cidx Hnp) as [-> H]; apply cidx_lt; auto).
  destruct (x <? 16 * np) eqn:E.
  - unfold enear. destruct (find _ (all_corners np)) as [c|] eqn:Ef; auto. apply find_some in Ef. destruct Ef as [Hc _]. apply in_all_corners in Hc.
    destruct (ecorner_cidx c Hc) as [-> H]. apply cidx_lt; auto.
  - apply Nat.ltb_ge in E. destruct (especial (x - 16 * np)); auto. unfold enf in Hx. lia.
Qed.

(** a corner function of a special vertex is not used elsewhere *)
Lemma esrc_special (c : pcorner) x : special DI c -> ~ near_special DI ecl x -> esrc x <> ecorner c.
Proof.
  intros Hs Hn E. pose proof (proj1 (proj1 (spc_iff DI RI c) Hs)) as Hc. unfold esrc in E. destruct (x <? 16 * np) eqn:Ex.
  - unfold enear in E. destruct (find _ (all_corners np)) as [c'|] eqn:Ef; [|apply (ek0_corner c); auto].
    apply find_some in Ef. destruct Ef as [Hc' Ev]. apply in_all_corners in Hc'. apply Nat.eqb_eq in Ev. apply ecorner_inj in E; auto. subst c'.
    apply Hn. pose proof (Nat.div_mod x 4 ltac:(lia)) as Dx. rewrite <- Ev in Dx. pose proof (Nat.mod_upper_bound x 4 ltac:(lia)) as Bx.
    exists c, (x mod 4 / 2), (x mod 4 mod 2). split; auto. pose proof (Nat.div_mod (x mod 4) 2 ltac:(lia)) as Dy. pose proof (Nat.mod_upper_bound (x mod 4) 2 ltac:(lia)) as By.
    split; [apply Nat.div_lt_upper_bound; lia|]. split; auto. unfold ecl. lia.
  - destruct (especial (x - 16 * np)) eqn:Es; [apply (ek0_corner c); auto|].
    assert (especial (x - 16 * np) = true) as Es' by (apply especial_iff; eauto). congruence.
Qed.

Lemma eok : refined_ok DI eF enf ecl ept.
Proof.
  constructor.
  - intros c a e Hs Ha He. exists (ecl c a e). split; [reflexivity|]. split; [reflexivity|]. cbn [rf_coef eF]. destruct (ecl_parts c a e Ha He) as (_ & -> & ->). reflexivity.
  - intros c a e Hs Ha He. apply (spc_iff DI RI) in Hs. pose proof (ecl_lt c a e (proj1 Hs) Ha He). unfold enf. lia.
  - intros c a e c' a' e' _ _ Ha He Ha' He' E. destruct (ecl_parts c a e Ha He) as (E1 & E2 & E3), (ecl_parts c' a' e' Ha' He') as (F1 & F2 & F3).
    rewrite E in E1, E2, E3. split; [apply vertIndex_inj; congruence|]. split; congruence.
  - intros c Hs. pose proof (proj1 (proj1 (spc_iff DI RI c) Hs)) as Hc. left. split; [reflexivity|]. exists c, 1, 0.
    split; [apply (same_vertex_cls (ritopo I) (ri_topo I RI)); [apply (rvalidc I RI); auto|apply (cls_self _ (ri_topo I RI)); apply (rvalidc I RI); auto]|].
    split; [lia|]. split; [lia|]. unfold dropz, ept. cbn. intros E. injection E. lra.
Qed.

Lemma espread c : special DI c -> spread DI eF ept c.
Proof.
  intros Hs b f Sb Pf. pose proof (proj1 (proj1 (spc_iff DI RI c) Hs)) as Hc.
  assert (same_vertex (ritopo I) c c) as Scc by (apply (same_vertex_cls (ritopo I) (ri_topo I RI)); [apply (rvalidc I RI); auto|apply (cls_self _ (ri_topo I RI)); apply (rvalidc I RI); auto]).
  destruct Pf as [[_ ->]|[Ed _]]; [|discriminate Ed].
  exists c, 0, 0, c, 1, 0, c, 0, 1. repeat (split; [first [assumption|lia]|]). unfold dropz, ept, vcross, vsub, vzero. cbn. intros E. injection E. lra.
Qed.

Lemma edetermined n : n = cfreeSize (cmap_of (sizes I)) -> determined DI eF enf ecl n.
Proof.
  intros -> g H p k Hp Hk Hn. destruct (cidx_column DI RI p k Hp Hk) as [Hd Hx]. rewrite <- Hx.
  set (j := cidx (sizes I) (p, k)) in *. assert (j < cfreeSize (cmap_of (sizes I))) as Hj by (apply cidx_lt; auto).
  assert (especial j = false) as Es.
  { destruct (especial j) eqn:Es; auto. exfalso. apply especial_iff in Es. destruct Es as (c & Hs & E). pose proof (proj1 (proj1 (spc_iff DI RI c) Hs)) as Hc.
    destruct (ecorner_cidx c Hc) as [E1 H1]. rewrite E1 in E. unfold j in E. apply cidx_inj in E; auto. apply (Hn c Hs). rewrite E. symmetry. apply (corner_dof_B DI RI); auto. }
  assert (esrc (16 * np + j) = j) as Ej.
  { unfold esrc. assert (16 * np + j <? 16 * np = false) as -> by (apply Nat.ltb_ge; lia). replace (16 * np + j - 16 * np) with j by lia. rewrite Es. reflexivity. }
  rewrite <- (H (16 * np + j)).
  - cbn [rf_t eF]. rewrite Ej. rewrite (rsum_ext _ _ (fun i => if i =? j then g j else 0%R)); [symmetry; apply rsum_point; auto|].
    intros i _. destruct (Nat.eqb_spec i j) as [->|]; ring.
  - unfold enf. lia.
  - intros (c & a & e & Hs & Ha & He & E). pose proof (ecl_lt c a e (proj1 (proj1 (spc_iff DI RI c) Hs)) Ha He). lia.
Qed.

Lemma eunity : 0 < np -> forall x, x < enf -> rsum (cfreeSize (cmap_of (sizes I))) (rf_t eF x) = 1%R.
Proof. intros Hnp x Hx. cbn [rf_t eF]. apply (rsum_point _ (esrc x) 1%R). apply esrc_lt; auto. Qed.
Lemma enonneg x k : (0 <= rf_t eF x k)%R.
Proof. cbn [rf_t eF]. destruct (k =? esrc x); lra. Qed.
End X.

Lemma hypotheses_pf : forall I, ac_input I -> (exists c, special I c) -> exists F nf cl pt, refined_ok I F nf cl pt /\ (forall c, special I c -> spread I F pt c) /\
  (forall R, acCompute I = Ok R -> determined I F nf cl (drCols R) /\ (forall x, x < nf -> rsum (drCols R) (rf_t F x) = 1%R)) /\
  (forall x k, (0 <= rf_t F x k)%R) /\
  (forall c x, special I c -> ~ near_special I cl x -> rf_t F x (dcolumn I (fst c) (snd (corner_dof I c))) = 0%R).
Proof.
  intros DI [RI RM SU] (c0 & Hs0). assert (0 < length (ribases (dring DI))) as Hnp by (pose proof (proj1 (proj1 (spc_iff DI RI c0) Hs0)); lia).
  exists (eF DI), (enf DI), ecl, ept. split; [apply eok; auto|]. split; [apply espread; auto|]. split.
  - intros R E. destruct (some_ares DI RI RM SU R E) as (m & HR). pose proof HR as (_ & _ & _ & _ & R3 & _). split; [apply edetermined; auto|]. rewrite R3. apply eunity; auto.
  - split; [apply enonneg|]. intros c x Hs Hn. cbn [rf_t eF]. destruct (Nat.eqb_spec (dcolumn DI (fst c) (snd (corner_dof DI c))) (esrc DI x)) as [E|]; auto.
    exfalso. apply (esrc_special DI RI c x Hs Hn). symmetry. exact E.
Qed.

Lemma three_special : special (dtensor three_patches) (0, SW).
Proof.
  apply (spc_iff (dtensor three_patches)); [apply dtensor_ring, three_patches_wf|]. split; [vm_compute; lia|]. vm_compute. reflexivity.
Qed.
Lemma fan4_special : special (dtensor fan4_sharp) (0, SW) /\ ~ interior_vertex (itopo fan4_sharp) (0, SW) /\ is_sharp (dtensor fan4_sharp) (0, SW) /\
  has_valence (itopo fan4_sharp) (0, SW) 4.
Proof.
  pose proof (dtensor_ring _ fan4_sharp_wf) as RI. assert (consistent (itopo fan4_sharp)) as Hc by apply (ri_topo _ RI).
  assert (validc (itopo fan4_sharp) (0, SW)) as Hv by (vm_compute; lia).
  split; [apply (spc_iff _ RI); split; [vm_compute; lia|vm_compute; reflexivity]|].
  split; [intros H; apply (interior_vertex_iff _ Hc _ Hv) in H; vm_compute in H; discriminate|]. split; [vm_compute; reflexivity|].
  apply (has_valence_iff _ Hc _ _ Hv). vm_compute. reflexivity.
Qed.

Lemma ac2_nonvacuous_pf : ac_input (dtensor three_patches) /\ special (dtensor three_patches) (0, SW) /\ asize_of three_patches = (51, 75) /\
  aspare_of three_patches = [0; 17; 34].
Proof. split; [apply atensor_pf; [exact three_patches_wf|apply three_almost]|]. split; [exact three_special|]. vm_compute. auto. Qed.

Lemma independent_refuted_pf : exists I F nf cl pt R A coef, ac_input I /\ refined_ok I F nf cl pt /\ (exists c, special I c) /\
  determined I F nf cl (drCols R) /\ (forall c, special I c -> spread I F pt c) /\ acFinal I F = Ok (R, A) /\
  (forall x, x < nf -> fcontrol (drRows R) A coef x = 0%R) /\ exists r, r < drRows R /\ ~ spare R r /\ coef r <> 0%R.
Proof.
  destruct fan4_special as (Hs & Hn & Hsh & Hv). assert (ac_input (dtensor fan4_sharp)) as AI by (apply atensor_pf; [exact fan4_sharp_wf|exact fan4_almost]).
  destruct (hypotheses_pf _ AI (ex_intro _ _ Hs)) as (F & nf & cl & pt & RO & Sp & Det & _ & HT). pose proof AI as [RI RM SU].
  destruct (final_thm _ RI RM SU F nf cl pt RO) as (R & A & E & Ec).
  destruct (lost_thm _ RI RM SU F nf cl pt RO R A (0, SW) 4 E Hs Hn Hsh Hv ltac:(lia)) as (r & Hr & Nr & Z).
  { intros b x Sb Hx Nx. apply HT; auto. apply (cls_special _ RI (0, SW)); auto. apply (same_vertex_cls _ (ri_topo _ RI)); auto. apply (rvalidc _ RI). apply (proj1 (spc_iff _ RI _) Hs). }
  exists (dtensor fan4_sharp), F, nf, cl, pt, R, A, (fun r' => if r' =? r then 1%R else 0%R).
  split; auto. split; auto. split; [eauto|]. split; [apply Det; auto|]. split; auto. split; auto. split.
  - intros x Hx. unfold fcontrol. transitivity (rsum (drRows R) (fun _ => 0%R)); [|rewrite rsum_const; ring]. apply rsum_ext. intros r' _.
    destruct (Nat.eqb_spec r' r) as [->|]; [rewrite Z by auto; ring|ring].
  - exists r. split; auto. split; auto. rewrite Nat.eqb_refl. lra.
Qed.
