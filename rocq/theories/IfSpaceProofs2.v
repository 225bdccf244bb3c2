(** Proofs for C79: functions mapped back, what fails, examples. *)
From Coq Require Import Reals Qreals Lra ZifyBool Sorted.
From Verif Require Import Common ListLemmas TopoModel BaseModel ReparamModel ReparamSpec C1Model SpaceModel SpaceSpec PolyProofs SpaceProofs SpaceProofs2 SpaceProofs3 SpaceProofs4 SurfaceSpec SurfaceProofs IfSpaceModel IfSpaceSpec IfSpaceProofs.
Open Scope Z_scope.

Fixpoint spans (B : list op) (s : Q * Q) : Q * Q := match B with [] => s | o :: B' => spans B' (move_spans o s) end.

Lemma back_fold {A} (coord : A -> Q) B : forall (g f : patch A) s xy, good g s xy -> sym2 g -> foldM (fun gs o => mapM (op_patch (basK o) o) gs) B [g] = Ok [f] ->
  (surface coord f (moves B s xy) == surface coord g xy)%Q /\ good f (spans B s) (moves B s xy).
Proof.
  induction B as [|o B IH]; intros g f s xy G SY E.
  - cbn in E. injection E as <-. split; [reflexivity|exact G].
  - cbn [foldM] in E. cbn [mapM] in E. destruct (op_patch (basK o) o g) as [q|] eqn:EQ; [|discriminate]. cbn [bind] in E.
    destruct (surf_op1 coord o g q s xy G SY EQ) as (H & G' & SY'). destruct (IH q f (move_spans o s) (move o s xy) G' SY' E) as (H2 & G2). cbn [moves spans]. split; [|exact G2]. rewrite H2. exact H.
Qed.

Theorem back_pf : forall {A} (coord : A -> Q) sw h (p : patch A) ng a (g f : patch A) xy, at_most_one_rotation h -> run (history sw h) (newAux p ng) = Ok a ->
  full g -> spline_comp (pU g) -> spline_comp (pV g) -> ReparamSpec.symmetric (pU g) -> ReparamSpec.symmetric (pV g) -> parametrizeBasisBack a [g] = Ok [f] ->
  let xy' := moves (history sw h) (span (pU f), span (pV f)) xy in off_knots (pU g) (fst xy') -> off_knots (pV g) (snd xy') ->
  (surface coord f xy == surface coord g xy')%Q.
Proof.
  intros A coord sw h p ng a g f xy AM R F SU SV YU YV B xy' OU OV.
  assert (RO : rotNum a = match h with [OAnti] => 1 | [OClock] => -1 | [OTwice] => 2 | _ => 0 end /\ orient a = sw).
  { clear -AM R. assert (GEN : forall hh (x y : aux A), run hh x = Ok y -> rotNum y = fold_left (fun r o => op_rot o r) hh (rotNum x) /\ orient y = fold_left (fun b o => match o with OSwap => true | _ => b end) hh (orient x)).
    { clear. induction hh as [|o hh IH]; intros x y E; [cbn in E; injection E as <-; auto|]. unfold run in *. cbn [foldM] in E. unfold run1 at 1 in E. destruct (op_patch _ o (geo x)); [|discriminate]. cbn [bind] in E. apply IH in E. exact E. }
    apply GEN in R. destruct AM as [-> | (o & RO & ->)]; [destruct sw; exact R|]. destruct sw, o; try (exfalso; apply RO; reflexivity); exact R. }
  destruct RO as (RN & OR). unfold parametrizeBasisBack in B. rewrite RN, OR in B.
  assert (G : good g (span (pU g), span (pV g)) xy') by (repeat split; try assumption; reflexivity).
  destruct (back_fold coord _ g f _ xy' G (conj YU YV) B) as (H & (_ & _ & _ & S1 & S2 & _ & _)). rewrite <- H.
  apply surf_same; try reflexivity; try (split; [reflexivity|]; clear; induction (cknots _); constructor; [reflexivity|assumption]);
  subst xy'; destruct AM as [-> | (o & RO & ->)]; destruct sw; try (destruct o; try (exfalso; apply RO; reflexivity)); cbn in S1, S2 |- *; try reflexivity; rewrite ?S1, ?S2; ring.
Qed.

(** asymmetric knots: the function 0, 1, 2 along v, degree 1, knots 0,0,1/3,1,1; side east *)
Definition asymComp : comp := mkComp [0; 0; 1 # 3; 1; 1]%Q 3.
Definition flatComp : comp := mkComp [0; 0; 1; 1]%Q 2.
Definition asymPatch : patch Q := mkPatch flatComp asymComp [0; 0; 1; 1; 0; 0]%Q.
Theorem back_refuted_pf : exists (p : patch Q) a (g f : patch Q) xy, full g /\ (pU g, pV g) = bas2 a /\ reparametrizeInterface true 2 (newAux p false) = Ok a /\ parametrizeBasisBack a [g] = Ok [f] /\
  let xy' := moves [OTwice] (span (pU f), span (pV f)) xy in off_knots (pU g) (fst xy') /\ off_knots (pV g) (snd xy') /\ ~ (surface (fun x => x) f xy == surface (fun x => x) g xy')%Q.
Proof.
  exists asymPatch. eexists. exists asymPatch. eexists. exists (1 # 2, 1 # 4)%Q. split; [reflexivity|]. split; [|split; [vm_compute; reflexivity|]]; [vm_compute; reflexivity|]. split; [vm_compute; reflexivity|].
  cbv zeta. split; [|split]; [repeat constructor; vm_compute; discriminate..|]. vm_compute. discriminate.
Qed.

(** ** What fails *)
Definition lineKV : kvec := mkKV 3 0 1 [].
Definition thirdKV : kvec := mkKV 3 0 1 [(third, 1%nat)].
Definition halfKV : kvec := mkKV 3 0 1 [(half, 1%nat)].
Lemma third_usable : usable thirdKV. Proof. split; [|split]; [split; repeat constructor; cbn; lia|repeat constructor|cbn; lia]. Qed.
Lemma half_usable : usable halfKV. Proof. split; [|split]; [split; repeat constructor; cbn; lia|repeat constructor|cbn; lia]. Qed.
Definition ipA : ipatch := mkIP (lineKV, lineKV) (thirdKV, thirdKV) East false.
Definition ipB : ipatch := mkIP (lineKV, lineKV) (halfKV, halfKV) West false.
Definition minus13 : kvec := mkKV 2 0 1 [(third, 1%nat)].

Theorem tie_refuted_pf : forall redn, reduces redn -> exists p1 p2 plus minus E1 E2 L,
  straight (ipGeo p1) /\ straight (ipGeo p2) /\ ipNeg p1 = false /\ ipNeg p2 = false /\ usable (side_comp (ipBas p1) (ipSide p1)) /\ usable (side_comp (ipBas p2) (ipSide p2)) /\
  ifInit redn (-1) (-1) p1 p2 = Ok (plus, minus, E1, E2) /\ ifSetup redn (-1) (-1) p1 p2 = Ok L /\
  ~ represents (ilPlus L) (ilMinus L) (ilGD2 L) (component (runBas (ifOps false false (ipSide p2)) E2) 0).
Proof.
  intros redn RD. pose proof (RD 1%nat 2%nat ltac:(lia)) as R21. cbn in R21.
  exists ipA, ipB, thirdKV, minus13, (thirdKV, mkKV 4 0 1 [(third, 3%nat)]), (halfKV, mkKV 4 0 1 [(third, 3%nat)]), (mkIL thirdKV minus13 minus13 (mkKV 2 0 1 [(half, 1%nat)])).
  do 2 (split; [split; reflexivity|]). do 2 (split; [reflexivity|]). split; [exact third_usable|]. split; [exact half_usable|].
  split; [reflexivity|]. split; [reflexivity|]. cbn [ilPlus ilMinus ilGD2 component Nat.eqb fst snd runBas ifOps ipSide ipB orientOps interfaceOps side_ix app fold_left kvBas].
  intros H. destruct (H (fun _ => []) (fun _ => []) (fun _ => [1%R]) (trunc half 1 2) (trunc half 1 2) (trunc half 1 2)) as (_ & K & _).
  - apply (in_space_ext _ _ (fun _ => [0%R])); [intros x t; cbn; ring|apply const_in].
  - apply const_in.
  - apply trunc_in; cbn; try lia. intros z E. replace (Qeq_bool half z) with true; [reflexivity|]. symmetry. apply Qeqb_iff. symmetry. exact E.
  - apply trunc_in; cbn; try lia. intros z E. replace (Qeq_bool half z) with true; [reflexivity|]. symmetry. apply Qeqb_iff. symmetry. exact E.
  - intros x t. cbn. apply derivable_pt_lim_const.
  - assert (X : space_of (mkKV 4 0 1 [(third, 3%nat)]) (trunc half 1 2)) by (apply K; intros x t; cbn [peval]; ring).
    revert X. apply trunc_out; [cbn; lia|lra|]. exists third. split; [reflexivity|]. intros z L1 L2. cbn. replace (Qeq_bool third z) with false; [reflexivity|]. symmetry. apply Qeqb_false. intros E. rewrite E in L1. apply (Qlt_irrefl z L1).
Qed.

(** the geometry is reversed, the basis is not *)
Definition ipG : ipatch := mkIP (lineKV, mkKV 2 0 1 [(third, 1%nat)]) (thirdKV, thirdKV) East false.
Definition ipG2 : ipatch := mkIP (lineKV, mkKV 2 0 1 [(third, 1%nat)]) (thirdKV, thirdKV) West false.
Theorem geometry_if_refuted_pf : forall redn, exists p1 p2 plus minus E1 E2 L, ipNeg p1 = false /\ ipNeg p2 = false /\ usable (side_comp (ipBas p1) (ipSide p1)) /\ side_comp (ipBas p1) (ipSide p1) = side_comp (ipBas p2) (ipSide p2) /\ ipGeo p1 = ipGeo p2 /\
  ifInit redn (-1) (-1) p1 p2 = Ok (plus, minus, E1, E2) /\ ifSetup redn (-1) (-1) p1 p2 = Ok L /\ kvin plus = [(third, 2%nat)] /\ kvin (ilPlus L) = [(third, 1%nat); (twoThirds, 1%nat)].
Proof.
  intros redn. exists ipG, ipG2. do 5 eexists. split; [reflexivity|]. split; [reflexivity|]. split; [exact third_usable|]. split; [reflexivity|]. split; [reflexivity|].
  split; [vm_compute; reflexivity|]. split; [vm_compute; reflexivity|]. split; reflexivity.
Qed.

(** ** Vertices *)
Lemma ok_used pt rt P s : vp_ok pt rt P -> usable (used P s) /\ gd_valid pt rt (used P s) /\ edge_knots P s (used P s).
Proof.
  intros (ST & A & B). unfold used, own, edge_knots. destruct (vpNb P s) as [n|] eqn:E; [|destruct (A s); auto]. pose proof (coarser_ok (side_comp (vpBas P) s) (side_comp (vnBas n) (vnSide n))) as C. destruct (A s), (B s n E).
  split; [|split; [|exact C]]; destruct C as [(_ & ->)|(_ & ->)]; assumption.
Qed.
Lemma isIf_iff P s : (isIf P s = true <-> is_interface P s) /\ (isIf P s = false <-> ~ is_interface P s).
Proof.
  unfold isIf, is_interface. destruct (vpNb P s) as [n|].
  - split; split; [eauto|reflexivity|discriminate|intros N; exfalso; apply N; eauto].
  - split; split; [discriminate|intros (m & E); discriminate|intros _ (m & E); discriminate|reflexivity].
Qed.

Theorem vertex_if_pf : forall redn pt rt P, reduces redn -> vp_ok pt rt P -> exists V l, vtInit redn pt rt P = Ok V /\ vtSetup redn pt rt P = Ok l /\
  forall s, on_side (vpCorner P) s = true -> exists k d e, edge_knots P s k /\ localDir (vtOps (vpNeg P) (vpCorner P)) s = Ok d /\ nth_error l d = Some (Some e) /\
    (veIf e = true <-> is_interface P s) /\ spaces_on redn pt rt k (vePlus e) (veMinus e) (veGD e) /\
    (is_interface P s -> represents (vePlus e) (veMinus e) (veGD e) (component (runBas (vtOps (vpNeg P) (vpCorner P)) V) d)) /\
    (~ is_interface P s -> represents_boundary (vePlus e) (veMinus e) (component (runBas (vtOps (vpNeg P) (vpCorner P)) V) d)).
Proof.
  intros redn pt rt P RD OK. pose proof (fun s => ok_used pt rt P s OK) as U. destruct (vertex_setup_pf redn RD pt rt P (proj1 OK) (fun s => proj1 (U s)) (fun s => proj1 (proj2 (U s)))) as (V & l & A & B & H).
  exists V, l. split; [exact A|]. split; [exact B|]. intros s ON. destruct (H s ON) as (d & e & E1 & E2 & E3 & E4 & E5 & E6). destruct (isIf_iff P s) as (I1 & I2). exists (used P s), d, e. split; [apply U|]. split; [exact E1|]. split; [exact E2|]. rewrite E3. split; [exact I1|]. split; [exact E4|].
  split; intros F; [apply E5, I1, F|apply E6, I2, F].
Qed.

Theorem vertex_agree_pf : forall redn pt rt P s Q s' l l' d d' e e', reduces redn -> vp_ok pt rt P -> vp_ok pt rt Q -> neighbours P s Q s' -> on_side (vpCorner P) s = true -> on_side (vpCorner Q) s' = true ->
  ranked (side_comp (vpBas P) s) (side_comp (vpBas Q) s') -> vtSetup redn pt rt P = Ok l -> vtSetup redn pt rt Q = Ok l' ->
  localDir (vtOps (vpNeg P) (vpCorner P)) s = Ok d -> localDir (vtOps (vpNeg Q) (vpCorner Q)) s' = Ok d' -> nth_error l d = Some (Some e) -> nth_error l' d' = Some (Some e') -> e = e'.
Proof.
  intros redn pt rt P s Q s' l l' d d' e e' RD OP OQ ((n & N1 & N2 & N3) & (n' & M1 & M2 & M3)) ON ON' RK L L' D D' E E'.
  pose proof (fun s => ok_used pt rt P s OP) as U. pose proof (fun s => ok_used pt rt Q s OQ) as U'.
  destruct (vertex_setup_pf redn RD pt rt P (proj1 OP) (fun s => proj1 (U s)) (fun s => proj1 (proj2 (U s)))) as (V & l1 & _ & B & H).
  destruct (vertex_setup_pf redn RD pt rt Q (proj1 OQ) (fun s => proj1 (U' s)) (fun s => proj1 (proj2 (U' s)))) as (V' & l1' & _ & B' & H').
  rewrite L in B. injection B as <-. rewrite L' in B'. injection B' as <-.
  destruct (H s ON) as (x & y & E1 & E2 & E3 & E4 & _). rewrite D in E1. injection E1 as <-. rewrite E in E2. injection E2 as <-.
  destruct (H' s' ON') as (x & y & E1' & E2' & E3' & E4' & _). rewrite D' in E1'. injection E1' as <-. rewrite E' in E2'. injection E2' as <-.
  assert (UU : used P s = used Q s').
  { unfold used, own. rewrite N1, M1, N2, N3, M2, M3. pose proof (coarser_ok (side_comp (vpBas P) s) (side_comp (vpBas Q) s')) as C. destruct (coarser_ranked _ _ _ RK C) as (_ & ->). reflexivity. }
  rewrite UU in E4. set (g0 := mkKV 1 0 1 []). destruct (E4 g0 eq_refl) as (A1 & A2 & A3). destruct (E4' g0 eq_refl) as (B1 & B2 & B3).
  assert (I1 : isIf P s = true) by (unfold isIf; rewrite N1; reflexivity). assert (I2 : isIf Q s' = true) by (unfold isIf; rewrite M1; reflexivity). rewrite I1 in E3. rewrite I2 in E3'.
  destruct e, e'. cbn in *. congruence.
Qed.

(** equally many elements, different knots: the two patches use different functions *)
Definition vneighOf (P : vpatch) (s : side) : vneigh := mkVN (vpBas P) s (vpCorner P) (vpNeg P).
Definition soloA : vpatch := mkVP (lineKV, lineKV) (thirdKV, thirdKV) SE false (fun _ => None).
Definition soloB : vpatch := mkVP (lineKV, lineKV) (halfKV, halfKV) SW false (fun _ => None).
Definition join (P : vpatch) (s : side) (Q : vpatch) (s' : side) : vpatch := mkVP (vpGeo P) (vpBas P) (vpCorner P) (vpNeg P) (fun t => if side_eqb t s then Some (vneighOf Q s') else None).
Definition vtA : vpatch := join soloA East soloB West.
Definition vtB : vpatch := join soloB West soloA East.
Lemma third_gd : gd_valid (-1) (-1) thirdKV. Proof. cbv -[Z.le Z.lt]; lia. Qed.
Lemma half_gd : gd_valid (-1) (-1) halfKV. Proof. cbv -[Z.le Z.lt]; lia. Qed.
Lemma vtA_ok : vp_ok (-1) (-1) vtA.
Proof.
  split; [split; reflexivity|]. split; [intros []; (split; [exact third_usable|exact third_gd])|]. intros s n E. cbn in E. destruct (side_eqb s East); [|discriminate]. injection E as <-. split; [exact half_usable|exact half_gd].
Qed.
Lemma vtB_ok : vp_ok (-1) (-1) vtB.
Proof.
  split; [split; reflexivity|]. split; [intros []; (split; [exact half_usable|exact half_gd])|]. intros s n E. cbn in E. destruct (side_eqb s West); [|discriminate]. injection E as <-. split; [exact third_usable|exact third_gd].
Qed.
Theorem vertex_tie_refuted_pf : forall redn, exists P s Q s' l l' d d' e e', vp_ok (-1) (-1) P /\ vp_ok (-1) (-1) Q /\ neighbours P s Q s' /\ on_side (vpCorner P) s = true /\ on_side (vpCorner Q) s' = true /\
  length (kvin (side_comp (vpBas P) s)) = length (kvin (side_comp (vpBas Q) s')) /\ vtSetup redn (-1) (-1) P = Ok l /\ vtSetup redn (-1) (-1) Q = Ok l' /\
  localDir (vtOps (vpNeg P) (vpCorner P)) s = Ok d /\ localDir (vtOps (vpNeg Q) (vpCorner Q)) s' = Ok d' /\ nth_error l d = Some (Some e) /\ nth_error l' d' = Some (Some e') /\
  kvin (vePlus e) = [(third, 1%nat)] /\ kvin (vePlus e') = [(half, 1%nat)].
Proof.
  intros redn. exists vtA, East, vtB, West. do 6 eexists. split; [exact vtA_ok|]. split; [exact vtB_ok|]. split; [split; (eexists; split; [reflexivity|split; reflexivity])|]. do 3 (split; [reflexivity|]).
  split; [vm_compute; reflexivity|]. split; [vm_compute; reflexivity|]. split; [vm_compute; reflexivity|]. split; [vm_compute; reflexivity|]. split; [reflexivity|]. split; [reflexivity|]. split; reflexivity.
Qed.

(** ** Example: three inner knots on one side, one on the other *)
Definition quarterKV : kvec := mkKV 3 0 1 [(1 # 4, 1%nat); (half, 1%nat); (3 # 4, 1%nat)].
Definition ipFine : ipatch := mkIP (lineKV, lineKV) (thirdKV, quarterKV) East false.
Definition ipCoarse : ipatch := mkIP (lineKV, lineKV) (halfKV, halfKV) South false.
Theorem if_example_pf : straight (ipGeo ipFine) /\ straight (ipGeo ipCoarse) /\ usable quarterKV /\ usable halfKV /\ gd_valid (-1) (-1) quarterKV /\ ranked quarterKV halfKV /\ the_coarser quarterKV halfKV halfKV /\
  side_comp (ipBas ipFine) (ipSide ipFine) = quarterKV /\ side_comp (ipBas ipCoarse) (ipSide ipCoarse) = halfKV /\
  (exists plus minus E1 E2 gd, ifInit redMinus (-1) (-1) ipFine ipCoarse = Ok (plus, minus, E1, E2) /\ ifSetup redMinus (-1) (-1) ipFine ipCoarse = Ok (mkIL plus minus gd gd) /\
    kvin plus = [(half, 1%nat)] /\ fst E1 = thirdKV /\ kvdeg (snd E1) = 4%nat /\ kvin (snd E1) = [(half, 3%nat)] /\ kvin (fst E2) = [(half, 3%nat)] /\ snd E2 = halfKV /\
    component (runBas (ifOps true false East) E1) 1 = snd E1 /\ space_of plus (trunc half 1 3) /\ ~ space_of plus (trunc half 1 2)) /\
  vp_ok (-1) (-1) vtA /\ is_interface vtA East /\ ~ is_interface vtA South /\ (exists V, vtInit redMinus (-1) (-1) vtA = Ok V /\ kvin (fst V) = [(third, 2%nat)] /\ kvin (snd V) = [(third, 3%nat)]).
Proof.
  do 2 (split; [split; reflexivity|]). split; [split; [|split]; [split; repeat constructor; cbn; lia|repeat constructor|cbn; lia]|]. split; [exact half_usable|]. split; [cbv -[Z.le Z.lt]; lia|]. split; [left; discriminate|]. split; [right; split; [cbn; lia|reflexivity]|]. do 2 (split; [reflexivity|]).
  split; [|split; [exact vtA_ok|]; split; [eexists; reflexivity|]; split; [intros (n & E); discriminate|]; eexists; split; [vm_compute; reflexivity|split; reflexivity]].
  do 5 eexists. split; [vm_compute; reflexivity|]. split; [vm_compute; reflexivity|]. do 7 (split; [reflexivity|]). split.
  - apply trunc_in; cbn; try lia. intros z E. change (1 # 2)%Q with half. replace (Qeq_bool half z) with true; [reflexivity|]. symmetry. apply Qeqb_iff. symmetry. exact E.
  - apply trunc_out; [cbn; lia|lra|apply half_left].
Qed.
