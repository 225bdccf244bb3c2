(** Proofs for C79. *)
From Coq Require Import Reals Qreals Lra ZifyBool.
From Verif Require Import Common ListLemmas TopoModel BaseModel ReparamModel C1Model SpaceModel SpaceSpec SpaceProofs SpaceProofs2 IfSpaceModel IfSpaceSpec.
Open Scope Z_scope.

(** geometries without inner knots do not matter *)
Lemma plus_geo red g g' k : kvin g = [] -> kvin g' = [] -> createPlusSpace red g k = createPlusSpace red g' k.
Proof. intros H H'. unfold createPlusSpace. rewrite H, H'. reflexivity. Qed.
Lemma minus_geo red g g' k : kvin g = [] -> kvin g' = [] -> createMinusSpace red g k = createMinusSpace red g' k.
Proof. intros H H'. unfold createMinusSpace. rewrite H, H'. reflexivity. Qed.
Lemma gluing_geo g g' k pt rt : kvin g = [] -> kvin g' = [] -> gluingSpace g k pt rt = gluingSpace g' k pt rt.
Proof. intros H H'. unfold gluingSpace. rewrite H, H'. reflexivity. Qed.
Lemma edge_geo redn g g' k a b c : kvin g = [] -> kvin g' = [] -> edgeSpace redn g k a b c = edgeSpace redn g' k a b c.
Proof. intros H H'. unfold edgeSpace, geoCheck. rewrite H, H'. reflexivity. Qed.
Lemma vertex_geo redn g g' k f pt rt : kvin g = [] -> kvin g' = [] -> vertexSpace redn g k f pt rt = vertexSpace redn g' k f pt rt.
Proof. intros H H'. unfold vertexSpace, geoCheck. rewrite H, H', (gluing_geo g g'), (plus_geo _ g g'), (minus_geo _ g g') by assumption. reflexivity. Qed.
Lemma gluing_valid g k pt rt : kvin g = [] -> gd_valid pt rt k -> exists gd, gluingSpace g k pt rt = Ok gd.
Proof.
  intros H (A & B). unfold gluingSpace. rewrite H. cbv zeta in *. set (p := if pt =? -1 then _ else pt) in *. set (r := if rt =? -1 then _ else rt) in *.
  replace ((0 <=? p) && (r <? p)) with true by lia. cbn [ensure bind foldM]. eauto.
Qed.

Lemma coarser_ok a b : the_coarser a b (coarser a b).
Proof. unfold coarser, the_coarser, kvelements. destruct (length (kvin b) + 1 <? length (kvin a) + 1)%nat eqn:E; [right|left]; (split; [lia|reflexivity]). Qed.
Lemma coarser_ranked a b k : ranked a b -> the_coarser a b k -> coarser a b = k /\ coarser b a = k.
Proof.
  unfold coarser, the_coarser, kvelements. intros R [(L & ->)|(L & ->)].
  - replace (length (kvin b) + 1 <? length (kvin a) + 1)%nat with false by lia. split; [reflexivity|]. destruct (length (kvin a) + 1 <? length (kvin b) + 1)%nat eqn:E; [reflexivity|]. destruct R as [R|R]; [lia|congruence].
  - replace (length (kvin b) + 1 <? length (kvin a) + 1)%nat with true by lia. split; [reflexivity|]. replace (length (kvin a) + 1 <? length (kvin b) + 1)%nat with false by lia. reflexivity.
Qed.

Lemma comp_set b d k : kcomp (setComp b d k) d = k. Proof. destruct d; reflexivity. Qed.
Lemma comp_along b s : kcomp b (along s) = side_comp b s. Proof. destruct s; reflexivity. Qed.
Lemma straight_along g s : straight g -> kvin (kcomp g (along s)) = []. Proof. intros (A & B). destruct s; assumption. Qed.
Lemma straight_comp g d : straight g -> kvin (kcomp g d) = []. Proof. intros (A & B). destruct d; assumption. Qed.
Lemma straight_run h : forall g, straight g -> straight (runGeo h g).
Proof.
  unfold runGeo. induction h as [|o h IH]; intros g G; [exact G|]. cbn [fold_left]. apply IH. destruct G as (A & B), g as (u & v). cbn in A, B.
  destruct o; split; cbn; try assumption; rewrite ?A, ?B; reflexivity.
Qed.

(** the local components along the interface *)
Lemma local_first b s : kcomp (runBas (ifOps true false s) b) 1 = side_comp b s. Proof. destruct s; reflexivity. Qed.
Lemma local_second b s : kcomp (runBas (ifOps false false s) b) 0 = side_comp b s. Proof. destruct s; reflexivity. Qed.
Lemma side_set b s k : side_comp (setComp b (along s) k) s = k. Proof. destruct s; reflexivity. Qed.
Lemma local_side neg c b s : exists d, localDir (vtOps neg c) s = Ok d /\ (d < 2)%nat /\ kcomp (runBas (vtOps neg c) b) d = side_comp b s.
Proof. destruct neg, c, s; eexists; (split; [reflexivity|]); (split; [|reflexivity]); repeat constructor. Qed.
Lemma comp_kcomp b d : component b d = kcomp b d. Proof. destruct d; reflexivity. Qed.

Section C.
Context (redn : nat -> nat -> nat) (RD : reduces redn) (pt rt : Z).

Lemma all_spaces k : usable k -> gd_valid pt rt k -> exists plus minus gd E, spaces_on redn pt rt k plus minus gd /\
  (forall geo, kvin geo = [] -> edgeSpace redn geo k plus minus gd = Ok E) /\ represents plus minus gd E.
Proof.
  intros (KO & FL & P1) GV. set (g0 := mkKV 1 0 1 []). assert (G0 : kvin g0 = []) by reflexivity. destruct (gluing_valid g0 k pt rt G0 GV) as (gd & GD).
  destruct (edge_space_pf redn g0 k pt rt gd RD KO FL G0 P1 GD) as (plus & minus & E & EP & EM & EE & _ & _ & _ & _ & _ & R).
  exists plus, minus, gd, E. split; [|split; [|exact R]].
  - intros geo G. rewrite (plus_geo _ geo g0), (minus_geo _ geo g0), (gluing_geo geo g0) by assumption. auto.
  - intros geo G. rewrite (edge_geo redn geo g0) by assumption. exact EE.
Qed.

Theorem interface_pf : forall p1 p2, let k1 := side_comp (ipBas p1) (ipSide p1) in let k2 := side_comp (ipBas p2) (ipSide p2) in
  straight (ipGeo p1) -> straight (ipGeo p2) -> ipNeg p1 = false -> ipNeg p2 = false -> usable k1 -> usable k2 -> gd_valid pt rt k1 -> gd_valid pt rt k2 -> ranked k1 k2 ->
  exists k plus minus gd E1 E2, the_coarser k1 k2 k /\ spaces_on redn pt rt k plus minus gd /\
    ifInit redn pt rt p1 p2 = Ok (plus, minus, E1, E2) /\ ifSetup redn pt rt p1 p2 = Ok (mkIL plus minus gd gd) /\
    represents plus minus gd (component (runBas (ifOps true false (ipSide p1)) E1) 1) /\ represents plus minus gd (component (runBas (ifOps false false (ipSide p2)) E2) 0).
Proof.
  intros p1 p2 k1 k2 S1 S2 N1 N2 U1 U2 V1 V2 RK. set (k := coarser k1 k2). pose proof (coarser_ok k1 k2) as TC. fold k in TC. destruct (coarser_ranked k1 k2 k RK TC) as (_ & C2).
  assert (U : usable k /\ gd_valid pt rt k) by (destruct TC as [(_ & ->)|(_ & ->)]; auto). destruct U as (U & V). destruct (all_spaces k U V) as (plus & minus & gd & E & SP & ED & RP).
  set (b1 := if (kvelements k2 <? kvelements k1)%nat then setComp (ipBas p1) (along (ipSide p1)) k2 else ipBas p1).
  set (b2 := if (kvelements k2 <? kvelements k1)%nat then ipBas p2 else setComp (ipBas p2) (along (ipSide p2)) k1).
  assert (B1 : kcomp b1 (along (ipSide p1)) = k) by (unfold b1, k, coarser; destruct (_ <? _)%nat; [apply comp_set|apply comp_along]).
  assert (B2 : kcomp b2 (along (ipSide p2)) = k) by (unfold b2, k, coarser; destruct (_ <? _)%nat; [apply comp_along|apply comp_set]).
  exists k, plus, minus, gd, (setComp b1 (along (ipSide p1)) E), (setComp b2 (along (ipSide p2)) E). split; [exact TC|]. split; [exact SP|].
  split; [|split].
  - unfold ifInit. rewrite !comp_along. fold k1 k2. replace (if (kvelements k2 <? kvelements k1)%nat then _ else _) with
      (if (kvelements k2 <? kvelements k1)%nat then side_comp (ipGeo p2) (ipSide p2) else side_comp (ipGeo p1) (ipSide p1), k, b1, b2) by (unfold k, coarser, b1, b2; destruct (_ <? _)%nat; reflexivity).
    assert (G : kvin (if (kvelements k2 <? kvelements k1)%nat then side_comp (ipGeo p2) (ipSide p2) else side_comp (ipGeo p1) (ipSide p1)) = []) by (rewrite <- !comp_along; destruct (_ <? _)%nat; apply straight_along; assumption).
    destruct (SP _ G) as (-> & -> & ->). cbn [bind]. rewrite B1, B2, !ED by (rewrite <- comp_along; apply straight_along; assumption). reflexivity.
  - unfold ifSetup, ifGluing. rewrite N1, N2, local_first, local_second. fold k1 k2. change (coarser k1 k2) with k. rewrite C2.
    assert (G1 : kvin (kcomp (runGeo (ifOps true false (ipSide p1)) (ipGeo p1)) 1) = []) by apply straight_comp, straight_run, S1.
    assert (G2 : kvin (kcomp (runGeo (ifOps false false (ipSide p2)) (ipGeo p2)) 0) = []) by apply straight_comp, straight_run, S2.
    destruct (SP _ G1) as (P1 & M1 & ->). destruct (SP _ G2) as (P2 & M2 & ->). cbn [bind]. unfold k, coarser in P1, M1, P2, M2. unfold bind. destruct (kvelements k2 <? kvelements k1)%nat; [rewrite P2, M2|rewrite P1, M1]; reflexivity.
  - rewrite !comp_kcomp, local_first, local_second, !side_set. split; exact RP.
Qed.

(** ** Vertices *)
Definition own (P : vpatch) (s : side) : kvec := side_comp (vpBas P) s.
Definition used (P : vpatch) (s : side) : kvec := match vpNb P s with None => own P s | Some n => coarser (own P s) (side_comp (vnBas n) (vnSide n)) end.
Context (P : vpatch) (ST : straight (vpGeo P)) (US : forall s, usable (used P s)) (UO : forall s, usable (own P s)) (GV : forall s, gd_valid pt rt (used P s)).
Let h := vtOps (vpNeg P) (vpCorner P).
Let c := vpCorner P.

Lemma vt_bas : vtCoarser P (vtCoarser P (vpBas P) (cside c 0)) (cside c 1) = (used P (cside c 1), used P (cside c 0)).
Proof.
  unfold vtCoarser, used, own. assert (A0 : exists x, along (cside c 0) = S x) by (destruct c; exists 0%nat; reflexivity). assert (A1 : along (cside c 1) = 0%nat) by (destruct c; reflexivity). destruct A0 as (x & A0).
  rewrite A1, A0. replace (side_comp (vpBas P) (cside c 0)) with (snd (vpBas P)) by (destruct c; reflexivity). replace (side_comp (vpBas P) (cside c 1)) with (fst (vpBas P)) by (destruct c; reflexivity).
  destruct (vpNb P (cside c 0)) as [n0|], (vpNb P (cside c 1)) as [n1|]; cbn [setComp kcomp fst snd]; rewrite ?comp_along; destruct (vpBas P); reflexivity.
Qed.

Lemma vt_init : exists u v, vtInit redn pt rt P = Ok (u, v) /\
  vertexSpace redn (mkKV 1 0 1 []) (used P (cside c 1)) (isIf P (cside c 1)) pt rt = Ok u /\ vertexSpace redn (mkKV 1 0 1 []) (used P (cside c 0)) (isIf P (cside c 0)) pt rt = Ok v.
Proof.
  set (g0 := mkKV 1 0 1 []).
  assert (VS : forall k f, usable k -> gd_valid pt rt k -> exists V, vertexSpace redn g0 k f pt rt = Ok V).
  { intros k f U V. destruct (all_spaces k U V) as (plus & minus & gd & E & SP & ED & _). destruct (SP g0 eq_refl) as (A & B & D). destruct U as (KO & FL & P1). destruct f.
    - exists E. apply (vertex_space_pf redn g0 k pt rt gd plus minus E RD KO FL eq_refl P1 D A B (ED g0 eq_refl)).
    - destruct (vertex_boundary_pf redn g0 k pt rt plus minus RD KO FL eq_refl P1 A B) as (W & EW & _). exists W. exact EW. }
  destruct (VS (used P (cside c 1)) (isIf P (cside c 1)) (US _) (GV _)) as (u & EU). destruct (VS (used P (cside c 0)) (isIf P (cside c 0)) (US _) (GV _)) as (v & EV).
  exists u, v. split; [|split; assumption]. unfold vtInit. cbv zeta. fold c. rewrite vt_bas. replace (side_ix (cside c 0) <? 3)%nat with true by (destruct c; reflexivity). cbv iota beta. cbn [fst snd].
  rewrite (vertex_geo redn (fst (vpGeo P)) g0), EU, (vertex_geo redn (snd (vpGeo P)) g0), EV; try reflexivity; apply ST.
Qed.
Lemma comp_set_other b d d' k : (d < 2)%nat -> (d' < 2)%nat -> d <> d' -> kcomp (setComp b d k) d' = kcomp b d'.
Proof. intros L L' N. destruct d as [|[|d]], d' as [|[|d']]; try lia; reflexivity. Qed.

Lemma vt_pm1 b s d : localDir h s = Ok d -> (d < 2)%nat -> kcomp (runBas h (vpBas P)) d = own P s -> kcomp b d = own P s ->
  exists b', vtPM P (runBas h (vpBas P)) b s = Ok b' /\ kcomp b' d = used P s /\ forall d', (d' < 2)%nat -> d <> d' -> kcomp b' d' = kcomp b d'.
Proof.
  intros LD L EB EO. unfold vtPM, used. destruct (vpNb P s) as [n|]; [|exists b; auto]. fold h. rewrite LD. cbn [bind].
  destruct (local_side (vnNeg n) (vnCorner n) (vnBas n) (vnSide n)) as (d2 & E2 & _ & E3). rewrite E2. cbn [bind]. rewrite E3, EB. unfold coarser.
  destruct (_ <? _)%nat.
  - eexists. split; [reflexivity|]. split; [apply comp_set|]. intros d' L' N. apply comp_set_other; assumption.
  - exists b. auto.
Qed.

Lemma two_dirs : exists d0 d1, localDir h (cside c 0) = Ok d0 /\ localDir h (cside c 1) = Ok d1 /\ (d0 < 2)%nat /\ (d1 < 2)%nat /\ d0 <> d1.
Proof. unfold h, c. destruct (vpNeg P), (vpCorner P); do 2 eexists; (split; [cbv; reflexivity|]); (split; [cbv; reflexivity|]); lia. Qed.

Lemma own_dir s d : localDir h s = Ok d -> kcomp (runBas h (vpBas P)) d = own P s.
Proof. intros E. destruct (local_side (vpNeg P) (vpCorner P) (vpBas P) s) as (d' & E' & _ & K). fold h in E', K. rewrite E in E'. injection E' as <-. exact K. Qed.

(** what is stored for one side *)
Definition edge_of (s : side) (e : vtEdge) : Prop :=
  veIf e = isIf P s /\ exists gd, spaces_on redn pt rt (used P s) (vePlus e) (veMinus e) gd /\ veGD e = gd.

Lemma vt_setup : exists l, vtSetup redn pt rt P = Ok l /\ forall s, s = cside c 0 \/ s = cside c 1 -> exists d e, localDir h s = Ok d /\ nth_error l d = Some (Some e) /\ edge_of s e.
Proof.
  destruct two_dirs as (d0 & d1 & E0 & E1 & L0 & L1 & N). unfold vtSetup. cbv zeta. fold h. fold c. replace (side_ix (cside c 0) <? 3)%nat with true by (destruct c; reflexivity). cbn [foldM].
  destruct (vt_pm1 (runBas h (vpBas P)) (cside c 1) d1 E1 L1 (own_dir _ _ E1) (own_dir _ _ E1)) as (b1 & -> & K1 & O1). cbn [bind].
  destruct (vt_pm1 b1 (cside c 0) d0 E0 L0 (own_dir _ _ E0)) as (b2 & -> & K2 & O2). { rewrite O1 by auto. apply own_dir, E0. } cbn [bind].
  assert (KA : kcomp b2 d1 = used P (cside c 1)) by (rewrite O2 by auto; exact K1).
  assert (SC : forall d, kvin (kcomp (runGeo h (vpGeo P)) d) = []) by (intros d; apply straight_comp, straight_run, ST).
  assert (OU : forall s, (if isIf P s then used P s else own P s) = used P s) by (intros s; unfold isIf, used; destruct (vpNb P s); reflexivity).
  destruct (all_spaces (used P (cside c 1)) (US _) (GV _)) as (pl1 & mi1 & gd1 & X1 & SP1 & _). destruct (all_spaces (used P (cside c 0)) (US _) (GV _)) as (pl0 & mi0 & gd0 & X0 & SP0 & _).
  rewrite E1. cbn [bind]. rewrite KA, (own_dir _ _ E1), OU. destruct (SP1 _ (SC d1)) as (-> & -> & ->). cbn [bind].
  rewrite E0. cbn [bind]. rewrite K2, (own_dir _ _ E0), OU. destruct (SP0 _ (SC d0)) as (-> & -> & ->). cbn [bind].
  set (e1 := mkVE _ gd1 _ _). set (e0 := mkVE _ gd0 _ _).
  assert (F1 : edge_of (cside c 1) e1) by (split; [reflexivity|exists gd1; split; [exact SP1|reflexivity]]).
  assert (F0 : edge_of (cside c 0) e0) by (split; [reflexivity|exists gd0; split; [exact SP0|reflexivity]]).
  destruct d0 as [|[|d0]], d1 as [|[|d1]]; try lia; cbn; eexists; (split; [reflexivity|]); intros s [-> | ->]; (eexists; eexists; split; [eassumption|]); (split; [reflexivity|assumption]).
Qed.

Theorem vertex_setup_pf : exists V l, vtInit redn pt rt P = Ok V /\ vtSetup redn pt rt P = Ok l /\
  forall s, on_side (vpCorner P) s = true -> exists d e, localDir h s = Ok d /\ nth_error l d = Some (Some e) /\ veIf e = isIf P s /\
    spaces_on redn pt rt (used P s) (vePlus e) (veMinus e) (veGD e) /\
    (isIf P s = true -> represents (vePlus e) (veMinus e) (veGD e) (component (runBas h V) d)) /\
    (isIf P s = false -> represents_boundary (vePlus e) (veMinus e) (component (runBas h V) d)).
Proof.
  destruct vt_init as (u & v & EI & EU & EV). destruct vt_setup as (l & EL & H). exists (u, v), l. split; [exact EI|]. split; [exact EL|]. intros s ON. fold c in ON.
  assert (CS : s = cside c 0 \/ s = cside c 1) by (clear -ON; destruct c, s; cbn in ON; try discriminate; auto).
  destruct (H s CS) as (d & e & LD & NE & (IF & gd & SP & <-)). exists d, e. split; [exact LD|]. split; [exact NE|]. split; [exact IF|]. split; [exact SP|].
  set (g0 := mkKV 1 0 1 []).
  assert (VS : vertexSpace redn g0 (used P s) (isIf P s) pt rt = Ok (component (runBas h (u, v)) d)).
  { rewrite comp_kcomp. destruct (local_side (vpNeg P) (vpCorner P) (u, v) s) as (d' & E' & _ & K). fold h in E', K. rewrite LD in E'. injection E' as <-. rewrite K. clear -CS EU EV. unfold g0. destruct CS as [-> | ->]; [rewrite EV|rewrite EU]; f_equal; destruct c; reflexivity. }
  destruct (US s) as (KO & FL & P1). destruct (SP g0 eq_refl) as (A & B & D). split; intros F; rewrite F in VS.
  - destruct (all_spaces (used P s) (US s) (GV s)) as (plus & minus & gd & E & SP' & ED & RP). destruct (SP' g0 eq_refl) as (A' & B' & D'). rewrite A in A'. rewrite B in B'. rewrite D in D'. injection A' as <-. injection B' as <-. injection D' as <-.
    destruct (vertex_space_pf redn g0 (used P s) pt rt _ _ _ E RD KO FL eq_refl P1 D A B (ED g0 eq_refl)) as (VE & _). rewrite VE in VS. injection VS as <-. exact RP.
  - destruct (vertex_boundary_pf redn g0 (used P s) pt rt _ _ RD KO FL eq_refl P1 A B) as (W & EW & _ & _ & R). rewrite EW in VS. injection VS as <-. intros Q M HP HM. split; apply R; auto.
Qed.
End C.
