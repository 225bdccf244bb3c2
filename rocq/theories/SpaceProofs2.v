(** Proofs for C62: edges on the boundary, vertices, and geometries with inner knots. *)
From Coq Require Import Reals Qreals Lra ZifyBool Sorted.
From Verif Require Import Common BaseModel ReparamModel C1Model SpaceModel SpaceSpec PolyProofs SpaceProofs.
Open Scope Z_scope.

Theorem boundary_space_pf : forall redn geo b, reduces redn -> knots_ok (kvin b) -> first_least b -> kvin geo = [] -> (1 <= kvdeg b)%nat ->
  exists plus minus E, createPlusSpace (redn 1%nat) geo b = Ok plus /\ createMinusSpace (redn 1%nat) geo b = Ok minus /\ edgeSpaceBoundary redn geo b plus minus = Ok E /\ kvdeg E = kvdeg b /\
    (forall x, mult (kvin E) x = if (multAfterEnd b =? 1)%nat && (0 <? mult (kvin b) x)%nat then (mult (kvin b) x + 1)%nat else mult (kvin b) x) /\
    forall P M, space_of plus P -> space_of minus M -> space_of E P /\ space_of E M.
Proof.
  intros redn geo b RD KO FL NG P1. set (d := if (multAfterEnd b =? 1)%nat then 0%nat else 1%nat).
  exists (mkKV (kvdeg b) (kvlo b) (kvhi b) (remap (fun m => m - d)%nat (kvin b))), (mkKV (kvdeg b - 1) (kvlo b) (kvhi b) (remap (fun m => m - d)%nat (kvin b))).
  set (plus := mkKV (kvdeg b) _ _ _). set (minus := mkKV (kvdeg b - 1) _ _ _). set (r := Z.min (regularity plus - 1) (regularity minus)).
  assert (RV : kvin b <> [] -> r = Z.of_nat (kvdeg b) - 1 - Z.of_nat (multAfterEnd b - d) /\ (d < multAfterEnd b)%nat).
  { intros N. pose proof (d_le b KO FL N) as DL. unfold r, plus, minus. rewrite !(regularity_remap b _ (fun m => m - d)%nat N). split; [lia|exact DL]. }
  assert (LR : r < Z.of_nat (kvdeg b)).
  { destruct (kvin b) as [|e l] eqn:EK; [unfold r, plus; cbn [remap map]; rewrite regularity_empty; lia|]. destruct RV as (-> & _); [congruence|]. lia. }
  exists (mkKV (kvdeg b) (kvlo b) (kvhi b) (grown b (kvdeg b) r)). split; [exact (plus_eq redn RD b KO FL geo NG)|]. split; [exact (minus_eq redn RD b KO FL geo NG P1)|]. split.
  { unfold edgeSpaceBoundary. change (kvdeg plus) with (kvdeg b). fold r. rewrite (setRegularity_eq redn RD b KO FL (kvdeg b) r LR). apply (geoCheck_eq geo NG). }
  split; [reflexivity|]. cbn [kvin]. split.
  - intros x. unfold grown. rewrite mult_remap by apply (all_pos b KO). destruct (Nat.eqb_spec (mult (kvin b) x) 0) as [Z0|N0]; [rewrite Z0, andb_false_r; reflexivity|].
    assert (N : kvin b <> []) by (intros N; rewrite N in N0; cbn in N0; lia). destruct (RV N) as (R1 & R3). replace (0 <? mult (kvin b) x)%nat with true by lia. rewrite andb_true_r. rewrite R1. unfold d in *. destruct (multAfterEnd b =? 1)%nat eqn:E1; lia.
  - assert (FIT : forall q f, (forall m, (0 < m)%nat -> (multAfterEnd b <= m)%nat -> kvin b <> [] -> 1 + r + Z.of_nat (multAfterEnd b) - Z.of_nat m <= Z.of_nat q + 1 - Z.of_nat (f m)) -> forall x, (mult (grown b (kvdeg b) r) x = 0%nat -> mult (remap f (kvin b)) x = 0%nat) /\ ((0 < mult (grown b (kvdeg b) r) x)%nat -> (kvdeg b + 1 - mult (grown b (kvdeg b) r) x <= q + 1 - mult (remap f (kvin b)) x)%nat)).
    { intros q f H x. destruct (kvin b) as [|e l] eqn:EK; [split; [reflexivity|]; unfold grown; rewrite EK; cbn; lia|]. rewrite <- EK in *. apply (fits b KO FL (kvdeg b) r q f x); [|exact LR]. intros m L1 L2. apply H; [exact L1|exact L2|congruence]. }
    assert (FP : forall x, _) by (apply (FIT (kvdeg b - 1)%nat (fun m => m - d)%nat); intros m L1 L2 N; destruct (RV N) as (R1 & R3); lia).
    assert (FV : forall x, _) by (apply (FIT (kvdeg b) (fun m => m - d)%nat); intros m L1 L2 N; destruct (RV N) as (R1 & R3); lia).
    intros P M SP SM. unfold space_of in *. cbn [kvdeg kvin plus minus] in *. split.
    + apply (larger_in (kvdeg b) (remap (fun m => m - d)%nat (kvin b)) (kvdeg b) _ P SP); [lia| |]; intros x; apply (FV x).
    + apply (larger_in (kvdeg b - 1) (remap (fun m => m - d)%nat (kvin b)) (kvdeg b) _ M SM); [lia| |]; intros x; apply (FP x).
Qed.

(** At a vertex, along an interface and along the boundary. *)
Theorem vertex_space_pf : forall redn geo b pt rt gd plus minus E, reduces redn -> knots_ok (kvin b) -> first_least b -> kvin geo = [] -> (1 <= kvdeg b)%nat -> gluingSpace geo b pt rt = Ok gd ->
  createPlusSpace (redn 1%nat) geo b = Ok plus -> createMinusSpace (redn 1%nat) geo b = Ok minus -> edgeSpace redn geo b plus minus gd = Ok E ->
  vertexSpace redn geo b true pt rt = Ok E /\ ((1 <= kvdeg gd)%nat -> forall s, space_of b s -> space_of E s).
Proof.
  intros redn geo b pt rt gd plus minus E RD KO FL NG P1 GD PE ME EE. unfold vertexSpace. rewrite GD, PE, ME. cbn [bind].
  rewrite (plus_eq redn RD b KO FL geo NG) in PE. injection PE as <-. rewrite (minus_eq redn RD b KO FL geo NG P1) in ME. injection ME as <-.
  destruct (gluing_eq b geo NG pt rt gd GD) as (mg & MG & EG & _). revert EE. unfold edgeSpace. cbn [kvdeg]. replace (1 <=? kvdeg b + kvdeg gd)%nat with true by lia. cbn [ensure bind].
  set (d := if (multAfterEnd b =? 1)%nat then 0%nat else 1%nat). set (plus := mkKV (kvdeg b) _ _ _). set (minus := mkKV (kvdeg b - 1) _ _ _). set (pe := (kvdeg b + kvdeg gd - 1)%nat).
  set (r := Z.min (regularity gd) (Z.min (regularity plus - 1) (regularity minus))). set (r' := Z.min (regularity gd) (Z.min (regularity plus) (regularity minus))).
  assert (LG : regularity gd < Z.of_nat pe).
  { rewrite EG. destruct (kvin b) as [|e l] eqn:EK; [cbn [remap map]; rewrite regularity_empty; unfold pe; lia|]. rewrite <- EK. rewrite (regularity_remap b (kvdeg gd) (fun _ => mg)) by congruence. unfold pe. lia. }
  assert (RV : kvin b <> [] -> r = Z.min (Z.of_nat (kvdeg gd) - Z.of_nat mg) (Z.of_nat (kvdeg b) - 1 - Z.of_nat (multAfterEnd b - d)) /\ r' = r /\ (d < multAfterEnd b)%nat).
  { intros N. pose proof (d_le b KO FL N) as DL. unfold r', r, plus, minus. rewrite !(regularity_remap b _ (fun m => m - d)%nat N). assert (RG : regularity gd = Z.of_nat (kvdeg gd) - Z.of_nat mg) by (rewrite EG at 1; apply (regularity_remap b (kvdeg gd) (fun _ => mg) N)). rewrite RG. split; [lia|]. split; [lia|exact DL]. }
  rewrite (setRegularity_eq redn RD b KO FL pe r) by (unfold r; lia). rewrite (setRegularity_eq redn RD b KO FL pe r') by (unfold r'; lia).
  rewrite !(geoCheck_eq geo NG). intros H. injection H as <-. split.
  - f_equal. f_equal. destruct (kvin b) as [|e l] eqn:EK; [reflexivity|]. destruct RV as (_ & -> & _); [congruence|]. reflexivity.
  - intros PG s SB. unfold space_of in *. cbn [kvdeg kvin]. fold (grown b pe r). rewrite <- (remap_id (kvin b)) in SB. apply (larger_in (kvdeg b) (remap (fun m => m) (kvin b)) pe _ s SB); [unfold pe; lia| |]; intros x.
    + destruct (kvin b) as [|e l] eqn:EK; [reflexivity|]. rewrite <- EK in *. apply (fits b KO FL pe r (kvdeg b) (fun m => m) x); [|unfold r; lia]. intros m L1 L2. destruct RV as (R1 & _ & R3); [congruence|]. unfold d in *. destruct (multAfterEnd b =? 1)%nat eqn:E1; lia.
    + destruct (kvin b) as [|e l] eqn:EK; [unfold grown; rewrite EK; cbn; lia|]. rewrite <- EK in *. apply (fits b KO FL pe r (kvdeg b) (fun m => m) x); [|unfold r; lia]. intros m L1 L2. destruct RV as (R1 & _ & R3); [congruence|]. unfold d in *. destruct (multAfterEnd b =? 1)%nat eqn:E1; lia.
Qed.
Theorem vertex_boundary_pf : forall redn geo b pt rt plus minus, reduces redn -> knots_ok (kvin b) -> first_least b -> kvin geo = [] -> (1 <= kvdeg b)%nat ->
  createPlusSpace (redn 1%nat) geo b = Ok plus -> createMinusSpace (redn 1%nat) geo b = Ok minus ->
  exists V, vertexSpace redn geo b false pt rt = Ok V /\ kvdeg V = kvdeg b /\
    (forall x, mult (kvin V) x = if (multAfterEnd b =? 1)%nat && (0 <? mult (kvin b) x)%nat then (mult (kvin b) x + 1)%nat else mult (kvin b) x) /\
    forall s, space_of plus s \/ space_of minus s \/ space_of b s -> space_of V s.
Proof.
  intros redn geo b pt rt plus minus RD KO FL NG P1 PE ME.
  rewrite (plus_eq redn RD b KO FL geo NG) in PE. injection PE as <-. rewrite (minus_eq redn RD b KO FL geo NG P1) in ME. injection ME as <-.
  set (d := if (multAfterEnd b =? 1)%nat then 0%nat else 1%nat). unfold vertexSpace. rewrite (geoCheck_eq geo NG). eexists. split; [reflexivity|].
  set (V := if regularity b =? Z.of_nat (kvdeg b) - 1 then reduceCont b 1 else b).
  assert (EV : V = mkKV (kvdeg b) (kvlo b) (kvhi b) (remap (fun m => m + (1 - d))%nat (kvin b))).
  { unfold V, regularity, d, reduceCont. destruct (multAfterEnd b =? 1)%nat eqn:E1.
    - replace (Z.of_nat (kvdeg b) - Z.of_nat (multAfterEnd b) =? Z.of_nat (kvdeg b) - 1) with true by lia. reflexivity.
    - replace (Z.of_nat (kvdeg b) - Z.of_nat (multAfterEnd b) =? Z.of_nat (kvdeg b) - 1) with false by lia. rewrite (remap_ext (fun m => m + (1 - 1))%nat (fun m => m)), remap_id by (apply Forall_forall; intros; lia). destruct b; reflexivity. }
  rewrite EV. clear V EV. cbn [kvdeg kvin]. split; [reflexivity|].
  assert (ML : forall x, mult (remap (fun m => m + (1 - d))%nat (kvin b)) x = if (multAfterEnd b =? 1)%nat && (0 <? mult (kvin b) x)%nat then (mult (kvin b) x + 1)%nat else mult (kvin b) x).
  { intros x. rewrite mult_remap by apply (all_pos b KO). unfold d. destruct (Nat.eqb_spec (mult (kvin b) x) 0) as [Z0|N0]; [rewrite Z0, andb_false_r; reflexivity|]. replace (0 <? mult (kvin b) x)%nat with true by lia. rewrite andb_true_r. destruct (multAfterEnd b =? 1)%nat; lia. }
  split; [exact ML|]. intros s H. unfold space_of in *. cbn [kvdeg kvin] in *.
  assert (FIT : forall q f, (forall m, (0 < m)%nat -> (multAfterEnd b <= m)%nat -> (d < multAfterEnd b)%nat -> (kvdeg b + 1 - (m + (1 - d)) <= q + 1 - f m)%nat) -> (q <= kvdeg b)%nat -> in_space q (remap f (kvin b)) s -> in_space (kvdeg b) (remap (fun m => m + (1 - d))%nat (kvin b)) s).
  { intros q f C L SP. apply (larger_in q (remap f (kvin b)) _ _ s SP L); intros x; rewrite !mult_remap by apply (all_pos b KO); destruct (Nat.eqb_spec (mult (kvin b) x) 0) as [Z0|N0]; try lia.
    intros _. assert (N : kvin b <> []) by (intros N; rewrite N in N0; cbn in N0; lia). apply C; [lia| |exact (d_le b KO FL N)]. destruct (all_least b KO FL N) as (A & _). apply mult_least; [exact A|lia]. }
  destruct H as [H|[H|H]].
  - apply (FIT (kvdeg b) (fun m => m - d)%nat); [|lia|exact H]. intros m L1 L2 L3. lia.
  - apply (FIT (kvdeg b - 1)%nat (fun m => m - d)%nat); [|lia|exact H]. intros m L1 L2 L3. unfold d in *. destruct (multAfterEnd b =? 1)%nat eqn:E1; lia.
  - rewrite <- (remap_id (kvin b)) in H. apply (FIT (kvdeg b) (fun m => m)); [|lia|exact H]. intros m L1 L2 L3. lia.
Qed.
