(** Proofs for C51: the functions on the interfaces at a given distance from a vertex. *)
From Verif Require Import Common TopoModel BaseModel BaseModel2 IndexSpec TopoSpec SmoothSpec SmoothSpec2 BaseSpec2
  ListLemmas IndexProofs TopoProofs GeometryProofs IfaceIndexSpec.

Section S.
Context (I : input) (Hc : consistent (itopo I)) (HL : length (ibases I) = tnp (itopo I)).

Lemma base_of p : p < tnp (itopo I) -> exists b, nth_error (ibases I) p = Some b /\ basisOf I p = Ok b.
Proof.
  intros H. rewrite <- HL in H. apply nth_error_Some in H. destruct (nth_error (ibases I) p) as [b|] eqn:E; [|congruence].
  exists b. split; [reflexivity|]. unfold basisOf, vget. now rewrite E.
Qed.

Lemma isBoundary_in ps : isBoundary (itopo I) ps = true <-> In ps (tbd (itopo I)).
Proof.
  unfold isBoundary. rewrite existsb_exists. split.
  - intros (x & H & E). destruct ps as (p, s), x as (p', s'). unfold ps_eqb in E. cbn in E. apply andb_prop in E. destruct E as (E1 & E2).
    apply Nat.eqb_eq in E1. subst. destruct s, s'; cbn in E2; try discriminate; exact H.
  - intros H. exists ps. split; [exact H|]. destruct ps as (p, s). unfold ps_eqb. cbn. rewrite Nat.eqb_refl. now destruct s.
Qed.

Local Notation at_depth := (at_depth I).

Lemma grid_inj n0 i i' j j' : i < n0 -> i' < n0 -> i + n0 * j = i' + n0 * j' -> i = i' /\ j = j'.
Proof.
  intros A B E. assert (j = j') as <- by nia. split; lia.
Qed.

Lemma place_unique s c n0 n1 i j i' j' : touches c s -> i < n0 -> j < n1 -> i' < n0 -> j' < n1 ->
  rows_inward s n0 n1 i j = rows_inward s n0 n1 i' j' -> steps_along s c n0 n1 i j = steps_along s c n0 n1 i' j' -> i = i' /\ j = j'.
Proof. destruct s, c; cbn; intros []; lia. Qed.

Lemma one_corner depth pc : 0 < depth -> fst pc < tnp (itopo I) ->
  (forall n0 n1, nth_error (ibases I) (fst pc) = Some (n0, n1) -> depth < n0 /\ depth < n1) ->
  exists l, getInterfaceIndices I pc depth = Ok l /\ NoDup l /\ (forall x, In x l <-> at_depth depth pc x).
Proof.
  intros D V SZ. destruct (base_of _ V) as ((n0, n1) & E & B). destruct (SZ n0 n1 E) as (S0 & S1). unfold getInterfaceIndices. rewrite B. cbn [bind].
  replace (depth =? 0) with false by (symmetry; apply Nat.eqb_neq; lia). unfold ifv. rewrite B. cbn [bind].
  assert (P : forall s, touches (snd pc) s -> exists i j, i < n0 /\ j < n1 /\ indexFromVert (n0, n1) depth (snd pc) s 0 = Ok (i + n0 * j) /\
     rows_inward s n0 n1 i j = 0 /\ steps_along s (snd pc) n0 n1 i j = depth).
  { intros s T. apply indexFromVert_position; [exact T|destruct s; cbn; lia|destruct s; cbn; lia]. }
  assert (T0 : touches (snd pc) (cside (snd pc) 0)) by (apply touches_on, on_side_cside).
  assert (T1 : touches (snd pc) (cside (snd pc) 1)) by (apply touches_on, on_side_cside).
  destruct (P _ T0) as (i & j & Hi & Hj & X & R & St). destruct (P _ T1) as (i' & j' & Hi' & Hj' & X' & R' & St').
  unfold containing_sides. cbn [mapM]. rewrite X, X'. cbn [bind].
  assert (NE : i + n0 * j <> i' + n0 * j').
  { intros Q. assert (i = i' /\ j = j') as (<- & <-) by (apply (grid_inj n0); assumption).
    destruct (snd pc); cbn in *; lia. }
  set (b0 := isBoundary (itopo I) (fst pc, cside (snd pc) 0)). set (b1 := isBoundary (itopo I) (fst pc, cside (snd pc) 1)).
  assert (B0 : b0 = true <-> In (fst pc, cside (snd pc) 0) (tbd (itopo I))) by apply isBoundary_in.
  assert (B1 : b1 = true <-> In (fst pc, cside (snd pc) 1) (tbd (itopo I))) by apply isBoundary_in.
  assert (SPEC : forall x, at_depth depth pc x <-> (b0 = false /\ x = (fst pc, i + n0 * j)) \/ (b1 = false /\ x = (fst pc, i' + n0 * j'))).
  { intros (p, y). split.
    - intros (s & m0 & m1 & a & b & Ep & T & NB & E2 & Ey & Ha & Hb & R2 & St2). cbn [fst snd] in *. rewrite E in E2. injection E2 as <- <-.
      pose proof T as T'. apply touches_on, on_side_iff_cside in T'. destruct T' as [->| ->].
      + left. split; [destruct b0; [exfalso; apply NB, B0; reflexivity|reflexivity]|].
        assert (a = i /\ b = j) as (-> & ->) by (apply (place_unique (cside (snd pc) 0) (snd pc) n0 n1); try assumption; congruence). congruence.
      + right. split; [destruct b1; [exfalso; apply NB, B1; reflexivity|reflexivity]|].
        assert (a = i' /\ b = j') as (-> & ->) by (apply (place_unique (cside (snd pc) 1) (snd pc) n0 n1); try assumption; congruence). congruence.
    - intros [(Bf & Q)|(Bf & Q)]; injection Q as -> ->.
      + exists (cside (snd pc) 0), n0, n1, i, j. cbn [fst snd]. repeat split; try assumption. intros H. apply B0 in H. congruence.
      + exists (cside (snd pc) 1), n0, n1, i', j'. cbn [fst snd]. repeat split; try assumption. intros H. apply B1 in H. congruence. }
  destruct b0, b1; cbn [bind]; eexists; (split; [reflexivity|]); (split; [|intros x; rewrite SPEC; cbn; intuition congruence]); cbn [concat app].
  - constructor.
  - repeat constructor. intros [].
  - repeat constructor. intros [].
  - repeat constructor; [|intros []]. intros [Q|[]]. injection Q. congruence.
Qed.

Theorem interface_indices_pf pc depth : fst pc < tnp (itopo I) -> 0 < depth ->
  (forall b, In b (ibases I) -> depth < fst b /\ depth < snd b) ->
  exists l, getAllInterfaceIndices I pc depth = Ok l /\
    (forall x, In x l <-> exists c, same_vertex (itopo I) pc c /\ at_depth depth c x) /\
    ((forall b, In b (ibases I) -> 2 * depth + 1 < fst b /\ 2 * depth + 1 < snd b) -> NoDup l).
Proof.
  intros V D SZ. assert (Hv : validc (itopo I) pc) by exact V.
  unfold getAllInterfaceIndices. rewrite (cornerList_cls (itopo I) Hc pc Hv). cbn [bind].
  assert (ONE : forall c, In c (cls (itopo I) pc) -> exists l, getInterfaceIndices I c depth = Ok l /\ NoDup l /\ (forall x, In x l <-> at_depth depth c x)).
  { intros c H. apply one_corner; [exact D|exact (cls_valid (itopo I) Hc pc c Hv H)|]. intros n0 n1 E. exact (SZ (n0, n1) (nth_error_In _ _ E)). }
  assert (M : exists ll, mapM (fun c => getInterfaceIndices I c depth) (cls (itopo I) pc) = Ok ll /\
            Forall2 (fun c l => NoDup l /\ (forall x, In x l <-> at_depth depth c x)) (cls (itopo I) pc) ll).
  { revert ONE. generalize (cls (itopo I) pc) as L. induction L as [|c L IH]; intros H; [exists []; split; [reflexivity|constructor]|].
    destruct (H c (or_introl eq_refl)) as (l & E & P). destruct IH as (ll & EE & F); [intros; apply H; now right|].
    exists (l :: ll). cbn [mapM]. rewrite E, EE. cbn [bind]. split; [reflexivity|]. constructor; assumption. }
  destruct M as (ll & -> & F). cbn [bind]. exists (concat ll). split; [reflexivity|].
  assert (IN : forall L ll, Forall2 (fun c l => NoDup l /\ (forall x, In x l <-> at_depth depth c x)) L ll -> forall x, In x (concat ll) <-> exists c, In c L /\ at_depth depth c x).
  { clear. induction 1 as [|c l L ll (N & H) F IH]; intros x; cbn [concat].
    - split; [intros []|intros (c & [] & _)].
    - rewrite in_app_iff, H, IH. split.
      + intros [A|(c' & A & B)]; [exists c; split; [now left|exact A]|exists c'; split; [now right|exact B]].
      + intros (c' & [<-|A] & B); [now left|right; now exists c']. }
  split.
  - intros x. rewrite (IN _ _ F). split; intros (c & A & B); exists c; (split; [|exact B]); now apply (same_vertex_cls (itopo I) Hc pc c Hv).
  - intros SZ2. pose proof (cls_nodup (itopo I) Hc pc Hv) as ND. revert ND F. generalize (cls (itopo I) pc) as L. intros L ND F.
    induction F as [|c l L ll (N & H) F IH]; cbn [concat]; [constructor|]. apply NoDup_cons_iff in ND. destruct ND as (ND1 & ND2).
    apply NoDup_app_iff. split; [exact N|]. split; [exact (IH ND2)|].
    intros x Hx Hx'. apply H in Hx. apply (IN _ _ F) in Hx'. destruct Hx' as (c' & Ic & Hx').
    apply ND1. replace c with c'; [exact Ic|].
    destruct Hx as (s & n0 & n1 & i & j & Ep & T & NB & E & Ey & Hi & Hj & R & St).
    destruct Hx' as (s' & m0 & m1 & i' & j' & Ep' & T' & NB' & E' & Ey' & Hi' & Hj' & R' & St').
    assert (EP : fst c = fst c') by congruence. rewrite <- EP in E'. rewrite E in E'. injection E' as <- <-.
    assert (i = i' /\ j = j') as (<- & <-) by (apply (grid_inj n0); try assumption; congruence).
    destruct (SZ2 _ (nth_error_In _ _ E)) as (Z0 & Z1). cbn [fst snd] in Z0, Z1.
    destruct c as (p, c), c' as (p', c'). cbn [fst snd] in *. subst p'. assert (c' = c) as ->; [|now rewrite EP].
    clear - D R St R' St' Hi Hj T T' Z0 Z1. destruct s, s', c, c'; cbn in *; try contradiction; try reflexivity; exfalso; lia.
Qed.

Theorem corner_functions_pf pc : fst pc < tnp (itopo I) -> (forall b, In b (ibases I) -> 0 < fst b /\ 0 < snd b) ->
  exists l, getAllInterfaceIndices I pc 0 = Ok l /\
    (forall x, In x l <-> exists c n0 n1 i j, same_vertex (itopo I) pc (fst x, c) /\ nth_error (ibases I) (fst x) = Some (n0, n1) /\
       snd x = i + n0 * j /\ i < n0 /\ j < n1 /\ forall s, touches c s -> rows_inward s n0 n1 i j = 0).
Proof.
  intros V SZ. assert (Hv : validc (itopo I) pc) by exact V.
  unfold getAllInterfaceIndices. rewrite (cornerList_cls (itopo I) Hc pc Hv). cbn [bind].
  rewrite (mapM_ok _ (fun c => [(fst c, functionAtCorner (nth (fst c) (ibases I) (0, 0)) (snd c))])).
  - cbn [bind]. eexists. split; [reflexivity|]. intros (p, y). rewrite in_concat. cbn [fst snd]. split.
    + intros (l & Hl & Hx). apply in_map_iff in Hl. destruct Hl as ((p', c) & <- & Hl). destruct Hx as [Q|[]]. cbn [fst snd] in Q. injection Q as -> <-.
      pose proof (cls_valid (itopo I) Hc pc _ Hv Hl) as Vc. destruct (base_of p Vc) as ((n0, n1) & E & B).
      destruct (SZ _ (nth_error_In _ _ E)) as (Z0 & Z1). cbn [fst snd] in Z0, Z1.
      destruct (indexFromVert_corner n0 n1 c South Z0 Z1) as (i & j & Hi & Hj & X & R).
      exists c, n0, n1, i, j. split; [now apply (same_vertex_cls (itopo I) Hc pc (p, c) Hv)|]. split; [exact E|]. split; [|now repeat split].
      rewrite (nth_error_nth _ _ _ E). rewrite indexFromVert_any_side in X. congruence.
    + intros (c & n0 & n1 & i & j & SV & E & -> & Hi & Hj & R). apply (same_vertex_cls (itopo I) Hc pc (p, c) Hv) in SV.
      eexists. split; [apply in_map_iff; exists (p, c); split; [reflexivity|exact SV]|]. left. cbn [fst snd]. f_equal.
      rewrite (nth_error_nth _ _ _ E). destruct (indexFromVert_corner n0 n1 c South) as (i' & j' & Hi' & Hj' & X & R'); [lia|lia|].
      rewrite indexFromVert_any_side in X. injection X as X. rewrite X. 
      assert (i = i' /\ j = j') as (-> & ->); [|reflexivity].
      clear - R R' Hi Hj Hi' Hj'. destruct c.
      * pose proof (R West Logic.I). pose proof (R South Logic.I). pose proof (R' West Logic.I). pose proof (R' South Logic.I). cbn in *. lia.
      * pose proof (R East Logic.I). pose proof (R South Logic.I). pose proof (R' East Logic.I). pose proof (R' South Logic.I). cbn in *. lia.
      * pose proof (R West Logic.I). pose proof (R North Logic.I). pose proof (R' West Logic.I). pose proof (R' North Logic.I). cbn in *. lia.
      * pose proof (R East Logic.I). pose proof (R North Logic.I). pose proof (R' East Logic.I). pose proof (R' North Logic.I). cbn in *. lia.
  - intros c H. pose proof (cls_valid (itopo I) Hc pc _ Hv H) as Vc. destruct (base_of _ Vc) as (b & E & B). unfold getInterfaceIndices. rewrite B. cbn [bind Nat.eqb].
    now rewrite (nth_error_nth _ _ _ E).
Qed.
End S.
