(** The handlers of _computeSmoothMatrix write exactly the entries given by [parents]. *)
From Verif Require Import Common TopoModel BaseModel IndexSpec TopoSpec SmoothSpec
  IndexProofs IndexTopoProofs ListLemmas TopoProofs PointProofs MapperProofs CountProofs MatrixProofs.
From Coq Require Import ZifyBool.

Section H.
Variable I : input.
Hypothesis WF : well_formed I.
Variable m : mapper.
Notation t := (itopo I).
Notation bs := (ibases I).
Notation np := (length (ibases I)).
Notation bas := (bas bs).
Notation loc := (loc bs).
Notation pvalid := (pvalid bs).
Notation decode := (decode bs).
Notation elim := (elim I).
Notation rule := (rule I).
Notation c0 := (c0 I).
Notation valence := (valence t).
Notation inner := (inner t).
Notation ifl := (ifl t).
Notation parents := (parents I).
Hypothesis Hsz : msizes m = map tsize bs.
Hypothesis Hfr : forall x, pvalid x -> is_free_dof m (loc x) = negb (elim x).
Let Hcons : consistent t := Hcons I WF.
Let Hnp : tnp t = np := Hnp I WF.
Let Hbig : big bs := Hbig I WF.

Notation orig := (mapper_of bs).
Definition C : ctx := mkC I m orig (freeSize m) (freeSize orig).

Definition ridx (x : pt) : nat := pos_in (loc x) (free_list m).
Definition cidx (x : pt) : nat := pos_in (loc x) (all_dofs orig).

Lemma orig_free_list : free_list orig = all_dofs orig.
Proof. unfold free_list. apply filter_all. intros x Hx. reflexivity. Qed.

Lemma in_orig x : pvalid x -> In (loc x) (all_dofs orig).
Proof. intros H. apply (in_all_dofs I WF); [reflexivity|]. apply loc_valid; auto. Qed.
Lemma in_free x : pvalid x -> elim x = false -> In (loc x) (free_list m).
Proof.
  intros H E. unfold free_list. apply filter_In. split.
  - apply (in_all_dofs I WF); [exact Hsz|]. apply loc_valid; auto.
  - rewrite Hfr, E by auto. reflexivity.
Qed.
Lemma cols_length : freeSize orig = length (all_dofs orig).
Proof. unfold freeSize. rewrite orig_free_list. reflexivity. Qed.

Lemma cidx_lt x : pvalid x -> cidx x < cCols C.
Proof. intros H. simpl. rewrite cols_length. apply pos_in_lt, in_orig, H. Qed.
Lemma ridx_lt x : pvalid x -> elim x = false -> ridx x < cRows C.
Proof. intros H E. apply pos_in_lt, in_free; auto. Qed.
Lemma cidx_inj x y : pvalid x -> pvalid y -> cidx x = cidx y -> x = y.
Proof. intros Hx Hy E. apply pos_in_inj in E; auto using in_orig. apply loc_inj in E; auto. Qed.
Lemma ridx_inj x y : pvalid x -> pvalid y -> elim x = false -> elim y = false -> ridx x = ridx y -> x = y.
Proof. intros Hx Hy Ex Ey E. apply pos_in_inj in E; auto using in_free. apply loc_inj in E; auto. Qed.
Lemma cidx_onto c : c < cCols C -> exists x, pvalid x /\ cidx x = c.
Proof.
  simpl. rewrite cols_length. intros H.
  destruct (pos_in_onto c (all_dofs orig) H) as (y & Hy & E); [apply (all_dofs_nodup I); reflexivity|].
  apply (in_all_dofs I WF) in Hy; [|reflexivity]. destruct (decode_ok bs Hbig y Hy) as [V L].
  exists (decode y). split; auto. unfold cidx. rewrite L. exact E.
Qed.
Lemma ridx_onto r : r < cRows C -> exists x, pvalid x /\ elim x = false /\ ridx x = r.
Proof.
  simpl. unfold freeSize. intros H.
  assert (NoDup (free_list m)) as N by (apply NoDup_filter, (all_dofs_nodup I); exact Hsz).
  destruct (pos_in_onto r (free_list m) H N) as (y & Hy & E).
  apply filter_In in Hy. destruct Hy as [Hy Hf].
  apply (in_all_dofs I WF) in Hy; [|exact Hsz]. destruct (decode_ok bs Hbig y Hy) as [V L].
  exists (decode y). split; auto. split; [|unfold ridx; rewrite L; exact E].
  rewrite <- L, Hfr in Hf by auto. destruct (elim (decode y)); auto; discriminate.
Qed.

Lemma loc_eta x : (fst (loc x), snd (loc x)) = loc x.
Proof. destruct (loc x); reflexivity. Qed.

Lemma col_ok x p : pvalid x -> p = fst (loc x) -> colIdx C (snd (loc x)) p = Ok (cidx x).
Proof.
  intros H ->. unfold colIdx, mindex. simpl cOrig. rewrite loc_eta.
  replace (valid_dof orig (loc x)) with true.
  2:{ symmetry. apply (valid_dof_iff I); [reflexivity|]. apply loc_valid; auto. }
  unfold is_free. rewrite loc_eta. cbn [is_free_dof melim existsb negb]. rewrite orig_free_list. reflexivity.
Qed.
Lemma row_ok x p : pvalid x -> elim x = false -> p = fst (loc x) -> rowIdx C (snd (loc x)) p = Ok (ridx x).
Proof.
  intros H E ->. unfold rowIdx, mindex. simpl cMod. rewrite loc_eta.
  replace (valid_dof m (loc x)) with true.
  2:{ symmetry. apply (valid_dof_iff I); [exact Hsz|]. apply loc_valid; auto. }
  unfold is_free. rewrite loc_eta, Hfr, E by auto. reflexivity.
Qed.
Lemma row_some x : pvalid x -> exists r, rowIdx C (snd (loc x)) (fst (loc x)) = Ok r.
Proof.
  intros H. unfold rowIdx, mindex. simpl cMod. rewrite loc_eta.
  replace (valid_dof m (loc x)) with true.
  2:{ symmetry. apply (valid_dof_iff I); [exact Hsz|]. apply loc_valid; auto. }
  destruct (is_free _ _ _); eauto.
Qed.

(** ** invariant *)
Definition conc (a : aentry) : entry := let '(x, y, w) := a in (ridx x, cidx y, w).
Definition good (a : aentry) : Prop :=
  let '(x, y, w) := a in pvalid x /\ pvalid y /\ elim x = false /\ In (x, w) (parents y).
Definition selfclosed (l : list aentry) : Prop :=
  forall x y w, In (x, y, w) l -> In (self x) l.

(** the writes so far are [map conc l] up to order and repetition *)
Definition Inv (s : xstate) (l : list aentry) : Prop :=
  (forall e, In e (xs_mat s) <-> In e (map conc l)) /\
  (forall a, In a l -> good a) /\ selfclosed l /\
  length (xs_basis s) = cRows C /\
  (forall r, r < cRows C -> exists b, vget (xs_basis s) r = Ok b /\
     (b = true <-> exists c w, In (r, c, w) (xs_mat s))).

Lemma good_self x : pvalid x -> elim x = false -> good (self x).
Proof. intros H E. repeat split; auto. rewrite parents_free by exact E. left; reflexivity. Qed.

Lemma push_basis es s :
  length (xs_basis s) = cRows C ->
  (forall r, r < cRows C -> exists b, vget (xs_basis s) r = Ok b /\ (b = true <-> exists c w, In (r, c, w) (xs_mat s))) ->
  (forall r c w, In (r, c, w) es -> r < cRows C /\ c < cCols C) ->
  exists s', pushAndCheck C es s = Ok s' /\ xs_side s' = xs_side s /\ xs_vert s' = xs_vert s /\
    length (xs_basis s') = cRows C /\
    (forall e, In e (xs_mat s') <-> In e (xs_mat s) \/ In e es) /\
    (forall r, r < cRows C -> exists b, vget (xs_basis s') r = Ok b /\ (b = true <-> exists c w, In (r, c, w) (xs_mat s'))).
Proof.
  revert s. induction es as [|[[r c] w] es IH]; intros s HL HB He.
  - exists s. repeat split; auto. intros [?|[]]; auto.
  - unfold pushAndCheck. cbn [foldM]. destruct (He r c w) as [Hr Hc]; [left; auto|].
    rewrite (proj2 (Nat.ltb_lt _ _) Hr), (proj2 (Nat.ltb_lt _ _) Hc). cbn [andb ensure bind].
    rewrite vset_ok by (rewrite HL; exact Hr). cbn [bind].
    edestruct IH as (s' & E & E1 & E2 & E3 & E4 & E5).
    4:{ exists s'. split; [exact E|]. rewrite E1, E2. cbn [xs_side xs_vert]. split; auto. split; auto. split; auto. split; [|exact E5].
        intros e. rewrite E4. cbn [xs_mat In]. tauto. }
    + cbn [xs_basis]. rewrite upd_length. exact HL.
    + cbn [xs_basis xs_mat]. intros r' Hr'. rewrite vget_upd by (rewrite HL; exact Hr).
      destruct (r =? r') eqn:Er.
      * apply Nat.eqb_eq in Er. subst r'. exists true. split; auto. split; auto. intros _. exists c, w. left; auto.
      * destruct (HB r' Hr') as (b & Hb & Hb'). exists b. split; auto. rewrite Hb'. split.
        -- intros (c' & w' & G). exists c', w'. right; auto.
        -- intros (c' & w' & [[= -> _ _]|G]); [rewrite Nat.eqb_refl in Er; discriminate|eauto].
    + intros r' c' w' Hin; apply (He r' c' w'); right; auto.
Qed.

Lemma push_ok s l es : Inv s l -> (forall a, In a es -> good a) -> selfclosed es ->
  exists s', pushAndCheck C (map conc es) s = Ok s' /\ xs_side s' = xs_side s /\ xs_vert s' = xs_vert s /\
    Inv s' (l ++ es).
Proof.
  intros (H1 & H2 & H3 & H4 & H5) Hg Hc.
  destruct (push_basis (map conc es) s H4 H5) as (s' & E & E1 & E2 & E3 & E4 & E5).
  { intros r c w Hin. apply in_map_iff in Hin. destruct Hin as ([[x y] w'] & [= <- <- <-] & Hin).
    destruct (Hg _ Hin) as (V1 & V2 & V3 & _). split; [apply ridx_lt|apply cidx_lt]; auto. }
  exists s'. split; [exact E|]. split; [exact E1|]. split; [exact E2|]. split; [|split; [|split; [|split]]]; auto.
  - intros e. rewrite E4, H1, map_app, in_app_iff. tauto.
  - intros a Ha. apply in_app_iff in Ha. destruct Ha; auto.
  - intros x y w Ha. apply in_app_iff in Ha. apply in_app_iff. destruct Ha as [Ha|Ha]; [left|right]; eauto.
Qed.

(** the marks kept in the state *)
Notation smarks := (marks I sideIndex (@fst nat side)).
Notation vmarks := (marks I vertIndex (@fst nat corner)).

Lemma setVert_ok s l P pc : Inv s l -> vmarks (xs_vert s) P -> fst pc < np ->
  exists s', setVert s pc = Ok s' /\ Inv s' l /\ xs_side s' = xs_side s /\ vmarks (xs_vert s') (fun c => c = pc \/ P c).
Proof.
  intros HI Hm Hp. unfold setVert. destruct (vmarks_set I _ _ pc Hm Hp) as (l' & E & Hl). rewrite E. cbn [bind].
  eexists. split; [reflexivity|]. split; [exact HI|]. split; auto.
Qed.
Lemma setSide_ok s l P ps : Inv s l -> smarks (xs_side s) P -> fst ps < np ->
  exists s', setSide s ps = Ok s' /\ Inv s' l /\ xs_vert s' = xs_vert s /\ smarks (xs_side s') (fun c => c = ps \/ P c).
Proof.
  intros HI Hm Hp. unfold setSide. destruct (smarks_set I _ _ ps Hm Hp) as (l' & E & Hl). rewrite E. cbn [bind].
  eexists. split; [reflexivity|]. split; [exact HI|]. split; auto.
Qed.

(** ** entries written at a vertex *)
Definition dart_entries (pc : pcorner) (d k : nat) : list aentry :=
  match dnext t (pc, d) with
  | Some (pc', d') => [(dpt pc d k 1, dpt pc d k 0, half); (dpt pc d k 1, dpt pc' d' k 0, half)]
  | None => [self (dpt pc d k 0)]
  end.

Definition idir (pc : pcorner) : nat := if ifl pc 0 then 0 else 1.

Definition vent (pc : pcorner) : list aentry :=
  if inner pc then
    self (PC pc 1 1) :: map (fun c => (PC pc 1 1, PC c 0 0, (1 # Pos.of_nat (valence pc))%Q)) (cls t pc)
      ++ concat [dart_entries pc 0 1; dart_entries pc 1 1]
  else if valence pc =? 1 then map self [PC pc 0 0; PC pc 0 1; PC pc 1 0; PC pc 1 1]
  else if valence pc =? 2 then
    concat (map (fun k => self (dpt pc (idir pc) k 1) :: dart_entries pc (idir pc) k) (if c0 pc then [1] else [0; 1]))
  else self (PC pc 1 1) :: concat [dart_entries pc 0 1; dart_entries pc 1 1] ++ [self (PC pc 0 0)].

Lemma dart_good pc d k pc' d' : validc t pc -> d < 2 -> k < 2 -> dnext t (pc, d) = Some (pc', d') ->
  rule pc k = true -> (k = 1 \/ inner pc = false) ->
  good (self (dpt pc d k 1)) /\ good (dpt pc d k 1, dpt pc d k 0, half) /\ good (dpt pc d k 1, dpt pc' d' k 0, half).
Proof.
  intros Hv Hd Hk Hn Hr Hc.
  pose proof (dnext_dir t _ _ _ Hn) as Hd'.
  pose proof (dnext_valid t Hcons _ _ _ _ Hn) as [_ Hv'].
  pose proof (dnext_cls I WF _ _ _ _ Hd Hn) as Hcl.
  pose proof (dnext_sym t Hcons _ _ _ _ Hd Hn) as Hn'.
  assert (fst pc < np) as Hp by (apply (validc_np I WF); auto).
  assert (fst pc' < np) as Hp' by (apply (validc_np I WF); auto).
  assert (pvalid (dpt pc d k 0)) as V0 by (apply dpt_valid; auto).
  assert (In (dpt pc d k 1, half) (parents (dpt pc d k 0))) as P1.
  { rewrite (parents_dart I WF pc d k pc' d') by auto. left; auto. }
  assert (In (dpt pc d k 1, half) (parents (dpt pc' d' k 0))) as P2.
  { rewrite (parents_dart I WF pc' d' k pc d); auto.
    - right; left; auto.
    - rewrite (rule_cls I WF pc pc'); auto.
    - rewrite (inner_cls t Hcons pc pc'); auto. }
  destruct (parents_ok I WF _ _ _ V0 P1) as [V1 F1].
  split; [apply good_self; auto|]. split; (repeat split; auto). apply dpt_valid; auto.
Qed.

Lemma dart_none_good pc d : validc t pc -> d < 2 -> dnext t (pc, d) = None -> good (self (dpt pc d 1 0)).
Proof.
  intros Hv Hd Hn. apply good_self; [apply dpt_valid; auto; apply (validc_np I WF); auto|].
  destruct (elim (dpt pc d 1 0)) eqn:E; [|reflexivity]. apply elim_dpt in E; auto.
  destruct E as [E|[E _]]; [|discriminate]. apply andb_prop in E. destruct E as [E _].
  apply (ifl_next I) in E. destruct E as (c' & d' & E). congruence.
Qed.

Lemma dart1_good pc d a : validc t pc -> d < 2 -> In a (dart_entries pc d 1) -> good a.
Proof.
  intros Hv Hd Ha. unfold dart_entries in Ha. destruct (dnext t (pc, d)) as [[pc' d']|] eqn:E.
  - destruct (dart_good pc d 1 pc' d') as (G1 & G2 & G3); auto. { apply rule1. }
    destruct Ha as [<-|[<-|[]]]; auto.
  - destruct Ha as [<-|[]]. apply dart_none_good; auto.
Qed.

Lemma dpt11 pc d : dpt pc d 1 1 = PC pc 1 1.
Proof. destruct d; reflexivity. Qed.
Lemma dpt00 pc d : dpt pc d 0 0 = PC pc 0 0.
Proof. destruct d; reflexivity. Qed.

Lemma idir_next pc : validc t pc -> 2 <= valence pc -> exists pc' d', dnext t (pc, idir pc) = Some (pc', d') /\ idir pc < 2.
Proof.
  intros Hv H2. unfold idir. destruct (val2_iface t Hcons pc Hv H2) as [E|E].
  - rewrite E. apply (ifl_next I) in E. destruct E as (c & d & E). exists c, d. split; auto.
  - destruct (ifl pc 0) eqn:F; [apply (ifl_next I) in F; destruct F as (c & d & F); exists c, d; split; auto|].
    apply (ifl_next I) in E. destruct E as (c & d & E). exists c, d. split; auto.
Qed.

Lemma valence_pos pc : validc t pc -> 1 <= valence pc.
Proof.
  intros Hv. unfold TopoProofs.valence. pose proof (cls_self t Hcons pc Hv). destruct (cls t pc); [contradiction|simpl; lia].
Qed.

Lemma vent_good pc a : validc t pc -> In a (vent pc) -> good a.
Proof.
  intros Hv Ha. assert (fst pc < np) as Hp by (apply (validc_np I WF); auto).
  unfold vent in Ha. destruct (inner pc) eqn:Hi; [|destruct (valence pc =? 1) eqn:E1; [|destruct (valence pc =? 2) eqn:E2]].
  - cbn [concat] in Ha. rewrite app_nil_r in Ha. cbn [In] in Ha. rewrite !in_app_iff in Ha.
    destruct Ha as [<-|[Ha|[Ha|Ha]]]; try (apply dart1_good in Ha; auto; fail).
    + apply good_self; simpl; auto.
    + apply in_map_iff in Ha. destruct Ha as (c & <- & Hc).
      assert (validc t c) as Hvc by (apply (cls_valid t Hcons pc); auto).
      repeat split; simpl; auto; try lia. { apply (validc_np I WF); auto. }
      rewrite (parents_00 I WF c Hvc) by (rewrite (inner_cls t Hcons pc c); auto).
      rewrite (valence_cls t Hcons pc c) by auto.
      apply in_map_iff. exists pc. split; auto. apply (in_cls_sym t Hcons); auto.
  - assert (forall a e, elim (PC pc a e) = false) as F.
    { intros x y. simpl. rewrite !(val1_boundary t Hcons pc) by (auto; lia). rewrite !andb_false_r. reflexivity. }
    cbn [map In] in Ha. repeat destruct Ha as [<-|Ha]; try contradiction; apply good_self; auto; simpl; lia.
  - destruct (idir_next pc Hv ltac:(lia)) as (pc' & d' & En & Hd).
    assert (forall k, k < 2 -> rule pc k = true -> In a (self (dpt pc (idir pc) k 1) :: dart_entries pc (idir pc) k) -> good a) as K.
    { intros k Hk Hr Hin. destruct (dart_good pc (idir pc) k pc' d') as (G1 & G2 & G3); auto.
      unfold dart_entries in Hin. rewrite En in Hin. destruct Hin as [<-|[<-|[<-|[]]]]; auto. }
    apply in_concat in Ha. destruct Ha as (l & Hl & Ha). apply in_map_iff in Hl. destruct Hl as (k & <- & Hk).
    assert (k < 2 /\ rule pc k = true) as [Hk2 Hr].
    { unfold MapperProofs.rule. rewrite Hi, E2. destruct (c0 pc); simpl in Hk; [destruct Hk as [<-|[]]|destruct Hk as [<-|[<-|[]]]]; auto. }
    eapply K; eauto.
  - cbn [concat] in Ha. rewrite app_nil_r in Ha. cbn [In] in Ha. rewrite !in_app_iff in Ha.
    destruct Ha as [<-|[[Ha|Ha]|[<-|[]]]]; try (apply dart1_good in Ha; auto; fail).
    + apply good_self; simpl; auto.
    + apply good_self; [simpl; auto|]. simpl. unfold MapperProofs.rule. rewrite Hi, E2. simpl. rewrite !andb_false_r. reflexivity.
Qed.

Lemma vent_selfclosed pc : validc t pc -> selfclosed (vent pc).
Proof.
  intros Hv x y w Ha.
  assert (forall d, In (x, y, w) (dart_entries pc d 1) -> x = PC pc 1 1 \/ In (self x) (dart_entries pc d 1)) as D.
  { intros d Hin. unfold dart_entries in *. destruct (dnext t (pc, d)) as [[pc' d']|].
    - left. destruct Hin as [[= <- _ _]|[[= <- _ _]|[]]]; apply dpt11.
    - right. destruct Hin as [[= <- _ _]|[]]. left; reflexivity. }
  unfold vent in *. destruct (inner pc) eqn:Hi; [|destruct (valence pc =? 1) eqn:E1; [|destruct (valence pc =? 2) eqn:E2]].
  - cbn [concat] in *. rewrite app_nil_r in *. cbn [In] in *. rewrite !in_app_iff in *.
    destruct Ha as [[= <- _ _]|[Ha|[Ha|Ha]]]; auto.
    + apply in_map_iff in Ha. destruct Ha as (c & [= <- _ _] & _). auto.
    + apply D in Ha. destruct Ha as [->|Ha]; auto.
    + apply D in Ha. destruct Ha as [->|Ha]; auto.
  - apply in_map_iff in Ha. destruct Ha as (z & [= <- _ _] & Hz). apply in_map. exact Hz.
  - destruct (idir_next pc Hv ltac:(lia)) as (pc' & d' & En & Hd).
    apply in_concat in Ha. destruct Ha as (l & Hl & Ha). apply in_concat. exists l. split; auto.
    apply in_map_iff in Hl. destruct Hl as (k & <- & Hk). unfold dart_entries in *. rewrite En in *.
    left. destruct Ha as [[= <- _ _]|[[= <- _ _]|[[= <- _ _]|[]]]]; reflexivity.
  - cbn [concat] in *. rewrite app_nil_r in *. cbn [In] in *. rewrite !in_app_iff in *.
    destruct Ha as [[= <- _ _]|[[Ha|Ha]|[[= <- _ _]|[]]]]; auto.
    + apply D in Ha. destruct Ha as [->|Ha]; auto.
    + apply D in Ha. destruct Ha as [->|Ha]; auto.
    + right; right; left; reflexivity.
Qed.

(** ** execution of the vertex handlers *)
Lemma ifvd (pc : pcorner) d k o : fst pc < np -> d < 2 -> k < 2 -> o < 2 ->
  ifv I k pc (cside (snd pc) d) o = Ok (snd (loc (dpt pc d k o))).
Proof.
  intros Hp Hd Hk Ho. rewrite (ifv_ok I WF) by (auto using on_side_cside). rewrite side_dir_cside by auto. reflexivity.
Qed.

Lemma dnext_model (pc : pcorner) d pc' d' : dnext t (pc, d) = Some (pc', d') ->
  exists f ps', getInterface t (fst pc, cside (snd pc) d) = Some f /\
    iother f (fst pc, cside (snd pc) d) = Ok ps' /\ imapCorner f pc = Ok pc' /\
    fst ps' = fst pc' /\ snd ps' = cside (snd pc') d'.
Proof.
  destruct pc as [p c]. intros H. apply dnext_spec in H.
  destruct H as (ps' & fl & G & E1 & E2 & E3 & E4 & E5).
  destruct (glue_iface t Hcons _ _ _ G) as (f & F1 & F2 & F3). exists f, ps'. simpl.
  split; auto. split; auto. split; [|split; congruence].
  simpl in F3. rewrite F3 by apply on_side_cside. congruence.
Qed.

Lemma dnext_none_model (pc : pcorner) d : dnext t (pc, d) = None -> getInterface t (fst pc, cside (snd pc) d) = None.
Proof.
  intros H. apply getInterface_none. destruct (isInterface t (fst pc, cside (snd pc) d)) eqn:E; [|reflexivity].
  apply dnext_iface in E. destruct E as (y & E). congruence.
Qed.

Lemma finish s l P pc es : Inv s l -> vmarks (xs_vert s) P -> validc t pc -> es = map conc (vent pc) ->
  exists s', (do s <- pushAndCheck C es s; setVert s pc) = Ok s' /\ Inv s' (l ++ vent pc) /\
    xs_side s' = xs_side s /\ vmarks (xs_vert s') (fun c => c = pc \/ P c).
Proof.
  intros HI Hm Hv ->. assert (fst pc < np) as Hp by (apply (validc_np I WF); auto).
  destruct (push_ok s l (vent pc) HI) as (s1 & E1 & E2 & E3 & HI1).
  { intros a Ha. eapply vent_good; eauto. } { apply vent_selfclosed; auto. }
  rewrite E1. cbn [bind]. rewrite <- E3 in Hm.
  destruct (setVert_ok s1 _ P pc HI1 Hm Hp) as (s2 & F1 & F2 & F3 & F4).
  exists s2. split; auto. split; auto. split; auto. congruence.
Qed.

Lemma good_x_valid x y w : good (x, y, w) -> pvalid x /\ pvalid y /\ elim x = false.
Proof. intros (? & ? & ? & _). auto. Qed.

Lemma fst_loc_dpt pc d k o : fst pc = fst (loc (dpt pc d k o)).
Proof. symmetry. apply loc_dpt_fst. Qed.

Lemma regularCorner_ok s l P pc : Inv s l -> vmarks (xs_vert s) P -> validc t pc ->
  inner pc = false -> valence pc = 1 ->
  exists s', handleRegularCorner C s pc = Ok s' /\ Inv s' (l ++ vent pc) /\
    xs_side s' = xs_side s /\ vmarks (xs_vert s') (fun c => c = pc \/ P c).
Proof.
  intros HI Hm Hv Hi H1. assert (fst pc < np) as Hp by (apply (validc_np I WF); auto).
  unfold handleRegularCorner. cbn [cI C].
  rewrite !ifvd by (auto; lia). cbn [bind].
  set (xs := [dpt pc 0 0 0; dpt pc 0 1 0; dpt pc 1 1 0; dpt pc 1 1 1]).
  change [snd (loc (dpt pc 0 0 0)); snd (loc (dpt pc 0 1 0)); snd (loc (dpt pc 1 1 0)); snd (loc (dpt pc 1 1 1))]
    with (map (fun x => snd (loc x)) xs).
  assert (forall a, In a (map self xs) -> good a) as G.
  { intros a Ha. apply (vent_good pc a Hv). unfold vent. rewrite Hi, H1. exact Ha. }
  assert (forall (xs : list pt), (forall x, In x xs -> good (self x) /\ fst (loc x) = fst pc) ->
     mapM (fun i => do r <- rowIdx C i (fst pc); do c <- colIdx C i (fst pc); Ok (r, c, 1%Q)) (map (fun x => snd (loc x)) xs)
     = Ok (map conc (map self xs))) as MM.
  { clear xs G. induction xs as [|x xs IH]; intros Hx; [reflexivity|]. cbn [map mapM].
    destruct (Hx x) as [Gx Ex]; [left; auto|]. destruct (good_x_valid _ _ _ Gx) as (V1 & V2 & V3).
    rewrite row_ok, col_ok by auto. cbn [bind]. rewrite IH by (intros; apply Hx; right; auto). reflexivity. }
  rewrite MM. 2:{ intros x Hx. split; [apply G, in_map, Hx|]. unfold xs in Hx. simpl in Hx.
    repeat destruct Hx as [<-|Hx]; try contradiction; reflexivity. }
  cbn [bind]. apply finish; auto. unfold vent. rewrite Hi, H1. reflexivity.
Qed.

Lemma regularBoundary_ok s l P pc : Inv s l -> vmarks (xs_vert s) P -> validc t pc ->
  inner pc = false -> valence pc = 2 ->
  exists s', handleRegularBoundaryVertex (if c0 pc then [1] else [0; 1]) C s pc = Ok s' /\ Inv s' (l ++ vent pc) /\
    xs_side s' = xs_side s /\ vmarks (xs_vert s') (fun c => c = pc \/ P c).
Proof.
  intros HI Hm Hv Hi H2. assert (fst pc < np) as Hp by (apply (validc_np I WF); auto).
  unfold handleRegularBoundaryVertex. cbn [cI C].
  change (isInterface t (fst pc, cside (snd pc) 0)) with (ifl pc 0).
  assert ((if ifl pc 0 then cside (snd pc) 0 else cside (snd pc) 1) = cside (snd pc) (idir pc)) as ->.
  { unfold idir. destruct (ifl pc 0); reflexivity. }
  destruct (idir_next pc Hv ltac:(lia)) as (pc' & d' & En & Hd).
  destruct (dnext_model _ _ _ _ En) as (f & ps' & F1 & F2 & F3 & F4 & F5).
  rewrite F1, F2. cbn [bind]. rewrite F3. cbn [bind].
  assert (fst pc' < np) as Hp' by (apply (validc_np I WF); apply (dnext_valid t Hcons) in En; tauto).
  pose proof (dnext_dir t _ _ _ En) as Hd'.
  rewrite (mapM_ok _ (fun k => map conc (self (dpt pc (idir pc) k 1) :: dart_entries pc (idir pc) k))).
  - cbn [bind]. apply finish; auto. unfold vent. rewrite Hi, H2. cbn [Nat.eqb].
    rewrite concat_map, map_map. reflexivity.
  - intros k Hk.
    assert (k < 2 /\ rule pc k = true) as [Hk2 Hr].
    { unfold MapperProofs.rule. rewrite Hi, H2. destruct (c0 pc); simpl in Hk; [destruct Hk as [<-|[]]|destruct Hk as [<-|[<-|[]]]]; auto. }
    destruct (dart_good pc (idir pc) k pc' d') as (G1 & G2 & G3); auto.
    destruct (good_x_valid _ _ _ G1) as (V1 & _ & V3). destruct (good_x_valid _ _ _ G2) as (_ & V4 & _).
    destruct (good_x_valid _ _ _ G3) as (_ & V5 & _).
    rewrite !ifvd by (auto; lia). cbn [bind]. rewrite F5, ifvd by (auto; lia). cbn [bind].
    rewrite row_ok by auto using fst_loc_dpt. cbn [bind].
    rewrite !col_ok by (rewrite ?F4; auto using fst_loc_dpt). cbn [bind].
    unfold dart_entries. rewrite En. reflexivity.
Qed.

Lemma irregularBoundary_ok s l P pc : Inv s l -> vmarks (xs_vert s) P -> validc t pc ->
  inner pc = false -> 2 < valence pc ->
  exists s', handleIrregularBoundaryVertexNonSmooth C s pc = Ok s' /\ Inv s' (l ++ vent pc) /\
    xs_side s' = xs_side s /\ vmarks (xs_vert s') (fun c => c = pc \/ P c).
Proof.
  intros HI Hm Hv Hi H2. assert (fst pc < np) as Hp by (apply (validc_np I WF); auto).
  assert (good (self (PC pc 0 0))) as G0.
  { apply (vent_good pc); auto. unfold vent. rewrite Hi.
    destruct (valence pc =? 1) eqn:E1; [lia|]. destruct (valence pc =? 2) eqn:E2; [lia|].
    right. apply in_app_iff. right; left; reflexivity. }
  destruct (good_x_valid _ _ _ G0) as (V0 & _ & F0).
  assert (pvalid (PC pc 1 1)) as V11 by (simpl; auto).
  unfold handleIrregularBoundaryVertexNonSmooth. cbn [cI C].
  rewrite !ifvd by (auto; lia). cbn [bind dpt].
  rewrite row_ok by auto. cbn [bind]. rewrite col_ok by auto. cbn [bind].
  rewrite (mapM_ok _ (fun sd => map conc (dart_entries pc (side_dir sd) 1))).
  - cbn [bind]. rewrite row_ok by auto. cbn [bind]. rewrite col_ok by auto. cbn [bind].
    apply finish; auto. unfold vent. rewrite Hi.
    destruct (valence pc =? 1) eqn:E1; [lia|]. destruct (valence pc =? 2) eqn:E2; [lia|].
    cbn [map]. f_equal. rewrite map_app. unfold containing_sides. cbn [map concat].
    rewrite !side_dir_cside by lia. rewrite !map_app, !app_nil_r. reflexivity.
  - intros sd Hsd.
    assert (exists d, d < 2 /\ sd = cside (snd pc) d) as (d & Hd & ->).
    { unfold containing_sides in Hsd. destruct Hsd as [<-|[<-|[]]]; eauto. }
    rewrite side_dir_cside by auto. unfold dart_entries.
    destruct (dnext t (pc, d)) as [[pc' d']|] eqn:En.
    + destruct (dnext_model _ _ _ _ En) as (f & ps' & F1 & F2 & F3 & F4 & F5).
      assert (fst pc' < np) as Hp' by (apply (validc_np I WF); apply (dnext_valid t Hcons) in En; tauto).
      pose proof (dnext_dir t _ _ _ En) as Hd'.
      destruct (dart_good pc d 1 pc' d') as (G1 & G2 & G3); auto. { apply rule1. }
      destruct (good_x_valid _ _ _ G2) as (_ & V4 & _). destruct (good_x_valid _ _ _ G3) as (_ & V5 & _).
      rewrite F1, F2. cbn [bind]. rewrite F3. cbn [bind]. rewrite !ifvd by (auto; lia). cbn [bind].
      rewrite col_ok by auto using fst_loc_dpt. cbn [bind]. rewrite F5, ifvd by (auto; lia). cbn [bind].
      rewrite col_ok by auto using fst_loc_dpt. cbn [bind]. rewrite dpt11. reflexivity.
    + rewrite (dnext_none_model _ _ En). rewrite !ifvd by (auto; lia). cbn [bind].
      destruct (good_x_valid _ _ _ (dart_none_good pc d Hv Hd En)) as (V1 & _ & V3).
      rewrite row_ok by auto using fst_loc_dpt. cbn [bind]. rewrite col_ok by auto using fst_loc_dpt. reflexivity.
Qed.

Lemma corner_loc pc : snd (loc (PC pc 0 0)) = functionAtCorner (bas (fst pc)) (snd pc).
Proof. destruct pc as [p []]; simpl; unfold cpt, functionAtCorner, tindex; simpl; rewrite ?Nat.sub_0_r; reflexivity. Qed.

Lemma interiorVertex_ok s l P pc : Inv s l -> vmarks (xs_vert s) P -> validc t pc -> inner pc = true ->
  exists s', handleInteriorVertex C s pc (valence pc) = Ok s' /\ Inv s' (l ++ vent pc) /\
    xs_side s' = xs_side s /\ vmarks (xs_vert s') (fun c => c = pc \/ P c).
Proof.
  intros HI Hm Hv Hi. assert (fst pc < np) as Hp by (apply (validc_np I WF); auto).
  assert (pvalid (PC pc 1 1)) as V11 by (simpl; auto).
  unfold handleInteriorVertex. cbn [cI C].
  rewrite !ifvd by (auto; lia). cbn [bind dpt].
  rewrite row_ok by auto. cbn [bind]. rewrite col_ok by auto. cbn [bind].
  rewrite (cornerList_cls t Hcons pc Hv). cbn [bind].
  rewrite (mapM_ok _ (fun c => conc (PC pc 1 1, PC c 0 0, (1 # Pos.of_nat (valence pc))%Q))).
  2:{ intros c Hc. assert (fst c < np) as Hpc by (apply (validc_np I WF); apply (cls_valid t Hcons pc); auto).
      rewrite (basisOf_ok I) by auto. cbn [bind]. rewrite <- corner_loc. rewrite col_ok by (simpl; auto). reflexivity. }
  cbn [bind].
  rewrite (mapM_ok _ (fun sd => map conc (dart_entries pc (side_dir sd) 1))).
  - cbn [bind]. apply finish; auto. unfold vent. rewrite Hi. cbn [map]. f_equal. rewrite map_app, map_map. f_equal.
    unfold containing_sides. cbn [map concat].
    rewrite !side_dir_cside by lia. rewrite !map_app, !app_nil_r. reflexivity.
  - intros sd Hsd.
    assert (exists d, d < 2 /\ sd = cside (snd pc) d) as (d & Hd & ->).
    { unfold containing_sides in Hsd. destruct Hsd as [<-|[<-|[]]]; eauto. }
    rewrite side_dir_cside by auto. unfold dart_entries.
    pose proof (inner_iface t Hcons pc d Hv Hi) as Hif. apply (ifl_next I) in Hif. destruct Hif as (pc' & d' & En).
    rewrite En.
    destruct (dnext_model _ _ _ _ En) as (f & ps' & F1 & F2 & F3 & F4 & F5).
    assert (fst pc' < np) as Hp' by (apply (validc_np I WF); apply (dnext_valid t Hcons) in En; tauto).
    pose proof (dnext_dir t _ _ _ En) as Hd'.
    destruct (dart_good pc d 1 pc' d') as (G1 & G2 & G3); auto. { apply rule1. }
    destruct (good_x_valid _ _ _ G2) as (_ & V4 & _). destruct (good_x_valid _ _ _ G3) as (_ & V5 & _).
    unfold getNeighbour. rewrite F1, F2. cbn [bind]. rewrite F3. cbn [bind]. rewrite !ifvd by (auto; lia). cbn [bind].
    rewrite F5, ifvd by (auto; lia). cbn [bind].
    rewrite !col_ok by (rewrite ?F4; auto using fst_loc_dpt). cbn [bind].
    rewrite dpt11. reflexivity.
Qed.

Lemma handleVertex_ok s l P pc : Inv s l -> vmarks (xs_vert s) P -> fst pc < np -> ~ P pc ->
  exists s', handleVertex C s pc = Ok s' /\ Inv s' (l ++ vent pc) /\
    xs_side s' = xs_side s /\ vmarks (xs_vert s') (fun c => c = pc \/ P c).
Proof.
  intros HI Hm Hp HP. assert (validc t pc) as Hv by (apply (validc_np I WF); auto).
  unfold handleVertex. cbn [cI C]. rewrite (marks_false I _ _ _ _ _ Hm Hp HP). cbn [bind].
  rewrite (vertexData_ok I WF) by auto. cbn [bind fst snd]. rewrite (c0_vget I WF) by auto. cbn [bind].
  destruct (inner pc) eqn:Hi; cbn [negb].
  - apply (interiorVertex_ok s l P); auto.
  - pose proof (valence_pos pc Hv) as V1.
    destruct (valence pc =? 1) eqn:E1; [apply (regularCorner_ok s l P); auto; lia|].
    destruct (valence pc =? 2) eqn:E2; cbn [andb].
    + pose proof (regularBoundary_ok s l P pc HI Hm Hv Hi ltac:(lia)) as K.
      destruct (c0 pc); cbn [negb]; exact K.
    + replace (2 <? valence pc) with true by lia. cbn [andb].
      pose proof (irregularBoundary_ok s l P pc HI Hm Hv Hi ltac:(lia)) as K.
      destruct (c0 pc); cbn [negb]; exact K.
Qed.

(** ** interfaces *)
Definition sent (ps ps' : pside) (u u' : nat) : list aentry :=
  [self (PE ps 1 u); (PE ps 1 u, PE ps 0 u, half); (PE ps 1 u, PE ps' 0 u', half)].

Definition strip_range (ps : pside) : list nat := seq 2 (along_ps I ps - 4).
Definition ient1 (ps : pside) : list aentry :=
  match glue t ps with
  | Some (ps', fl) => concat (map (fun u => sent ps ps' u (across_pos I ps fl u)) (strip_range ps))
  | None => []
  end.

Lemma strip_in ps u : In u (strip_range ps) <-> 2 <= u < along_ps I ps - 2.
Proof. unfold strip_range. rewrite in_seq. lia. Qed.

Lemma across_pos_invol ps fl u : 2 <= u < along_ps I ps - 2 -> across_pos I ps fl (across_pos I ps fl u) = u.
Proof. intros H. unfold across_pos. destruct fl; lia. Qed.

Lemma sent_good ps ps' fl u a : glue t ps = Some (ps', fl) -> 2 <= u < along_ps I ps - 2 ->
  In a (sent ps ps' u (across_pos I ps fl u)) -> good a.
Proof.
  intros G Hu Ha. pose proof (glue_valid t Hcons _ _ _ G) as [V V']. rewrite Hnp in V, V'.
  pose proof (glue_along I WF _ _ _ G) as EL.
  assert (forall o, o < 2 -> pvalid (PE ps o u)) as P1 by (intros; simpl; fold (along_ps I ps); auto).
  pose proof (across_pos_bounds I WF ps u fl Hu) as Hb.
  assert (pvalid (PE ps' 0 (across_pos I ps fl u))) as P2.
  { simpl. fold (along_ps I ps'). rewrite <- EL. auto. }
  destruct Ha as [<-|[<-|[<-|[]]]].
  - apply good_self; auto.
  - split; [apply P1; lia|]. split; [apply P1; lia|]. split; [reflexivity|].
    rewrite (parents_strip I ps u ps' fl G). left; auto.
  - split; [apply P1; lia|]. split; [exact P2|]. split; [reflexivity|].
    rewrite (parents_strip I ps' _ ps fl (glue_sym t Hcons _ _ _ G)). right; left.
    f_equal. f_equal. unfold across_pos at 1. rewrite <- EL. apply across_pos_invol. exact Hu.
Qed.

Lemma ient1_good ps a : In a (ient1 ps) -> good a.
Proof.
  unfold ient1. destruct (glue t ps) as [[ps' fl]|] eqn:G; [|contradiction].
  intros Ha. apply in_concat in Ha. destruct Ha as (l & Hl & Ha). apply in_map_iff in Hl. destruct Hl as (u & <- & Hu).
  apply strip_in in Hu. eapply sent_good; eauto.
Qed.

Lemma ient1_selfclosed ps : selfclosed (ient1 ps).
Proof.
  unfold ient1. destruct (glue t ps) as [[ps' fl]|] eqn:G; [|intros x y w []].
  intros x y w Ha. apply in_concat in Ha. destruct Ha as (l & Hl & Ha). apply in_concat. exists l. split; auto.
  apply in_map_iff in Hl. destruct Hl as (u & <- & Hu).
  left. destruct Ha as [[= <- _ _]|[[= <- _ _]|[[= <- _ _]|[]]]]; reflexivity.
Qed.

Lemma selfclosed_app l l' : selfclosed l -> selfclosed l' -> selfclosed (l ++ l').
Proof.
  intros H1 H2 x y w Ha. apply in_app_iff in Ha. apply in_app_iff. destruct Ha as [Ha|Ha]; [left|right]; eauto.
Qed.

Lemma orig_is_free k p : is_free orig k p = true.
Proof. reflexivity. Qed.

(** the writes of one side, listed in any order of positions *)
Lemma interface_entries_ok (ps ps' : pside) (U U' : nat -> nat) L :
  fst ps < np -> fst ps' < np ->
  (forall u, In u L -> 2 <= U u < along_ps I ps - 2 /\ 2 <= U' u < along_ps I ps' - 2) ->
  interface_entries C (fst ps) (fst ps')
     (map (fun u => snd (loc (PE ps 0 (U u)))) L)
     (map (fun u => snd (loc (PE ps 1 (U u)))) L)
     (map (fun u => snd (loc (PE ps' 0 (U' u)))) L)
  = Ok (map conc (concat (map (fun u => sent ps ps' (U u) (U' u)) L))).
Proof.
  intros Hp Hp'. induction L as [|u L IH]; intros HU; [reflexivity|].
  cbn [map interface_entries]. destruct (HU u) as [B1 B2]; [left; auto|].
  assert (forall o, o < 2 -> pvalid (PE ps o (U u))) as P1 by (intros; simpl; fold (along_ps I ps); auto).
  assert (pvalid (PE ps' 0 (U' u))) as P2 by (simpl; fold (along_ps I ps'); auto).
  assert (is_free (cMod C) (snd (loc (PE ps 1 (U u)))) (fst ps) = true) as ->.
  { unfold is_free. cbn [cMod C]. change (fst ps) with (fst (loc (PE ps 1 (U u)))). rewrite loc_eta, Hfr by (apply P1; lia). reflexivity. }
  cbn [ensure bind]. rewrite row_ok by (auto; apply P1; lia). cbn [bind].
  cbn [cOrig C]. rewrite orig_is_free. cbn [ensure bind].
  change (cOrig C) with orig.
  rewrite !col_ok by (auto; apply P1; lia). cbn [bind].
  rewrite IH by (intros; apply HU; right; auto). cbn [bind]. reflexivity.
Qed.

Lemma without_rev l sel : without (rev l) sel = rev (without l sel).
Proof. unfold without. apply filter_rev. Qed.

Lemma handleInterface_ok s l P f : Inv s l -> smarks (xs_side s) P -> In f (tif t) -> ~ P (if1 f) -> ~ P (if2 f) ->
  exists s' l', handleInterface C s f = Ok s' /\ Inv s' (l ++ l') /\
    (forall a, In a l' <-> In a (ient1 (if1 f)) \/ In a (ient1 (if2 f))) /\
    xs_vert s' = xs_vert s /\ smarks (xs_side s') (fun c => c = if2 f \/ c = if1 f \/ P c).
Proof.
  intros HI Hm Hf HP1 HP2. destruct (iface_ends_np I WF f Hf) as [Q1 Q2].
  assert (glue t (if1 f) = Some (if2 f, ifflip f)) as G1 by (apply (glue_some t Hcons); exists f; auto).
  assert (glue t (if2 f) = Some (if1 f, ifflip f)) as G2 by (apply (glue_sym t Hcons); auto).
  pose proof (glue_along I WF _ _ _ G1) as EL.
  unfold handleInterface. cbn [cI C].
  rewrite (marks_false I _ _ _ _ _ Hm Q1 HP1), (marks_false I _ _ _ _ _ Hm Q2 HP2). cbn [bind orb].
  rewrite !(basisOf_ok I) by auto. cbn [bind].
  assert (forall o, matchWith (bas (fst (if1 f))) (bas (fst (if2 f))) f o =
    Ok (boundaryOffset (bas (fst (if1 f))) (snd (if1 f)) o,
        if ifflip f then rev (boundaryOffset (bas (fst (if2 f))) (snd (if2 f)) o)
        else boundaryOffset (bas (fst (if2 f))) (snd (if2 f)) o)) as MW.
  { intros o. unfold matchWith. rewrite !boundaryOffset_length.
    unfold along_ps in EL. rewrite EL, Nat.eqb_refl. reflexivity. }
  rewrite !MW. cbn [bind fst snd].
  destruct (near_ok I WF (if1 f) 0 Q1 ltac:(lia)) as (s10 & N10 & _).
  destruct (near_ok I WF (if1 f) 1 Q1 ltac:(lia)) as (s11 & N11 & _).
  destruct (near_ok I WF (if2 f) 0 Q2 ltac:(lia)) as (s20 & N20 & _).
  destruct (near_ok I WF (if2 f) 1 Q2 ltac:(lia)) as (s21 & N21 & _).
  rewrite N10, N11, N20, N21. cbn [bind].
  pose proof (without_near I WF _ 0 _ Q1 ltac:(lia) N10) as W10.
  pose proof (without_near I WF _ 1 _ Q1 ltac:(lia) N11) as W11.
  pose proof (without_near I WF _ 0 _ Q2 ltac:(lia) N20) as W20.
  pose proof (without_near I WF _ 1 _ Q2 ltac:(lia) N21) as W21.
  fold (along_ps I (if1 f)) in W10, W11. fold (along_ps I (if2 f)) in W20, W21. rewrite <- EL in W20, W21.
  set (L := seq 2 (along_ps I (if1 f) - 4)) in *.
  set (U2 := across_pos I (if1 f) (ifflip f)).
  assert (forall o sel, without (boundaryOffset (bas (fst (if2 f))) (snd (if2 f)) o) sel =
      map (spt (bas (fst (if2 f))) (snd (if2 f)) o) L ->
     without (if ifflip f then rev (boundaryOffset (bas (fst (if2 f))) (snd (if2 f)) o)
        else boundaryOffset (bas (fst (if2 f))) (snd (if2 f)) o) sel
     = map (fun u => snd (loc (PE (if2 f) o (U2 u)))) L) as WF2.
  { intros o sel E. unfold U2, across_pos. cbn [PointProofs.loc snd]. destruct (ifflip f).
    - rewrite without_rev, E, <- map_rev. unfold L. rewrite rev_seq, map_map. apply map_ext_in.
      intros u Hu. apply in_seq in Hu. f_equal. lia.
    - exact E. }
  rewrite (WF2 0 s20 W20), (WF2 1 s21 W21), W10, W11.
  rewrite !map_length, Nat.eqb_refl. cbn [ensure bind].
  change (map (spt (bas (fst (if1 f))) (snd (if1 f)) 0) L) with (map (fun u => snd (loc (PE (if1 f) 0 u))) L).
  change (map (spt (bas (fst (if1 f))) (snd (if1 f)) 1) L) with (map (fun u => snd (loc (PE (if1 f) 1 u))) L).
  assert (forall u, In u L -> 2 <= u < along_ps I (if1 f) - 2 /\ 2 <= U2 u < along_ps I (if2 f) - 2) as HU.
  { intros u Hu. unfold L in Hu. apply in_seq in Hu. split; [lia|]. rewrite <- EL. apply (across_pos_bounds I WF). lia. }
  rewrite (interface_entries_ok (if1 f) (if2 f) (fun u => u) U2 L Q1 Q2 HU). cbn [bind].
  rewrite (interface_entries_ok (if2 f) (if1 f) U2 (fun u => u) L Q2 Q1).
  2:{ intros u Hu. destruct (HU u Hu). auto. }
  cbn [bind]. rewrite <- map_app.
  set (es := concat (map (fun u => sent (if1 f) (if2 f) u (U2 u)) L)
          ++ concat (map (fun u => sent (if2 f) (if1 f) (U2 u) u) L)).
  assert (forall a, In a es <-> In a (ient1 (if1 f)) \/ In a (ient1 (if2 f))) as Hes.
  { intros a. unfold es. rewrite in_app_iff. unfold ient1. rewrite G1, G2.
    fold U2. unfold strip_range. rewrite <- EL. fold L. apply or_iff_compat_l.
    rewrite !in_concat. split; intros (q & Hq & Ha); apply in_map_iff in Hq; destruct Hq as (u & <- & Hu).
    - exists (sent (if2 f) (if1 f) (U2 u) u). split; auto. apply in_map_iff. exists (U2 u). split.
      + f_equal. unfold across_pos. rewrite <- EL. apply across_pos_invol. apply HU in Hu. tauto.
      + destruct (HU u Hu) as [_ HB]. rewrite <- EL in HB. unfold L. apply in_seq. lia.
    - exists (sent (if2 f) (if1 f) u (across_pos I (if2 f) (ifflip f) u)). split; auto. apply in_map_iff. exists (U2 u).
      assert (across_pos I (if2 f) (ifflip f) u = U2 u) as -> by (unfold U2, across_pos; rewrite EL; reflexivity).
      split.
      + f_equal. unfold U2. apply across_pos_invol. apply HU in Hu. tauto.
      + destruct (HU u Hu) as [_ HB]. rewrite <- EL in HB. unfold L. apply in_seq. lia. }
  assert (forall a, In a es -> good a) as Gd.
  { intros a Ha. apply Hes in Ha. destruct Ha; eapply ient1_good; eauto. }
  destruct (push_ok s l es HI Gd) as (s1 & E1 & E2 & E3 & HI1).
  { intros x y w Ha. apply Hes in Ha. apply Hes. destruct Ha as [Ha|Ha]; [left|right]; eapply ient1_selfclosed; eauto. }
  rewrite E1. cbn [bind]. rewrite <- E2 in Hm.
  destruct (setSide_ok s1 _ P (if1 f) HI1 Hm Q1) as (s2 & F1 & F2 & F3 & F4). rewrite F1. cbn [bind].
  destruct (setSide_ok s2 _ _ (if2 f) F2 F4 Q2) as (s3 & H1 & H2 & H3 & H4).
  exists s3, es. split; auto. split; auto. split; auto. split; [congruence|exact H4].
Qed.

(** ** boundaries *)
Definition bent (ps : pside) : list aentry := map (fun u => self (PE ps 0 u)) (strip_range ps).

Lemma handleBoundary_ok s l P ps : Inv s l -> smarks (xs_side s) P -> In ps (tbd t) ->
  exists s', handleBoundary C s ps = Ok s' /\ Inv s' (l ++ bent ps) /\
    xs_vert s' = xs_vert s /\ smarks (xs_side s') (fun c => c = ps \/ P c).
Proof.
  intros HI Hm Hps.
  assert (fst ps < np) as Q by (rewrite <- Hnp; apply (sides_valid t Hcons); auto).
  assert (isInterface t ps = false) as Hni by (apply (isInterface_bd t Hcons); [rewrite Hnp|]; auto).
  unfold handleBoundary. cbn [cI C]. rewrite (basisOf_ok I) by auto. cbn [bind].
  destruct (near_ok I WF ps 0 Q ltac:(lia)) as (sel & N & _). rewrite N. cbn [bind].
  rewrite (without_near I WF _ 0 _ Q ltac:(lia) N).
  assert (forall u, In u (strip_range ps) -> pvalid (PE ps 0 u) /\ elim (PE ps 0 u) = false) as V.
  { intros u Hu. apply strip_in in Hu. split; [simpl; fold (along_ps I ps); auto|]. simpl. exact Hni. }
  fold (along_ps I ps). fold (strip_range ps).
  assert (forall L, (forall u, In u L -> In u (strip_range ps)) ->
    mapM (fun i => do r <- rowIdx C i (fst ps); do c <- colIdx C i (fst ps); Ok (r, c, 1%Q))
     (map (spt (bas (fst ps)) (snd ps) 0) L) = Ok (map conc (map (fun u => self (PE ps 0 u)) L))) as MM.
  { induction L as [|u L IH]; intros HL; [reflexivity|]. cbn [map mapM].
    destruct (V u) as [V1 V2]; [apply HL; left; auto|].
    change (spt (bas (fst ps)) (snd ps) 0 u) with (snd (loc (PE ps 0 u))).
    rewrite row_ok, col_ok by auto. cbn [bind]. rewrite IH by (intros; apply HL; right; auto). reflexivity. }
  rewrite MM by auto. cbn [bind]. fold (bent ps).
  destruct (push_ok s l (bent ps) HI) as (s1 & E1 & E2 & E3 & HI1).
  { intros a Ha. apply in_map_iff in Ha. destruct Ha as (u & <- & Hu). apply good_self; apply V; auto. }
  { intros x y w Ha. apply in_map_iff in Ha. destruct Ha as (u & [= <- _ _] & Hu). apply in_map_iff. eauto. }
  rewrite E1. cbn [bind]. rewrite <- E2 in Hm.
  destruct (setSide_ok s1 _ P ps HI1 Hm Q) as (s2 & F1 & F2 & F3 & F4).
  exists s2. split; auto. split; auto. split; [congruence|exact F4].
Qed.

(** ** interior loop *)
Lemma handleInterior_ok s l : Inv s l ->
  exists s' l', handleInterior C s = Ok s' /\ Inv s' (l ++ l') /\ xs_side s' = xs_side s /\ xs_vert s' = xs_vert s /\
    (forall x, pvalid x -> elim x = false -> In (self x) (l ++ l')).
Proof.
  intros HI0. unfold handleInterior. cbn [cI C].
  destruct (foldM_inv (fun pre s' => exists l', Inv s' (l ++ l') /\ xs_side s' = xs_side s /\ xs_vert s' = xs_vert s /\
     (forall x, pvalid x -> elim x = false -> In (loc x) pre -> In (self x) (l ++ l')))
     (fun s (x : dof) => let '(p, b) := x in
        do r <- rowIdx C b p;
        if negb (is_free (cMod C) b p) then Ok s else
        do chk <- vget (xs_basis s) r;
        if (chk : bool) then Ok s else
        do c <- colIdx C b p; pushAndCheck C [(r, c, 1%Q)] s) (all_dofs orig) s) as (s' & E & l' & HI & E1 & E2 & H).
  - exists []. rewrite app_nil_r. split; auto. split; auto. split; auto. intros x _ _ [].
  - intros pre y post s1 Ey (l' & HI & E1 & E2 & Hx).
    assert (dvalid bs y) as Vy. { apply (in_all_dofs I WF orig); [reflexivity|]. rewrite Ey. apply in_elt. }
    destruct (decode_ok bs Hbig y Vy) as [Vx Lx]. set (x := decode y) in *.
    rewrite <- (loc_eta x) in Lx. rewrite <- Lx.
    assert (forall l'' s2, (Inv s2 (l ++ l'') /\ xs_side s2 = xs_side s /\ xs_vert s2 = xs_vert s) ->
       (forall a, In a (l ++ l') -> In a (l ++ l'')) -> (elim x = false -> In (self x) (l ++ l'')) ->
       exists l', Inv s2 (l ++ l') /\ xs_side s2 = xs_side s /\ xs_vert s2 = xs_vert s /\
     (forall x0, pvalid x0 -> elim x0 = false -> In (loc x0) (pre ++ [(fst (loc x), snd (loc x))]) -> In (self x0) (l ++ l'))) as K.
    { intros l'' s2 (A1 & A2 & A3) Hsub Hself. exists l''. split; auto. split; auto. split; auto.
      intros x0 V0 F0 Hin. rewrite loc_eta in Hin. apply in_app_iff in Hin. destruct Hin as [Hin|[Hin|[]]]; auto.
      apply loc_inj in Hin; auto. subst x0. auto. }
    destruct (row_some x Vx) as (r & Er). rewrite Er. cbn [bind].
    assert (is_free (cMod C) (snd (loc x)) (fst (loc x)) = negb (elim x)) as ->.
    { unfold is_free. cbn [cMod C]. rewrite loc_eta. auto. }
    rewrite negb_involutive. destruct (elim x) eqn:Hel.
    + exists s1. split; auto. apply (K l'); auto. discriminate.
    + rewrite row_ok in Er by auto. injection Er as <-.
      pose proof HI as (I1 & I2 & I3 & I4 & I5).
      destruct (I5 (ridx x) (ridx_lt x Vx Hel)) as (b & Eb & Hb). rewrite Eb. cbn [bind]. destruct b.
      * exists s1. split; auto. apply (K l'); auto. intros _.
        destruct (proj1 Hb eq_refl) as (c & w & Hin). apply I1 in Hin. apply in_map_iff in Hin.
        destruct Hin as ([[x' y'] w'] & [= Exr _ _] & Hin). pose proof (I2 _ Hin) as (V1 & _ & V3 & _).
        apply ridx_inj in Exr; auto. subst x'. eapply I3; eauto.
      * rewrite col_ok by auto. cbn [bind].
        destruct (push_ok s1 (l ++ l') [self x] HI) as (s2 & F1 & F2 & F3 & HI2).
        { intros a [<-|[]]. apply good_self; auto. }
        { intros a b w [[= <- _ _]|[]]. left; auto. }
        cbn [map conc self] in F1. exists s2. split; [exact F1|]. apply (K (l' ++ [self x])).
        -- rewrite app_assoc. split; auto. split; congruence.
        -- intros a Ha. rewrite app_assoc. apply in_app_iff. auto.
        -- intros _. rewrite app_assoc. apply in_app_iff. right; left; auto.
  - exists s', l'. split; auto. split; auto. split; auto. split; auto.
    intros x Vx Fx. apply H; auto. apply in_orig. exact Vx.
Qed.

(** ** the whole matrix *)
Definition smark_all : xstate -> Prop := fun s => smarks (xs_side s) (fun ps => fst ps < np).

Lemma vent_dart pc d k pc' d' : validc t pc -> d < 2 -> k < 2 -> dnext t (pc, d) = Some (pc', d') ->
  rule pc k = true -> (k = 1 \/ inner pc = false) ->
  In (dpt pc d k 1, dpt pc d k 0, half) (vent pc) /\ In (dpt pc d k 1, dpt pc' d' k 0, half) (vent pc).
Proof.
  intros Hv Hd Hk Hn Hr Hc.
  assert (k = 1 -> In (dpt pc d k 1, dpt pc d k 0, half) (concat [dart_entries pc 0 1; dart_entries pc 1 1]) /\
                   In (dpt pc d k 1, dpt pc' d' k 0, half) (concat [dart_entries pc 0 1; dart_entries pc 1 1])) as D.
  { intros ->. cbn [concat]. rewrite app_nil_r. unfold dart_entries. split; apply in_app_iff;
      (destruct d as [|[|]]; [left|right|lia]); rewrite Hn; simpl; auto. }
  assert (ifl pc d = true) as Hf by (apply (ifl_next I); eauto).
  unfold vent. destruct (inner pc) eqn:Hi.
  - destruct Hc as [Hc|Hc]; [|discriminate]. destruct (D Hc) as [D1 D2].
    split; right; apply in_app_iff; right; auto.
  - destruct (valence pc =? 1) eqn:E1.
    + rewrite (val1_boundary t Hcons pc d) in Hf; auto; [discriminate|lia].
    + destruct (valence pc =? 2) eqn:E2.
      * assert (idir pc = d) as ->.
        { pose proof (val2_boundary t Hcons pc Hv Hi ltac:(lia)) as B. unfold idir.
          destruct d as [|[|]]; try lia; [rewrite Hf; auto|]. rewrite Hf in B. rewrite B. reflexivity. }
        assert (In k (if c0 pc then [1] else [0; 1])) as Hin.
        { unfold MapperProofs.rule in Hr. rewrite Hi, E2 in Hr. destruct (c0 pc); simpl in *.
          - rewrite orb_false_r in Hr. apply Nat.eqb_eq in Hr. auto.
          - lia. }
        split; apply in_concat; exists (self (dpt pc d k 1) :: dart_entries pc d k);
          (split; [apply (in_map (fun k => self (dpt pc d k 1) :: dart_entries pc d k)); exact Hin|]);
          unfold dart_entries; rewrite Hn; simpl; auto.
      * assert (k = 1) as Hk1.
        { unfold MapperProofs.rule in Hr. rewrite Hi, E2 in Hr. simpl in Hr. rewrite orb_false_r in Hr.
          apply Nat.eqb_eq in Hr. exact Hr. }
        destruct (D Hk1) as [D1 D2]. split; right; apply in_app_iff; left; auto.
Qed.

Lemma complete l :
  (forall pc a, fst pc < np -> In a (vent pc) -> In a l) ->
  (forall ps a, In a (ient1 ps) -> In a l) ->
  (forall x, pvalid x -> elim x = false -> In (self x) l) ->
  forall x y w, pvalid y -> In (x, w) (parents y) -> In (x, y, w) l.
Proof.
  intros H1 H2 H3 x y w Hy Hx. destruct (elim y) eqn:He.
  2:{ rewrite parents_free in Hx by exact He. destruct Hx as [[= <- <-]|[]]. apply (H3 y); auto. }
  destruct y as [p i j|ps o u|pc a e]; [discriminate| |].
  - simpl in He. apply andb_prop in He. destruct He as [Ho Hif]. apply Nat.eqb_eq in Ho. subst o.
    apply (isInterface_glue t) in Hif. destruct Hif as (ps' & fl & G).
    rewrite (parents_strip I ps u ps' fl G) in Hx. simpl in Hy. fold (along_ps I ps) in Hy. destruct Hy as (Hp & _ & Hu).
    destruct Hx as [[= <- <-]|[[= <- <-]|[]]].
    + apply (H2 ps). unfold ient1. rewrite G. apply in_concat. eexists. split; [apply in_map, strip_in, Hu|]. simpl; auto.
    + apply (H2 ps'). unfold ient1. pose proof (glue_sym t Hcons _ _ _ G) as G'. rewrite G'.
      pose proof (glue_along I WF _ _ _ G) as EL. pose proof (across_pos_bounds I WF ps u fl Hu) as Hb.
      apply in_concat. exists (sent ps' ps (across_pos I ps fl u) (across_pos I ps' fl (across_pos I ps fl u))). split.
      * apply (in_map (fun u => sent ps' ps u (across_pos I ps' fl u))). apply strip_in. rewrite <- EL. exact Hb.
      * assert (across_pos I ps' fl (across_pos I ps fl u) = u) as ->.
        { unfold across_pos at 1. rewrite <- EL. apply across_pos_invol. exact Hu. }
        right; right; left; reflexivity.
  - destruct Hy as (Hp & Ha & He'). assert (validc t pc) as Hv by (apply (validc_np I WF); exact Hp).
    destruct (elim_corner_cases I WF pc a e Hv Ha He' He) as [(Hi & -> & ->)|(d & k & pc' & d' & Hd & Hk & Ed & Hn & Hr & Hc)].
    + rewrite (parents_00 I WF) in Hx by auto. apply in_map_iff in Hx. destruct Hx as (c & [= <- <-] & Hc).
      assert (validc t c) as Hvc by (apply (cls_valid t Hcons pc); auto).
      apply (H1 c); [apply (validc_np I WF); auto|]. unfold vent. rewrite (inner_cls t Hcons pc c), Hi by auto.
      right. apply in_app_iff. left. rewrite (valence_cls t Hcons pc c) by auto.
      apply (in_map (fun c0 => (PC c 1 1, PC c0 0 0, (1 # Pos.of_nat (valence pc))%Q))). apply (in_cls_sym t Hcons); auto.
    + rewrite Ed in *. rewrite (parents_dart I WF pc d k pc' d') in Hx by auto.
      destruct Hx as [[= <- <-]|[[= <- <-]|[]]].
      * apply (H1 pc); auto. apply (proj1 (vent_dart pc d k pc' d' Hv Hd Hk Hn Hr Hc)).
      * pose proof (dnext_dir t _ _ _ Hn) as Hd'. pose proof (dnext_valid t Hcons _ _ _ _ Hn) as [_ Hv'].
        pose proof (dnext_cls I WF _ _ _ _ Hd Hn) as Hcl. pose proof (dnext_sym t Hcons _ _ _ _ Hd Hn) as Hn'.
        apply (H1 pc'); [apply (validc_np I WF); auto|].
        apply (vent_dart pc' d' k pc d); auto.
        -- rewrite (rule_cls I WF pc pc'); auto.
        -- rewrite (inner_cls t Hcons pc pc'); auto.
Qed.

Lemma loops_ok : exists s l, smoothMatrixLoops C = Ok s /\ Inv s l /\
   smarks (xs_side s) (fun _ => True) /\ vmarks (xs_vert s) (fun _ => True) /\
   (forall x y w, pvalid y -> In (x, w) (parents y) -> In (x, y, w) l) /\
   (forall x, pvalid x -> elim x = false -> In (self x) l).
Proof.
  unfold smoothMatrixLoops. cbn [cI C].
  set (s0 := mkXS (repeat false (nSides I)) (repeat false (nVerts I)) (repeat false (cRows C)) []).
  assert (Inv s0 []) as HI0.
  { split; [|split; [|split; [|split]]].
    - intros e. reflexivity.
    - intros a [].
    - intros x y w [].
    - apply repeat_length.
    - intros r Hr. exists false. split; [apply vget_repeat; exact Hr|]. split; [discriminate|]. intros (c & w & []). }
  destruct (foldM_inv (fun pre s => exists l, Inv s l /\ xs_side s = xs_side s0 /\ vmarks (xs_vert s) (fun c => In c pre) /\
      (forall c a, In c pre -> In a (vent c) -> In a l)) (handleVertex C) (corner_loop I) s0)
    as (s1 & E1 & l1 & HI1 & S1 & M1 & V1).
  { exists []. split; auto. split; auto. split; [apply vmarks_init|]. intros c a []. }
  { intros pre pc post s E (l & HI & HS & HM & HV). destruct (corner_loop_prefix I _ _ _ E) as [Hp Hn].
    destruct (handleVertex_ok s l _ pc HI HM Hp Hn) as (s' & E' & HI' & HS' & HM').
    exists s'. split; auto. exists (l ++ vent pc). split; auto. split; [congruence|]. split.
    - revert HM'. apply marks_ext. intros a _. rewrite in_app_iff. simpl. intuition.
    - intros c a Hc Ha. apply in_app_iff in Hc. apply in_app_iff. destruct Hc as [Hc|[<-|[]]]; eauto. }
  rewrite E1. cbn [bind].
  destruct (foldM_inv (fun pre s => exists l, Inv s l /\ xs_vert s = xs_vert s1 /\ smarks (xs_side s) (fun c => In c (isides pre)) /\
      (forall a, In a l1 -> In a l) /\ (forall ps a, In ps (isides pre) -> In a (ient1 ps) -> In a l)) (handleInterface C) (tif t) s1)
    as (s2 & E2 & l2 & HI2 & S2 & M2 & L2 & V2).
  { exists l1. split; auto. split; auto. split; [rewrite S1; apply smarks_init; exact WF|]. split; auto. intros c a []. }
  { intros pre f post s E (l & HI & HS & HM & HL & HV).
    assert (In f (tif t)) as Hf by (rewrite E; apply in_elt).
    destruct (isides_nodup I WF pre f post E) as (N1 & N2 & N3).
    destruct (handleInterface_ok s l _ f HI HM Hf N1 N2) as (s' & l' & E' & HI' & Hl' & HS' & HM').
    exists s'. split; auto. exists (l ++ l'). split; auto. split; [congruence|]. split; [|split].
    - revert HM'. apply marks_ext. intros a _. unfold isides. rewrite flat_map_app, in_app_iff. simpl. intuition.
    - intros a Ha. apply in_app_iff. auto.
    - intros ps a Hps Ha. unfold isides in Hps. rewrite flat_map_app in Hps. apply in_app_iff in Hps. apply in_app_iff.
      destruct Hps as [Hps|[<-|[<-|[]]]]; [left; eauto|right; apply Hl'; auto|right; apply Hl'; auto]. }
  rewrite E2. cbn [bind].
  destruct (foldM_inv (fun pre s => exists l, Inv s l /\ xs_vert s = xs_vert s1 /\
      smarks (xs_side s) (fun c => In c (iface_sides t) \/ In c pre) /\
      (forall a, In a l2 -> In a l)) (handleBoundary C) (tbd t) s2)
    as (s3 & E3 & l3 & HI3 & S3 & M3 & L3).
  { exists l2. split; auto. split; auto. split; auto. revert M2. apply marks_ext. intros a _. simpl. unfold isides, iface_sides. tauto. }
  { intros pre ps post s E (l & HI & HS & HM & HL).
    destruct (handleBoundary_ok s l _ ps HI HM) as (s' & E' & HI' & HS' & HM'). { rewrite E; apply in_elt. }
    exists s'. split; auto. exists (l ++ bent ps). split; auto. split; [congruence|]. split.
    - revert HM'. apply marks_ext. intros a _. rewrite in_app_iff. simpl. intuition.
    - intros a Ha. apply in_app_iff. auto. }
  rewrite E3. cbn [bind].
  destruct (handleInterior_ok s3 l3 HI3) as (s4 & l4 & E4 & HI4 & S4 & V4 & H4).
  exists s4, (l3 ++ l4). split; auto. split; auto. split; [|split; [|split]]; auto.
  - rewrite S4. revert M3. apply marks_ext. intros a Ha. rewrite <- Hnp in Ha. apply (sides_valid t Hcons) in Ha. tauto.
  - rewrite V4, S3. revert M1. apply marks_ext. intros a Ha. apply in_all_corners in Ha. unfold corner_loop. tauto.
  - apply complete; auto.
    + intros pc a Hp Ha. apply in_app_iff. left. apply L3, L2. apply (V1 pc); auto. apply in_all_corners. exact Hp.
    + intros ps a Ha. apply in_app_iff. left. apply L3. apply (V2 ps); auto.
      unfold ient1 in Ha. destruct (glue t ps) as [[ps' fl]|] eqn:G; [|contradiction].
      apply isInterface_in, isInterface_glue. eauto.
Qed.

Lemma mget_in L r c w : In (r, c, w) L -> (forall w', In (r, c, w') L -> w' = w) -> mget L r c = w.
Proof.
  induction L as [|[[r' c'] w'] L IH]; intros Hin Hu; [contradiction|]. simpl.
  destruct ((r' =? r) && (c' =? c)) eqn:E.
  - apply andb_prop in E. destruct E as [E1 E2]. apply Nat.eqb_eq in E1, E2. subst. apply Hu. left; auto.
  - apply IH; [|intros w1 H1; apply Hu; right; auto]. destruct Hin as [[= -> -> ->]|]; auto.
    rewrite !Nat.eqb_refl in E. discriminate.
Qed.
Lemma mget_notin L r c : (forall w, ~ In (r, c, w) L) -> mget L r c = 0%Q.
Proof.
  induction L as [|[[r' c'] w'] L IH]; intros Hu; [reflexivity|]. simpl.
  destruct ((r' =? r) && (c' =? c)) eqn:E.
  - apply andb_prop in E. destruct E as [E1 E2]. apply Nat.eqb_eq in E1, E2. subst. destruct (Hu w'). left; auto.
  - apply IH. intros w Hw. apply (Hu w). right; auto.
Qed.

Lemma nodup_fst_fun {A B} (l : list (A * B)) x w w' : NoDup (map fst l) -> In (x, w) l -> In (x, w') l -> w = w'.
Proof.
  induction l as [|[a b] l IH]; simpl; intros H H1 H2; [contradiction|]. apply NoDup_cons_iff in H. destruct H as [H0 H].
  destruct H1 as [E1|H1], H2 as [E2|H2]; [congruence| | |eauto]; exfalso; apply H0; apply in_map_iff.
  - exists (x, w'). split; auto. simpl. congruence.
  - exists (x, w). split; auto. simpl. congruence.
Qed.

Lemma smoothMatrix_ok : exists W, computeSmoothMatrix C = Ok W /\
  (forall x y w, pvalid y -> In (x, w) (parents y) -> mget W (ridx x) (cidx y) = w) /\
  (forall x y, pvalid x -> pvalid y -> elim x = false -> (forall w, ~ In (x, w) (parents y)) -> mget W (ridx x) (cidx y) = 0%Q).
Proof.
  destruct loops_ok as (s & l & E & (I1 & I2 & I3 & I4 & I5) & MS & MV & Hc & Hself).
  unfold computeSmoothMatrix. rewrite E. cbn [bind].
  assert (performChecks s = Ok tt) as ->.
  { unfold performChecks. destruct MS as [LS MS]. destruct MV as [LV MV].
    rewrite !forallb_vget; [reflexivity| | |].
    - intros r Hr. rewrite I4 in Hr. destruct (I5 r Hr) as (b & Hb & Hb'). rewrite Hb. f_equal. apply Hb'.
      destruct (ridx_onto r Hr) as (x & Vx & Fx & <-). exists (cidx x), 1%Q. apply I1.
      apply (in_map conc _ (self x)). auto.
    - intros i Hi. rewrite LV in Hi. destruct (vertIndex_onto np i Hi) as (pc & Hp & <-).
      destruct (MV pc Hp) as (b & Hb & Hb'). rewrite Hb. f_equal. apply Hb'. exact Logic.I.
    - intros i Hi. rewrite LS in Hi. destruct (sideIndex_onto np i Hi) as (pc & Hp & <-).
      destruct (MS pc Hp) as (b & Hb & Hb'). rewrite Hb. f_equal. apply Hb'. exact Logic.I. }
  cbn [bind]. exists (xs_mat s). split; auto.
  assert (forall x y w, pvalid x -> pvalid y -> elim x = false -> In (ridx x, cidx y, w) (xs_mat s) -> In (x, w) (parents y)) as K.
  { intros x y w Vx Vy Fx Hin. apply I1 in Hin. apply in_map_iff in Hin.
    destruct Hin as ([[x' y'] w'] & [= Er Ec Ew] & Hin). destruct (I2 _ Hin) as (A1 & A2 & A3 & A4).
    apply ridx_inj in Er; auto. apply cidx_inj in Ec; auto. subst. exact A4. }
  split.
  - intros x y w Vy Hin. destruct (parents_ok I WF y x w Vy Hin) as [Vx Fx]. apply mget_in.
    + apply I1. apply (in_map conc _ (x, y, w)). auto.
    + intros w' Hin'. apply (nodup_fst_fun (parents y) x); auto. apply (parents_nodup I WF); auto.
  - intros x y Vx Vy Fx Hn. apply mget_notin. intros w Hin. apply (Hn w). apply K; auto.
Qed.

End H.
