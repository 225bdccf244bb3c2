(** Proofs for C52 and C53, continued: records of interfaces. *)
From Verif Require Import Common TopoModel TopoSpec IndexSpec SmoothSpec SmoothSpec2 VertexModel VertexSpec ListLemmas TopoProofs GeometryProofs VertexProofs VertexProofs2.
Open Scope nat_scope.

Lemma iface_eqb_eq f g : iface_eqb f g = true <-> f = g.
Proof.
  unfold iface_eqb. rewrite !andb_true_iff, !ps_eqb_eq, Bool.eqb_true_iff. destruct f, g; cbn. split; [intros ((-> & ->) & ->); reflexivity|intros [= -> -> ->]; auto].
Qed.
Lemma isDistances_iff t d g : consistent t -> In (dIf d) (tif t) -> In g (tif t) -> isDistancesOf d g = true <-> dIf d = g.
Proof.
  intros Hc Hd Hg. unfold isDistancesOf. rewrite orb_true_iff, !iface_eqb_eq. split; [|now left]. intros [E|E]; [exact E|].
  apply (iface_unique t Hc (dIf d) g (if2 (dIf d))); [exact Hd|exact Hg|now right|left; now rewrite <- E].
Qed.

Lemma nth_ext' {A} (l : list A) : forall l', (forall i, nth_error l i = nth_error l' i) -> l = l'.
Proof.
  induction l as [|a l IH]; intros [|b l'] H; [reflexivity|discriminate (H 0)|discriminate (H 0)|]. f_equal; [now injection (H 0)|]. apply IH. intros i. exact (H (S i)).
Qed.
Lemma foldM_ext_in {A B} (f g : B -> A -> res B) l : (forall b a, In a l -> f b a = g b a) -> forall b, foldM f l b = foldM g l b.
Proof.
  induction l as [|a l IH]; intros H b; [reflexivity|]. cbn [foldM]. rewrite (H b a (or_introl eq_refl)). destruct (g b a); [|reflexivity]. cbn [bind]. apply IH. intros; apply H; now right.
Qed.

(** the knots read from the two sides of an interface are the same *)
Lemma xorb_pos f u : pos_on (snd (if2 f)) (snd (end2 f u)) = xorb (ifflip f) u.
Proof. apply pos_on_corner_at. Qed.
Lemma knots_both B f u : knots_match B f -> knotsFrom B (if1 f) (end1 f u) = knotsFrom B (if2 f) (end2 f u).
Proof.
  intros (b & b' & E & E' & M). unfold knotsFrom, vget. rewrite E, E'. cbn [bind]. rewrite xorb_pos. unfold end1. cbn [snd]. rewrite pos_on_corner_at.
  cbv zeta in M. set (k := knots b _) in *. set (k' := knots b' _) in *. destruct M as (_ & LE & H). f_equal.
  assert (K : k' = if ifflip f then kreverse k else k).
  { apply nth_ext'. intros i. destruct (Nat.lt_ge_cases i (length k)) as [L|L].
    - destruct (ifflip f).
      + rewrite kreverse_nth by exact L. destruct (nth_error k (length k - 1 - i)) as [x|] eqn:X; [|apply nth_error_None in X; lia]. apply H in X.
        replace (length k - 1 - (length k - 1 - i)) with i in X by lia. exact X.
      + destruct (nth_error k i) as [x|] eqn:X; [|apply nth_error_None in X; lia]. now apply H.
    - rewrite (proj2 (nth_error_None k' i)) by lia. destruct (ifflip f); symmetry; apply nth_error_None; rewrite ?kreverse_length; lia. }
  rewrite K. destruct (ifflip f), u; cbn [xorb]; rewrite ?kreverse_invol; reflexivity.
Qed.
Lemma find_both B f u n : knots_match B f -> findParameter B (if1 f) (end1 f u) n = findParameter B (if2 f) (end2 f u) n.
Proof. intros M. unfold findParameter. rewrite (knots_both B f u M). reflexivity. Qed.

Section Topo.
Variable t : topo.
Hypothesis Hc : consistent t.

Lemma end1_valid f u : In f (tif t) -> validc t (end1 f u).
Proof. intros H. unfold validc, end1. cbn. apply (sides_valid t Hc). rewrite <- or_comm. right. apply in_iface_sides. exists f. split; [exact H|now left]. Qed.
Lemma end2_valid f u : In f (tif t) -> validc t (end2 f u).
Proof. intros H. unfold validc, end2. cbn. apply (sides_valid t Hc). rewrite <- or_comm. right. apply in_iface_sides. exists f. split; [exact H|now right]. Qed.
Lemma ends_same f u : In f (tif t) -> same_vertex t (end1 f u) (end2 f u).
Proof. intros H. apply same_vertex_glued. exists f, u. repeat split; exact H. Qed.
Lemma sv_sym a b : validc t a -> same_vertex t a b -> same_vertex t b a.
Proof.
  intros V H. apply (same_vertex_cls t Hc a b V) in H. apply (same_vertex_cls t Hc b a (cls_valid t Hc a b V H)). now apply in_cls_sym.
Qed.
Lemma sv_valid a b : validc t a -> same_vertex t a b -> validc t b.
Proof. intros V H. apply (same_vertex_cls t Hc a b V) in H. exact (cls_valid t Hc a b V H). Qed.
Lemma sv_trans a b c : same_vertex t a b -> same_vertex t b c -> same_vertex t a c.
Proof. intros H K. induction K as [|x y K IH G]; [exact H|]. eapply sv_step; [exact IH|exact G]. Qed.
Lemma in_vertex a c : validc t a -> existsb (pc_eqb c) (cls t a) = true <-> same_vertex t a c.
Proof. intros V. rewrite existsb_pc. symmetry. now apply same_vertex_cls. Qed.
Lemma in_vertex_same a c c' : validc t a -> validc t c -> same_vertex t c c' -> existsb (pc_eqb c) (cls t a) = existsb (pc_eqb c') (cls t a).
Proof.
  intros V W H. apply Bool.eq_true_iff_eq. rewrite !in_vertex by exact V. split; intros K; [now apply (sv_trans a c c')|].
  apply (sv_trans a c' c); [exact K|]. now apply sv_sym.
Qed.
End Topo.

Theorem agree_pf : forall S f u, consistent (vT S) -> records_of S -> vertex_wise S -> In f (tif (vT S)) -> knots_match (vB S) f ->
  distanceOfVertex S (end1 f u) (if1 f) = distanceOfVertex S (end2 f u) (if2 f).
Proof.
  intros S f u Hc (RI & RC) VW Hf KM. pose proof (ends_same (vT S) f u Hf) as SV. destruct (VW _ _ SV) as (SP & LI).
  assert (P : parametricDistance S (end1 f u) (if1 f) = parametricDistance S (end2 f u) (if2 f)).
  { unfold parametricDistance. rewrite <- SP. rewrite (getInterface_of (vT S) Hc f (if1 f) Hf (or_introl eq_refl)), (getInterface_of (vT S) Hc f (if2 f) Hf (or_intror eq_refl)).
    destruct (isSpecialVertex _ _).
    - apply foldM_ext_in. intros acc d Hd. destruct (isDistancesOf d f); [|reflexivity]. unfold getParamDist.
      assert (Hi : In (dIf d) (tif (vT S))) by (rewrite <- RI; now apply in_map). destruct (RC d Hd) as (-> & ->).
      rewrite !(cornerList_cls (vT S) Hc) by now apply end1_valid. cbn [bind].
      rewrite !(in_vertex_same (vT S) Hc _ (end1 f u) (end2 f u)) by (try exact SV; now apply end1_valid). reflexivity.
    - assert (EX : existsb (fun e : pcorner * bool => pc_eqb (end1 f u) (fst e)) (vVert S) = existsb (fun e => pc_eqb (end2 f u) (fst e)) (vVert S)).
      { apply Bool.eq_true_iff_eq. rewrite !existsb_exists. rewrite !in_map_iff in LI. split; intros (e & He & E); apply pc_eqb_eq in E.
        - destruct (proj1 LI) as (e' & E' & He'); [now exists e|]. exists e'. split; [exact He'|]. now apply pc_eqb_eq.
        - destruct (proj2 LI) as (e' & E' & He'); [now exists e|]. exists e'. split; [exact He'|]. now apply pc_eqb_eq. }
      rewrite EX. destruct (existsb (fun e => pc_eqb (end2 f u) (fst e)) (vVert S)); [|reflexivity]. pose proof KM as (b & b' & E & E' & DG & _). unfold vget, end1 at 1, end2 at 1. cbn [fst]. rewrite E, E'. cbn [bind]. rewrite DG. apply find_both. exact KM. }
  unfold distanceOfVertex. rewrite P, (knots_both _ f u KM). pose proof KM as (b & b' & E & E' & DG & _). unfold vget. rewrite E, E'. cbn [bind]. rewrite DG. reflexivity.
Qed.

(** ** setC0 *)
Definition plain (d : drec) : Prop := dC1 d = end1 (dIf d) false /\ dC2 d = end1 (dIf d) true.

Lemma get_last t S f p l : consistent t -> In f (tif t) -> (forall d, In d l -> In (dIf d) (tif t)) ->
  (forall d, In d l -> dIf d = f -> getParamDist t d S = Ok p) ->
  forall acc, (exists d, In d l /\ dIf d = f) \/ acc = p -> foldM (fun acc d => if isDistancesOf d f then getParamDist t d S else Ok acc) l acc = Ok p.
Proof.
  intros Hc Hf. induction l as [|d l IH]; intros HI HG acc HA; cbn [foldM].
  - destruct HA as [(d & [] & _)| ->]; reflexivity.
  - destruct (isDistancesOf d f) eqn:E.
    + apply (isDistances_iff t d f Hc (HI d (or_introl eq_refl)) Hf) in E. rewrite (HG d (or_introl eq_refl) E). cbn [bind]. apply IH; [intros; apply HI; now right|intros; apply HG; [now right|assumption]|now right].
    + cbn [bind]. apply IH; [intros; apply HI; now right|intros; apply HG; [now right|assumption]|]. destruct HA as [(d' & [<-|Hd] & E')|HA]; [|left; now exists d'|now right].
      apply (isDistances_iff t d f Hc (HI d (or_introl eq_refl)) Hf) in E'. congruence.
Qed.

Lemma set_get S d n pc d' u c : consistent (vT S) -> In (dIf d) (tif (vT S)) -> plain d -> fst pc < tnp (vT S) -> same_vertex (vT S) pc (end1 (dIf d) u) -> isSpecialVertex (vVert S) pc = true ->
  ~ same_vertex (vT S) (end1 (dIf d) false) (end1 (dIf d) true) -> same_vertex (vT S) pc c -> setParamDist S d n pc = Ok d' ->
  findParameter (vB S) (if1 (dIf d)) (end1 (dIf d) u) n = getParamDist (vT S) d' c.
Proof.
  intros Hc Hi (P1 & P2) V SV SP ND SC H. pose proof (end1_valid _ Hc (dIf d) false Hi) as V1. pose proof (end1_valid _ Hc (dIf d) true Hi) as V2.
  assert (IV : forall w, existsb (pc_eqb pc) (cls (vT S) (end1 (dIf d) w)) = Bool.eqb w u).
  { intros w. destruct (Bool.eqb w u) eqn:E.
    - apply eqb_prop in E. subst w. apply in_vertex; [exact Hc|now apply end1_valid|]. apply sv_sym; [exact Hc|exact V|exact SV].
    - apply not_true_iff_false. rewrite in_vertex by (try exact Hc; now apply end1_valid). intros K. apply ND. pose proof (sv_trans _ _ _ _ K SV) as L.
      destruct w, u; try discriminate; [apply sv_sym; [exact Hc|exact V2|exact L]|exact L]. }
  assert (IC : forall w, existsb (pc_eqb c) (cls (vT S) (end1 (dIf d) w)) = Bool.eqb w u).
  { intros w. rewrite <- (in_vertex_same _ Hc _ pc c); [apply IV|now apply end1_valid|exact V|exact SC]. }
  unfold setParamDist in H. rewrite P1, P2, !(cornerList_cls _ Hc) in H by assumption. cbn [bind] in H. rewrite !IV, SP in H. assert (FE : forall w, (fst (end1 (dIf d) w) =? fst (if1 (dIf d))) = true) by (intros; apply Nat.eqb_refl). rewrite !FE in H.
  destruct u; cbn [Bool.eqb andb] in H.
  - destruct (findParameter _ _ _ _) as [p|]; [|discriminate]. injection H as <-. unfold getParamDist. cbn [dC1 dC2 dP1 dP2]. rewrite ?P1, ?P2, !(cornerList_cls _ Hc) by assumption. cbn [bind]. now rewrite !IC.
  - destruct (findParameter _ _ _ _) as [p|]; [|discriminate]. injection H as <-. unfold getParamDist. cbn [dC1 dC2 dP1 dP2]. rewrite ?P1, !(cornerList_cls _ Hc) by assumption. cbn [bind]. now rewrite !IC.
Qed.

Lemma mapM_in {A B} (f : A -> res B) l l' : mapM f l = Ok l' -> forall b, In b l' -> exists a, In a l /\ f a = Ok b.
Proof.
  revert l'. induction l as [|a l IH]; intros l' H b Hb; cbn [mapM] in H; [injection H as <-; destruct Hb|].
  destruct (f a) as [x|] eqn:E; [|discriminate]. cbn [bind] in H. destruct (mapM f l) as [y|]; [|discriminate]. injection H as <-. destruct Hb as [<-|Hb]; [exists a; split; [now left|exact E]|].
  destruct (IH y eq_refl b Hb) as (a' & Ha & Ea). exists a'. split; [now right|exact Ea].
Qed.
Lemma mapM_fst {A B C} (f : A -> res B) (g : B -> C) (h : A -> C) l l' : mapM f l = Ok l' -> (forall a b, In a l -> f a = Ok b -> g b = h a) -> map g l' = map h l.
Proof.
  revert l'. induction l as [|a l IH]; intros l' H G; cbn [mapM] in H; [injection H as <-; reflexivity|].
  destruct (f a) as [x|] eqn:E; [|discriminate]. cbn [bind] in H. destruct (mapM f l) as [y|]; [|discriminate]. injection H as <-. cbn [map]. f_equal; [apply G; [now left|exact E]|]. apply IH; [reflexivity|]. intros; apply G; [now right|assumption].
Qed.
Lemma setParam_keeps S d n pc d' : setParamDist S d n pc = Ok d' -> dIf d' = dIf d /\ dC1 d' = dC1 d /\ dC2 d' = dC2 d.
Proof.
  unfold setParamDist. destruct (cornerList _ (dC1 d)); [|discriminate]. cbn [bind]. destruct (existsb _ _).
  - destruct (isSpecialVertex _ _); [|intros [= <-]; auto]. destruct (findParameter _ _ _ _); [|discriminate]. cbn [bind]. intros [= <-]; auto.
  - destruct (cornerList _ (dC2 d)); [|discriminate]. cbn [bind]. destruct (_ && _); [|intros [= <-]; auto]. destruct (findParameter _ _ _ _); [|discriminate]. cbn [bind]. intros [= <-]; auto.
Qed.

Lemma side_records S pc ps S' : records_of S -> setSideDist S pc ps = Ok S' -> records_of S' /\
  forall d', In d' (vDist S') -> exists d, In d (vDist S) /\ dIf d' = dIf d /\
    match getInterface (vT S) ps with Some g => if isDistancesOf d g then setParamDist S d (vMin S) pc = Ok d' else d' = d | None => d' = d end.
Proof.
  intros (RI & RC) H. pose proof (setSideDist_fixed _ _ _ _ H) as (T & _). unfold setSideDist in H. unfold records_of. rewrite T. destruct (getInterface (vT S) ps) as [g|]; [|injection H as <-; split; [now split|intros d Hd; now exists d]].
  destruct (mapM _ (vDist S)) as [l|] eqn:M; [|discriminate]. cbn [bind] in H. injection H as <-. cbn [vDist withDist vT].
  assert (K : forall d' , In d' l -> exists d, In d (vDist S) /\ (dIf d' = dIf d /\ dC1 d' = dC1 d /\ dC2 d' = dC2 d) /\ if isDistancesOf d g then setParamDist S d (vMin S) pc = Ok d' else d' = d).
  { intros d' Hd. destruct (mapM_in _ _ _ M d' Hd) as (d & Hin & E). exists d. split; [exact Hin|]. destruct (isDistancesOf d g); [split; [eapply setParam_keeps; exact E|exact E]|injection E as <-; auto]. }
  split; [split|].
  - rewrite <- RI. apply (mapM_fst _ dIf dIf _ _ M). intros d d' _ E. cbn beta in E. destruct (isDistancesOf d g); [apply (setParam_keeps _ _ _ _ _ E)|now injection E as <-].
  - intros d' Hd. destruct (K d' Hd) as (d & Hin & (-> & -> & ->) & _). now apply RC.
  - intros d' Hd. destruct (K d' Hd) as (d & Hin & (E & _) & F). exists d. auto.
Qed.

Section C0.
Variable pc : pcorner.
Variable f : iface.
Variable u : bool.
Variable c : pcorner.

Lemma sides_set : forall l S S', consistent (vT S) -> records_of S -> fst pc < tnp (vT S) -> isSpecialVertex (vVert S) pc = true -> In f (tif (vT S)) ->
  same_vertex (vT S) pc (end1 f u) -> same_vertex (vT S) pc c -> ~ same_vertex (vT S) (end1 f false) (end1 f true) ->
  foldM (fun S s => setSideDist S pc (fst pc, s)) l S = Ok S' ->
  records_of S' /\
  ((forall d, In d (vDist S) -> dIf d = f -> findParameter (vB S) (if1 f) (end1 f u) (vMin S) = getParamDist (vT S) d c) \/ (exists s, In s l /\ getInterface (vT S) (fst pc, s) = Some f) ->
  forall d, In d (vDist S') -> dIf d = f -> findParameter (vB S) (if1 f) (end1 f u) (vMin S) = getParamDist (vT S) d c).
Proof.
  induction l as [|s l IH]; intros S S' Hc R V SP Hf SV SC ND H; cbn [foldM] in H.
  - injection H as <-. split; [exact R|]. intros [K|(s & [] & _)]. exact K.
  - destruct (setSideDist S pc (fst pc, s)) as [S1|] eqn:E1; [|discriminate]. cbn [bind] in H. destruct (side_records _ _ _ _ R E1) as (R1 & K1). pose proof (setSideDist_fixed _ _ _ _ E1) as (T & B & _ & M & VV & _).
    destruct (IH S1 S') as (R' & K'); try rewrite T; try rewrite VV; try assumption. split; [exact R'|]. rewrite T, B, M in K'. intros A. apply K'.
    assert (CASE : getInterface (vT S) (fst pc, s) = Some f \/ getInterface (vT S) (fst pc, s) <> Some f).
    { destruct (getInterface (vT S) (fst pc, s)) as [g|]; [|right; discriminate]. destruct (iface_eqb g f) eqn:Q; [apply iface_eqb_eq in Q; subst; now left|right; intros [= ->]; rewrite (proj2 (iface_eqb_eq f f) eq_refl) in Q; discriminate]. }
    destruct CASE as [CS|CS].
    + left. intros d' Hd' Ef. destruct (K1 d' Hd') as (d & Hd & EI & X). rewrite CS in X. rewrite Ef in EI.
      replace (isDistancesOf d f) with true in X by (symmetry; apply (isDistances_iff _ _ _ Hc); [rewrite <- EI; exact Hf|exact Hf|now symmetry]).
      rewrite EI. eapply (set_get S d (vMin S) pc d' u c Hc); try rewrite <- EI; try assumption. apply R; exact Hd.
    + destruct A as [A|(s' & [<-|Hs] & A)]; [|contradiction|right; now exists s']. left. intros d' Hd' Ef. destruct (K1 d' Hd') as (d & Hd & EI & X). rewrite Ef in EI.
      assert (d' = d). { destruct (getInterface (vT S) (fst pc, s)) as [g|] eqn:G; [|exact X]. destruct (isDistancesOf d g) eqn:Q; [|exact X]. exfalso. apply CS. f_equal. symmetry. rewrite EI.
        apply (isDistances_iff _ _ _ Hc) in Q; [exact Q|rewrite <- EI; exact Hf|apply (getInterface_some _ _ _ G)]. }
      subst d'. apply A; [exact Hd|exact Ef].
Qed.
End C0.

Lemma in_containing c s : touches c s -> In s (containing_sides c).
Proof. destruct c, s; cbn; intros H; try contradiction; tauto. Qed.
Lemma mapM_ok_all {A B} (f : A -> res B) l : (forall a, In a l -> exists b, f a = Ok b) -> exists l', mapM f l = Ok l'.
Proof.
  induction l as [|a l IH]; intros H; cbn [mapM]; [now eexists|]. destruct (H a (or_introl eq_refl)) as (b & ->). cbn [bind]. destruct IH as (l' & ->); [intros; apply H; now right|]. eexists; reflexivity.
Qed.
Lemma sv_case t (Hc : consistent t) c c' : same_vertex t c c' -> fst c < tnp t \/ c = c'.
Proof.
  induction 1 as [|x y SV IH [G|G]]; [now right| |].
  - destruct IH as [IH|<-]; [now left|]. destruct G as (f & u & Hf & -> & ->). left. exact (end1_valid t Hc f u Hf).
  - destruct IH as [IH|<-]; [now left|]. destruct G as (f & u & Hf & -> & ->). left. exact (end2_valid t Hc f u Hf).
Qed.

Theorem c0_distance_pf : forall S pc S', consistent (vT S) -> fst pc < tnp (vT S) -> records_of S -> 0 < vMin S -> simple_bases (vT S) (vB S) (vMin S) -> setC0 S pc = Ok S' ->
  (forall s f u, touches (snd pc) s -> In f (tif (vT S)) -> if1 f = (fst pc, s) \/ if2 f = (fst pc, s) -> same_vertex (vT S) pc (end1 f u) ->
     ~ same_vertex (vT S) (end1 f false) (end1 f true) -> knots_match (vB S) f ->
     distanceOfVertex S' (end1 f u) (if1 f) = Ok (vMin S) /\ distanceOfVertex S' (end2 f u) (if2 f) = Ok (vMin S)) /\
  (forall c s, same_vertex (vT S) pc c -> ~ interface_side (vT S) (fst c, s) -> distanceOfVertex S' c (fst c, s) = Ok (vMin S)).
Proof.
  intros S pc S' Hc V R N SB H. destruct (setC0_pf S pc S' Hc V H) as (_ & SPL & _). pose proof H as H0. unfold setC0 in H0. rewrite (cornerList_cls _ Hc pc V) in H0. cbn [bind] in H0.
  pose proof (sides_fixed _ _ _ _ H0) as (T & B & _ & M & VV & _). cbn [vT vB vMin withVert vVert] in T, B, M, VV.
  assert (RT : forall c ps p, fst ps < tnp (vT S) -> findParameter (vB S) ps c (vMin S) = Ok p -> parametricDistance S' c ps = Ok p -> distanceOfVertex S' c ps = Ok (vMin S)).
  { intros c ps p Hp F P. destruct (SB _ Hp) as (b & E & K). destruct (K (1 - side_dir (snd ps))) as (L & mid & SO & LE). eapply (round_trip_pf S' c ps b L mid); rewrite ?B; try eassumption. lia. }
  assert (FP : forall c ps, fst ps < tnp (vT S) -> exists p, findParameter (vB S) ps c (vMin S) = Ok p).
  { intros c ps Hp. destruct (SB _ Hp) as (b & E & K). destruct (K (1 - side_dir (snd ps))) as (L & mid & SO & LE). destruct (simple_asc _ _ _ _ SO) as (AK & BK).
    pose proof (parameter_pf (vB S) ps c b (vMin S) _ E AK BK) as PP. cbv zeta in PP. cbn [length] in PP. rewrite app_length in PP. cbn [length] in PP. assert (X : 0 < vMin S < Datatypes.S (length mid + 1)) by lia. specialize (PP X).
    destruct (pos_on _ _); destruct PP as (x & _ & F); rewrite F; eexists; reflexivity. }
  split.
  - intros s f u TC Hf If SV ND KM.
    assert (BOTH : forall c, same_vertex (vT S) pc c -> forall ps, if1 f = ps \/ if2 f = ps -> findParameter (vB S) ps c (vMin S) = findParameter (vB S) (if1 f) (end1 f u) (vMin S) -> fst ps < tnp (vT S) -> distanceOfVertex S' c ps = Ok (vMin S)).
    { intros c SC ps IP FE Hp. destruct (FP c ps Hp) as (p & F). apply (RT c ps p Hp F).
      assert (SP : isSpecialVertex (vVert (withVert S (fold_left markSpecial (cls (vT S) pc) (vVert S)))) pc = true) by (cbn [withVert vVert]; rewrite <- VV; apply SPL; left; constructor).
      destruct (sides_set pc f u c (containing_sides (snd pc)) (withVert S (fold_left markSpecial (cls (vT S) pc) (vVert S))) S' Hc R V SP Hf SV SC ND H0) as (R' & K). cbn [vT vB vMin withVert] in K.
      unfold parametricDistance. rewrite (proj2 (SPL c)) by (left; exact SC). rewrite T, (getInterface_of (vT S) Hc f ps Hf IP). destruct R' as (RI & _). rewrite T in RI.
      apply (get_last (vT S) c f p (vDist S') Hc Hf).
      - intros d Hd. rewrite <- RI. now apply in_map.
      - intros d Hd Ed. rewrite <- (K (or_intror (ex_intro _ s (conj (in_containing _ _ TC) (getInterface_of (vT S) Hc f _ Hf If)))) d Hd Ed). now rewrite <- FE.
      - left. rewrite <- RI in Hf. apply in_map_iff in Hf. destruct Hf as (d & E & Hd). now exists d. }
    split; apply BOTH.
    + exact SV.
    + now left.
    + reflexivity.
    + exact (end1_valid _ Hc f u Hf).
    + apply (sv_trans _ _ _ _ SV). now apply ends_same.
    + now right.
    + symmetry. now apply find_both.
    + exact (end2_valid _ Hc f u Hf).
  - intros c s SC NI. pose proof (sv_valid _ Hc pc c V SC) as VC. destruct (FP c (fst c, s) VC) as (p & F). apply (RT c (fst c, s) p VC F). unfold parametricDistance. rewrite (proj2 (SPL c)) by (left; exact SC).
    rewrite T, (proj2 (getInterface_none (vT S) (fst c, s))), B, M; [exact F|]. apply not_true_iff_false. rewrite interface_side_iff. exact NI.
Qed.

Lemma find_enough t B n ps c : enough_knots t B n -> fst ps < tnp t -> exists p, findParameter B ps c n = Ok p.
Proof.
  intros EK Hp. destruct n as [|n]; [now exists 0%Z|]. destruct (EK _ Hp) as (b & E & K). destruct (K (1 - side_dir (snd ps))) as (AK & u & BK & L).
  pose proof (parameter_pf B ps c b (Datatypes.S n) _ E AK BK (conj (Nat.lt_0_succ n) L)) as PP. destruct (pos_on _ _); destruct PP as (x & _ & F); rewrite F; eexists; reflexivity.
Qed.

Lemma simple_enough t B n : simple_bases t B n -> enough_knots t B n.
Proof.
  intros SB p Hp. destruct (SB p Hp) as (b & E & K). exists b. split; [exact E|]. intros dir. destruct (K dir) as (L & mid & SO & LE). destruct (simple_asc _ _ _ _ SO) as (AK & BK).
  split; [exact AK|]. eexists. split; [exact BK|]. cbn [length]. rewrite app_length. cbn [length]. lia.
Qed.

Theorem setC0_ok_pf : forall S pc, consistent (vT S) -> fst pc < tnp (vT S) -> records_of S -> enough_knots (vT S) (vB S) (vMin S) -> exists S', setC0 S pc = Ok S'.
Proof.
  intros S pc Hc V R EK. unfold setC0. rewrite (cornerList_cls _ Hc pc V). cbn [bind].
  assert (G : forall l S0, vT S0 = vT S -> vB S0 = vB S -> vMin S0 = vMin S -> records_of S0 -> exists S', foldM (fun S s => setSideDist S pc (fst pc, s)) l S0 = Ok S').
  { induction l as [|s l IH]; intros S0 T B M R0; cbn [foldM]; [now exists S0|].
    assert (E : exists S1, setSideDist S0 pc (fst pc, s) = Ok S1).
    { unfold setSideDist. destruct (getInterface _ _) as [g|]; [|now exists S0]. destruct (mapM_ok_all (fun d => if isDistancesOf d g then setParamDist S0 d (vMin S0) pc else Ok d) (vDist S0)) as (l' & E); [|rewrite E; eexists; reflexivity].
      intros d Hd. destruct (isDistancesOf d g); [|now exists d]. destruct R0 as (RI & RC). assert (Hi : In (dIf d) (tif (vT S))) by (rewrite <- T, <- RI; now apply in_map). destruct (RC d Hd) as (P1 & P2).
      unfold setParamDist. rewrite T, P1, P2, !(cornerList_cls _ Hc) by now apply end1_valid. cbn [bind].
      assert (FE : forall w, (fst (end1 (dIf d) w) =? fst (if1 (dIf d))) = true) by (intros; apply Nat.eqb_refl). rewrite !FE, B, M.
      assert (FO : forall w, exists p, findParameter (vB S) (if1 (dIf d)) (end1 (dIf d) w) (vMin S) = Ok p) by (intros; apply (find_enough (vT S)); [exact EK|exact (end1_valid _ Hc (dIf d) w Hi)]).
      destruct (FO false) as (p & ->), (FO true) as (q & ->). cbn [bind]. destruct (existsb _ _); [destruct (isSpecialVertex _ _)|destruct (_ && _)]; eexists; reflexivity. }
    destruct E as (S1 & E). rewrite E. cbn [bind]. pose proof (setSideDist_fixed _ _ _ _ E) as (T1 & B1 & _ & M1 & _). apply IH; try congruence. apply (side_records _ _ _ _ R0 E). }
  apply G; try reflexivity. exact R.
Qed.

Theorem init_records_pf : forall t B incr m S, consistent t -> start t B incr m = Ok S -> records_of S /\ vertex_wise S.
Proof.
  intros t B incr m S Hc H. unfold start in H. set (n := Nat.max _ m) in *. destruct (initVertices t) as [vs|] eqn:E; [|discriminate]. cbn [bind] in H.
  destruct (setDistanceOfAllVertices t B vs incr n) as [ds|] eqn:D; [|discriminate]. cbn [bind] in H. injection H as <-. split.
  - unfold records_of. cbn [vT vDist]. assert (K : forall f d, newDistances t B vs incr n f = Ok d -> dIf d = f /\ dC1 d = end1 f false /\ dC2 d = end1 f true).
    { intros f d H. unfold newDistances in H. destruct (vget _ _); [|discriminate]. cbn [bind] in H. destruct (functionsOnSide _ _); [|discriminate]. cbn [bind] in H. destruct (findParameter _ _ _ _); [|discriminate]. cbn [bind] in H.
      destruct (findParameter _ _ _ _); [|discriminate]. cbn [bind] in H. injection H as <-. repeat split. }
    split.
    + rewrite <- (map_id (tif t)). apply (mapM_fst _ dIf (fun f => f) _ _ D). intros f d _ H. apply (K f d H).
    + intros d Hd. destruct (mapM_in _ _ _ D d Hd) as (f & _ & H). destruct (K f d H) as (-> & P & Q). now split.
  - destruct (initial_pf t Hc) as (vs' & E' & SP & LI). rewrite E in E'. injection E' as <-. intros c c' SV. cbn [vT vVert] in *.
    destruct (sv_case t Hc c c' SV) as [VC| ->]; [|now split]. pose proof (sv_valid t Hc c c' VC SV) as VC'. pose proof (sv_sym t Hc c c' VC SV) as VS.
    assert (IV : forall a b, fst a < tnp t -> same_vertex t a b -> interior_vertex t a -> interior_vertex t b) by (intros a b Va Sab H x s Sx; apply (H x s), (sv_trans t a b x Sab Sx)).
    assert (HV : forall a b v, same_vertex t a b -> same_vertex t b a -> has_valence t a v -> has_valence t b v).
    { intros a b v Sab Sba (l & Nl & Hl & Ll). exists l. split; [exact Nl|]. split; [|exact Ll]. intros x. rewrite Hl. split; intros K; [exact (sv_trans t b a x Sba K)|exact (sv_trans t a b x Sab K)]. }
    split.
    + apply Bool.eq_true_iff_eq. rewrite !SP. split; intros (A & I & v & W & NV); (split; [assumption|]); (split; [eapply IV; [|eassumption|exact I]; assumption|]); exists v; (split; [eapply HV; [| |exact W]; assumption|exact NV]).
    + rewrite !LI. split; intros (A & I); (split; [assumption|eapply IV; [|eassumption|exact I]; assumption]).
Qed.

Theorem c0_keeps_pf : forall S pc S', consistent (vT S) -> fst pc < tnp (vT S) -> records_of S -> vertex_wise S -> setC0 S pc = Ok S' ->
  records_of S' /\ vertex_wise S'.
Proof.
  intros S pc S' Hc V R VW H. destruct (setC0_pf S pc S' Hc V H) as (T & SP & LI). split.
  - unfold setC0 in H. rewrite (cornerList_cls _ Hc pc V) in H. cbn [bind] in H. revert H.
    assert (G : forall l S0, records_of S0 -> foldM (fun S s => setSideDist S pc (fst pc, s)) l S0 = Ok S' -> records_of S').
    { induction l as [|s l IH]; intros S0 R0 H; cbn [foldM] in H; [injection H as <-; exact R0|]. destruct (setSideDist S0 pc (fst pc, s)) as [S1|] eqn:E; [|discriminate]. cbn [bind] in H. apply (IH S1); [apply (side_records _ _ _ _ R0 E)|exact H]. }
    apply G. exact R.
  - intros c c' SV. rewrite T in SV. destruct (VW c c' SV) as (A & B).
    assert (X : same_vertex (vT S) pc c <-> same_vertex (vT S) pc c').
    { split; intros K; [exact (sv_trans _ _ _ _ K SV)|]. destruct (sv_case _ Hc c c' SV) as [VC| ->]; [|exact K]. exact (sv_trans _ _ _ _ K (sv_sym _ Hc c c' VC SV)). }
    split; [|rewrite !LI, X, B; reflexivity]. apply Bool.eq_true_iff_eq. rewrite !SP, X, A. reflexivity.
Qed.

Theorem counts_pf : forall S c s, consistent (vT S) -> fst c < tnp (vT S) ->
  (simple_bases (vT S) (vB S) (vMin S) -> 0 < vMin S -> isSpecialVertex (vVert S) c = true -> ~ interface_side (vT S) (fst c, s) -> distanceOfVertex S c (fst c, s) = Ok (vMin S)) /\
  (forall b, nth_error (vB S) (fst c) = Some b -> let n := Nat.min (degree b (1 - side_dir s)) (vIncr S + 1) in
     simple_bases (vT S) (vB S) n -> 0 < degree b (1 - side_dir s) -> isSpecialVertex (vVert S) c = false -> In c (map fst (vVert S)) -> distanceOfVertex S c (fst c, s) = Ok n) /\
  (~ In c (map fst (vVert S)) -> distanceOfVertex S c (fst c, s) = Ok 0).
Proof.
  intros S c s Hc V.
  assert (RT : forall n p, simple_bases (vT S) (vB S) n -> 0 < n -> findParameter (vB S) (fst c, s) c n = Ok p -> parametricDistance S c (fst c, s) = Ok p -> distanceOfVertex S c (fst c, s) = Ok n).
  { intros n p SB N F P. destruct (SB _ V) as (b & E & K). destruct (K (1 - side_dir s)) as (L & mid & SO & LE). eapply (round_trip_pf S c (fst c, s) b L mid); try eassumption. lia. }
  assert (LI : existsb (fun e => pc_eqb c (fst e)) (vVert S) = true <-> In c (map fst (vVert S))).
  { rewrite existsb_exists, in_map_iff. split; intros (e & A & B); exists e; [apply pc_eqb_eq in B|]; (split; [congruence|]); [exact A|]. now apply pc_eqb_eq. }
  split; [|split].
  - intros SB N SP NI. destruct (find_enough _ _ _ (fst c, s) c (simple_enough _ _ _ SB) V) as (p & F). apply (RT _ p SB N F). unfold parametricDistance. rewrite SP.
    rewrite (proj2 (getInterface_none (vT S) (fst c, s))); [exact F|]. apply not_true_iff_false. rewrite interface_side_iff. exact NI.
  - intros b E n SB DP SP HL. destruct (find_enough _ _ _ (fst c, s) c (simple_enough _ _ _ SB) V) as (p & F). apply (RT _ p SB); [unfold n; lia|exact F|]. unfold parametricDistance. rewrite SP, (proj2 LI HL). unfold vget. rewrite E. cbn [bind fst snd]. exact F.
  - intros NL. unfold distanceOfVertex, parametricDistance.
    assert (SP : isSpecialVertex (vVert S) c = false).
    { unfold isSpecialVertex. destruct (find _ _) as [e|] eqn:F; [|reflexivity]. apply find_some in F. exfalso. apply NL, LI. apply existsb_exists. now exists e. }
    rewrite SP. destruct (existsb (fun e => pc_eqb c (fst e)) (vVert S)); [exfalso; apply NL, LI; reflexivity|]. reflexivity.
Qed.
