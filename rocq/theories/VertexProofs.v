(** Proofs for C34, C35, C36. *)
From Verif Require Import Common TopoModel TopoSpec IndexSpec SmoothSpec SmoothSpec2 VertexModel VertexSpec ListLemmas TopoProofs GeometryProofs.
Open Scope nat_scope.

(** ** C34 *)
Lemma ps_eqb_eq a b : ps_eqb a b = true <-> a = b.
Proof.
  destruct a as (p, s), b as (q, s'). unfold ps_eqb. cbn [fst snd]. rewrite andb_true_iff, Nat.eqb_eq. destruct s, s'; cbn; intuition congruence.
Qed.
Lemma ps_eqb_neq a b : ps_eqb a b = false <-> a <> b.
Proof. rewrite <- not_true_iff_false, ps_eqb_eq. tauto. Qed.
Lemma pc_eqb_eq a b : pc_eqb a b = true <-> a = b.
Proof.
  destruct a as (p, s), b as (q, s'). unfold pc_eqb. cbn [fst snd]. rewrite andb_true_iff, Nat.eqb_eq. destruct s, s'; cbn; intuition congruence.
Qed.
Lemma pc_eqb_neq a b : pc_eqb a b = false <-> a <> b.
Proof. rewrite <- not_true_iff_false, pc_eqb_eq. tauto. Qed.

Lemma interface_side_iff t ps : isInterface t ps = true <-> interface_side t ps.
Proof.
  unfold isInterface, interface_side. rewrite existsb_exists. split; intros (f & H & E); exists f; (split; [exact H|]).
  - apply orb_prop in E. rewrite !ps_eqb_eq in E. exact E.
  - rewrite orb_true_iff, !ps_eqb_eq. exact E.
Qed.

Definition runW (t : topo) (h : list (pside * Q)) (w : list (pside * Q)) := fold_left (fun w e => fst (setWeight t w (fst e) (snd e))) h w.

Lemma find_map_upd (ps : pside) (x : Q) : forall (w : list (pside * Q)) (q : pside), find (fun e => ps_eqb (fst e) q) (map (fun e => if ps_eqb (fst e) ps then (fst e, x) else e) w)
  = match find (fun e => ps_eqb (fst e) q) w with Some e => Some (if ps_eqb (fst e) ps then (fst e, x) else e) | None => None end.
Proof.
  induction w as [|e w IH]; intros q; [reflexivity|]. cbn [map find].
  destruct (ps_eqb (fst e) ps) eqn:E; cbn [fst]; destruct (ps_eqb (fst e) q) eqn:E'; rewrite ?E; try apply IH; reflexivity.
Qed.
Lemma find_app {A} (f : A -> bool) l l' : find f (l ++ l') = match find f l with Some x => Some x | None => find f l' end.
Proof. induction l as [|a l IH]; cbn; [reflexivity|]. destruct (f a); [reflexivity|exact IH]. Qed.

Definition only_ifaces t (w : list (pside * Q)) := forall e, In e w -> isInterface t (fst e) = true.

Lemma only_set t w ps x : only_ifaces t w -> only_ifaces t (fst (setWeight t w ps x)).
Proof.
  intros H. unfold setWeight. assert (M : only_ifaces t (map (fun e => if ps_eqb (fst e) ps then (fst e, x) else e) w)).
  { intros e He. apply in_map_iff in He. destruct He as (e' & <- & He). destruct (ps_eqb (fst e') ps); cbn [fst]; apply H; exact He. }
  destruct (negb _ && isInterface t ps) eqn:E; cbn [fst]; [|exact M]. apply andb_prop in E. intros e He. apply in_app_iff in He.
  destruct He as [He|[<-|[]]]; [now apply M|apply E].
Qed.

Lemma existsb_find {A} (f : A -> bool) l : existsb f l = match find f l with Some _ => true | None => false end.
Proof. induction l as [|a l IH]; cbn; [reflexivity|]. destruct (f a); [reflexivity|exact IH]. Qed.

Lemma get_set t w ps x q : only_ifaces t w -> getWeight (fst (setWeight t w ps x)) q = if isInterface t ps && ps_eqb ps q then x else getWeight w q.
Proof.
  intros O. unfold setWeight, getWeight. rewrite existsb_find.
  destruct (find (fun e => ps_eqb (fst e) ps) w) as [e|] eqn:F; cbn [negb andb fst].
  - rewrite find_map_upd. pose proof (find_some _ _ F) as (Hin & E). apply ps_eqb_eq in E. pose proof (O e Hin) as IF. rewrite E in IF. rewrite IF. cbn [andb].
    destruct (ps_eqb ps q) eqn:PQ.
    + apply ps_eqb_eq in PQ. subst q. rewrite F. rewrite E. rewrite (proj2 (ps_eqb_eq ps ps) eq_refl). reflexivity.
    + destruct (find (fun e => ps_eqb (fst e) q) w) as [e2|] eqn:F2; [|reflexivity]. pose proof (find_some _ _ F2) as (_ & E2). apply ps_eqb_eq in E2.
      replace (ps_eqb (fst e2) ps) with false; [reflexivity|]. symmetry. apply ps_eqb_neq. apply ps_eqb_neq in PQ. congruence.
  - assert (ID : map (fun e => if ps_eqb (fst e) ps then (fst e, x) else e) w = w).
    { clear - F. induction w as [|e w IH]; [reflexivity|]. cbn in F |- *. destruct (ps_eqb (fst e) ps); [discriminate|]. now rewrite IH. }
    rewrite ID. destruct (isInterface t ps); cbn [fst andb]; [|reflexivity]. rewrite find_app. cbn [find fst]. destruct (ps_eqb ps q) eqn:PQ.
    + apply ps_eqb_eq in PQ. subst q. rewrite F. reflexivity.
    + destruct (find (fun e => ps_eqb (fst e) q) w); reflexivity.
Qed.

Lemma run_only t h : forall w, only_ifaces t w -> only_ifaces t (runW t h w).
Proof. induction h as [|e h IH]; intros w H; [exact H|]. cbn [runW fold_left]. apply IH, only_set, H. Qed.

Theorem weights_pf : forall t h ps, let w := runW t h [] in
  (forall x, interface_side t ps -> latest h ps x -> getWeight w ps = x) /\
  (~ interface_side t ps \/ ~ In ps (map fst h) -> getWeight w ps = 1%Q) /\
  (forall x, snd (setWeight t w ps x) = true <-> interface_side t ps).
Proof.
  intros t h ps w. assert (O0 : only_ifaces t []) by intros e [].
  assert (NOT : forall h w0, only_ifaces t w0 -> isInterface t ps = false \/ ~ In ps (map fst h) -> getWeight (runW t h w0) ps = getWeight w0 ps).
  { induction h0 as [|(q, x) h0 IH]; intros w0 O H; [reflexivity|]. cbn [runW fold_left]. change (fold_left _ h0 ?z) with (runW t h0 z). cbn [fst snd].
    rewrite IH; [|now apply only_set|destruct H as [H|H]; [now left|right; intros K; apply H; now right]].
    rewrite get_set by exact O. destruct (isInterface t q && ps_eqb q ps) eqn:E; [|reflexivity]. exfalso. apply andb_prop in E. destruct E as (E1 & E2).
    apply ps_eqb_eq in E2. subst q. destruct H as [H|H]; [congruence|]. apply H. now left. }
  split; [|split].
  - intros x HI (h1 & h2 & -> & N). apply interface_side_iff in HI. unfold w, runW. rewrite fold_left_app. cbn [fold_left fst snd].
    change (fold_left _ h1 []) with (runW t h1 []). change (fold_left _ h2 ?z) with (runW t h2 z).
    rewrite NOT; [|apply only_set, run_only, O0|now right]. rewrite get_set by (apply run_only, O0). rewrite HI, (proj2 (ps_eqb_eq ps ps) eq_refl). reflexivity.
  - intros H. unfold w. rewrite NOT; [reflexivity|exact O0|]. destruct H as [H|H]; [left|now right].
    destruct (isInterface t ps) eqn:E; [exfalso; now apply H, interface_side_iff|reflexivity].
  - intros x. rewrite <- interface_side_iff. unfold setWeight. rewrite existsb_find. pose proof (run_only t h [] O0) as O. fold w in O.
    destruct (find (fun e => ps_eqb (fst e) ps) w) as [e|] eqn:F; cbn [negb andb snd].
    + pose proof (find_some _ _ F) as (Hin & E). apply ps_eqb_eq in E. rewrite <- E. rewrite (O e Hin). tauto.
    + destruct (isInterface t ps); cbn [snd]; tauto.
Qed.

(** ** C35 *)
Lemma mark_special vs c c' : isSpecialVertex (markSpecial vs c) c' = pc_eqb c c' || isSpecialVertex vs c'.
Proof.
  unfold markSpecial, isSpecialVertex. rewrite existsb_find.
  assert (FM : find (fun e => pc_eqb c' (fst e)) (map (fun e => if pc_eqb (fst e) c then (fst e, true) else e) vs)
    = match find (fun e => pc_eqb c' (fst e)) vs with Some e => Some (if pc_eqb (fst e) c then (fst e, true) else e) | None => None end).
  { clear. induction vs as [|e vs IH]; [reflexivity|]. cbn [map find]. destruct (pc_eqb (fst e) c) eqn:E; cbn [fst]; destruct (pc_eqb c' (fst e)); rewrite ?E; try apply IH; reflexivity. }
  destruct (find (fun e => pc_eqb (fst e) c) vs) as [e|] eqn:F.
  - rewrite FM. destruct (find (fun e => pc_eqb c' (fst e)) vs) as [e'|] eqn:F'.
    + apply find_some in F'. destruct F' as (_ & E'). apply pc_eqb_eq in E'. subst c'. destruct (pc_eqb (fst e') c) eqn:Q; cbn [snd].
      * apply pc_eqb_eq in Q. rewrite Q. rewrite (proj2 (pc_eqb_eq c c) eq_refl). reflexivity.
      * replace (pc_eqb c (fst e')) with false; [reflexivity|]. symmetry. apply pc_eqb_neq. apply pc_eqb_neq in Q. congruence.
    + rewrite orb_false_r. symmetry. apply pc_eqb_neq. intros <-. apply find_some in F. destruct F as (Hin & E). apply (find_none _ _ F') in Hin.
      apply pc_eqb_eq in E. rewrite E in Hin. rewrite (proj2 (pc_eqb_eq c c) eq_refl) in Hin. discriminate.
  - rewrite find_app, FM. cbn [find fst]. destruct (find (fun e => pc_eqb c' (fst e)) vs) as [e'|] eqn:F'.
    + apply find_some in F'. destruct F' as (Hin & E'). apply pc_eqb_eq in E'. subst c'. pose proof (find_none _ _ F _ Hin) as Q. cbn in Q. rewrite Q.
      replace (pc_eqb c (fst e')) with false; [reflexivity|]. symmetry. apply pc_eqb_neq. apply pc_eqb_neq in Q. congruence.
    + destruct (pc_eqb c' c) eqn:Q; [apply pc_eqb_eq in Q; subst; rewrite (proj2 (pc_eqb_eq c c) eq_refl); reflexivity|].
      replace (pc_eqb c c') with false; [reflexivity|]. symmetry. apply pc_eqb_neq. apply pc_eqb_neq in Q. congruence.
Qed.

Lemma mark_all l : forall vs c', isSpecialVertex (fold_left markSpecial l vs) c' = existsb (pc_eqb c') l || isSpecialVertex vs c'.
Proof.
  induction l as [|c l IH]; intros vs c'; [reflexivity|]. cbn [fold_left existsb]. rewrite IH, mark_special.
  replace (pc_eqb c c') with (pc_eqb c' c); [destruct (pc_eqb c' c), (existsb (pc_eqb c') l), (isSpecialVertex vs c'); reflexivity|].
  destruct (pc_eqb c c') eqn:Q; [apply pc_eqb_eq in Q; subst; apply (proj2 (pc_eqb_eq c' c') eq_refl)|]. apply pc_eqb_neq in Q. apply pc_eqb_neq. congruence.
Qed.
Lemma mark_listed l : forall vs c', In c' (map fst (fold_left markSpecial l vs)) <-> In c' l \/ In c' (map fst vs).
Proof.
  assert (ONE : forall vs c c', In c' (map fst (markSpecial vs c)) <-> c = c' \/ In c' (map fst vs)).
  { intros vs c c'. unfold markSpecial. assert (M : map fst (map (fun e : pcorner * bool => if pc_eqb (fst e) c then (fst e, true) else e) vs) = map fst vs).
    { rewrite map_map. apply map_ext. intros e. destruct (pc_eqb (fst e) c); reflexivity. }
    destruct (existsb _ vs) eqn:E; [rewrite M|rewrite map_app, in_app_iff, M; cbn; tauto].
    split; [tauto|]. intros [<-|H]; [|exact H]. apply existsb_exists in E. destruct E as (e & H & E). apply pc_eqb_eq in E. rewrite <- E. now apply in_map. }
  induction l as [|c l IH]; intros vs c'; [cbn; tauto|]. cbn [fold_left In]. rewrite IH, ONE. tauto.
Qed.

Lemma setSideDist_fixed S pc ps S' : setSideDist S pc ps = Ok S' -> vT S' = vT S /\ vB S' = vB S /\ vIncr S' = vIncr S /\ vMin S' = vMin S /\ vVert S' = vVert S /\ vWeights S' = vWeights S.
Proof.
  unfold setSideDist. destruct (getInterface (vT S) ps) as [g|]; [|intros [= <-]; repeat split]. destruct (mapM _ (vDist S)); [|discriminate]. cbn [bind]. intros [= <-]. repeat split.
Qed.
Lemma sides_fixed pc l : forall S S', foldM (fun S s => setSideDist S pc (fst pc, s)) l S = Ok S' ->
  vT S' = vT S /\ vB S' = vB S /\ vIncr S' = vIncr S /\ vMin S' = vMin S /\ vVert S' = vVert S /\ vWeights S' = vWeights S.
Proof.
  induction l as [|s l IH]; intros S S' H; cbn [foldM] in H; [injection H as <-; repeat split|].
  destruct (setSideDist S pc (fst pc, s)) as [S1|] eqn:E; [|discriminate]. cbn [bind] in H. apply IH in H. apply setSideDist_fixed in E.
  destruct H as (A & B & C & D & F & G), E as (A' & B' & C' & D' & F' & G'). repeat split; congruence.
Qed.

Theorem setC0_pf : forall S pc S', consistent (vT S) -> fst pc < tnp (vT S) -> setC0 S pc = Ok S' ->
  vT S' = vT S /\
  (forall c, isSpecialVertex (vVert S') c = true <-> same_vertex (vT S) pc c \/ isSpecialVertex (vVert S) c = true) /\
  (forall c, In c (map fst (vVert S')) <-> same_vertex (vT S) pc c \/ In c (map fst (vVert S))).
Proof.
  intros S pc S' Hc V H. unfold setC0 in H. rewrite (cornerList_cls (vT S) Hc pc V) in H. cbn [bind] in H. apply sides_fixed in H. cbn in H.
  destruct H as (A & B & C & D & F & G). split; [exact A|]. split; intros c.
  - rewrite F, mark_all, orb_true_iff, existsb_pc. now rewrite (same_vertex_cls (vT S) Hc pc c V).
  - rewrite F, mark_listed. now rewrite (same_vertex_cls (vT S) Hc pc c V).
Qed.

Theorem setC0s_pf : forall l S S', consistent (vT S) -> (forall pc, In pc l -> fst pc < tnp (vT S)) -> foldM setC0 l S = Ok S' ->
  vT S' = vT S /\ forall c, isSpecialVertex (vVert S') c = true <-> (exists pc, In pc l /\ same_vertex (vT S) pc c) \/ isSpecialVertex (vVert S) c = true.
Proof.
  induction l as [|pc l IH]; intros S S' Hc V H; cbn [foldM] in H.
  - injection H as <-. split; [reflexivity|]. intros c. split; [now right|]. intros [(pc & [] & _)|K]; exact K.
  - destruct (setC0 S pc) as [S1|] eqn:E; [|discriminate]. cbn [bind] in H. destruct (setC0_pf S pc S1 Hc (V pc (or_introl eq_refl)) E) as (T & SP & _).
    destruct (IH S1 S') as (T' & SP'); [rewrite T; exact Hc|intros; rewrite T; apply V; now right|exact H|].
    split; [congruence|]. intros c. rewrite SP', SP, T. split.
    + intros [(q & Hq & Q)|[Q|Q]]; [left; exists q; split; [now right|exact Q]|left; exists pc; split; [now left|exact Q]|now right].
    + intros [(q & [<-|Hq] & Q)|Q]; [right; now left|left; now exists q|right; now right].
Qed.

(** initial special vertices *)
Section Init.
Context (t : topo) (Hc : consistent t).
Lemma in_corners n c : In c (all_corners n) <-> fst c < n.
Proof.
  unfold all_corners. rewrite in_flat_map. split.
  - intros (p & Hp & H). apply in_seq in Hp. apply in_map_iff in H. destruct H as (k & <- & _). cbn. lia.
  - intros H. exists (fst c). split; [apply in_seq; lia|]. apply in_map_iff. exists (snd c). split; [now destruct c|]. destruct (snd c); cbn; tauto.
Qed.
Lemma interior_lists four : exists ll, interiorVertices t four = Ok ll /\
  forall c, In c (concat ll) <-> fst c < tnp t /\ inner t c = true /\ (valence t c =? 4) = four.
Proof.
  set (ok := fun c => inner t c && Bool.eqb (valence t c =? 4) four && negb (existsb (fun k => fst k <? fst c) (cls t c))).
  assert (X : forall l acc, (forall c, In c l -> fst c < tnp t) -> foldM (fun acc pc =>
    do l <- cornerList t pc;
    let isCycle := vertex_inner t l in
    let alreadyReached := existsb (fun k => fst k <? fst pc) l in
    if isCycle && Bool.eqb (length l =? 4) four && negb alreadyReached then Ok (acc ++ [l]) else Ok acc) l acc = Ok (acc ++ map (cls t) (filter ok l))).
  { induction l as [|c l IH]; intros acc H; [cbn; now rewrite app_nil_r|]. cbn [foldM]. rewrite (cornerList_cls t Hc c (H c (or_introl eq_refl))). cbn [bind].
    cbv zeta. fold (inner t c). fold (valence t c). fold (ok c). cbn [filter]. destruct (ok c); cbn [bind].
    - rewrite IH by (intros; apply H; now right). cbn [map]. now rewrite <- app_assoc.
    - apply IH. intros; apply H; now right. }
  unfold interiorVertices. rewrite X by (intros c H; now apply in_corners). eexists. split; [reflexivity|]. cbn [app]. intros c. rewrite in_concat. split.
  - intros (l & Hl & Hin). apply in_map_iff in Hl. destruct Hl as (a & <- & Ha). apply filter_In in Ha. destruct Ha as (Ha & Hok). apply in_corners in Ha.
    unfold ok in Hok. rewrite !andb_true_iff in Hok. destruct Hok as ((H1 & H2) & _). apply eqb_prop in H2.
    split; [exact (cls_valid t Hc a c Ha Hin)|]. rewrite (inner_cls t Hc a c Ha Hin), (valence_cls t Hc a c Ha Hin). now split.
  - intros (V & H1 & H2). destruct (cls t c) as [|x0 l0] eqn:EC; [pose proof (cls_self t Hc c V) as Q; rewrite EC in Q; destruct Q|].
    assert (MIN : exists m, In m (cls t c) /\ forall x, In x (cls t c) -> fst m <= fst x).
    { rewrite EC. clear. revert x0. induction l0 as [|b l IH]; intros a; [exists a; split; [now left|intros x [<-|[]]; lia]|].
      destruct (IH b) as (m & Hm & HM). destruct (le_lt_dec (fst a) (fst m)).
      - exists a. split; [now left|]. intros x [<-|Hx]; [lia|]. specialize (HM x Hx). lia.
      - exists m. split; [now right|]. intros x [<-|Hx]; [lia|]. now apply HM. }
    destruct MIN as (m & Hm & HM). pose proof (cls_valid t Hc c m V Hm) as Vm. exists (cls t m). split; [|now apply (in_cls_sym t Hc)].
    apply in_map_iff. exists m. split; [reflexivity|]. apply filter_In. split; [now apply in_corners|]. unfold ok.
    rewrite (inner_cls t Hc c m V Hm), (valence_cls t Hc c m V Hm), H1, H2, eqb_reflx. cbn [andb]. apply negb_true_iff, existsb_false. intros x Hx. apply Nat.ltb_ge, HM.
    eapply Permutation_in; [apply Permutation_sym, (cls_perm t Hc c m V Hm)|exact Hx].
Qed.

Lemma valence_unique c v v' : validc t c -> has_valence t c v -> has_valence t c v' -> v = v'.
Proof. intros V A B. apply (has_valence_iff t Hc c v V) in A. apply (has_valence_iff t Hc c v' V) in B. congruence. Qed.

Lemma find_map_const (b : bool) l c : find (fun e : pcorner * bool => pc_eqb c (fst e)) (map (fun c => (c, b)) l) = if existsb (pc_eqb c) l then Some (c, b) else None.
Proof. induction l as [|a l IH]; [reflexivity|]. cbn. destruct (pc_eqb c a) eqn:E; [apply pc_eqb_eq in E; now subst|exact IH]. Qed.

Theorem initial_pf : exists vs, initVertices t = Ok vs /\
  (forall c, isSpecialVertex vs c = true <-> fst c < tnp t /\ interior_vertex t c /\ exists v, has_valence t c v /\ v <> 4) /\
  (forall c, In c (map fst vs) <-> fst c < tnp t /\ interior_vertex t c).
Proof.
  destruct (interior_lists false) as (ev & E & HE). destruct (interior_lists true) as (ov & O & HO). unfold initVertices. rewrite E, O. cbn [bind].
  eexists. split; [reflexivity|]. split; intros c.
  - unfold isSpecialVertex. rewrite find_app, !find_map_const.
    assert (K : existsb (pc_eqb c) (concat ev) = true <-> fst c < tnp t /\ interior_vertex t c /\ exists v, has_valence t c v /\ v <> 4).
    { rewrite existsb_pc, HE, Nat.eqb_neq. split.
      - intros (V & H1 & H2). split; [exact V|]. split; [now apply (interior_vertex_iff t Hc c V)|]. exists (valence t c). split; [now apply (has_valence_iff t Hc c _ V)|exact H2].
      - intros (V & H1 & v & H2 & H3). split; [exact V|]. split; [now apply (interior_vertex_iff t Hc c V)|]. apply (has_valence_iff t Hc c v V) in H2. congruence. }
    rewrite <- K. destruct (existsb (pc_eqb c) (concat ev)); cbn [snd]; [tauto|]. destruct (existsb (pc_eqb c) (concat ov)); cbn [snd]; tauto.
  - rewrite map_app, !map_map, in_app_iff, !map_id, HE, HO. split.
    + intros [(V & H & _)|(V & H & _)]; (split; [exact V|now apply (interior_vertex_iff t Hc c V)]).
    + intros (V & H). apply (interior_vertex_iff t Hc c V) in H. destruct (valence t c =? 4); tauto.
Qed.
End Init.

(** ** C36 *)
Lemma usub_small a b : b <= a -> (Z.of_nat a < 2 ^ 32)%Z -> usub a b = Z.of_nat (a - b).
Proof. intros H L. unfold usub. rewrite Z.mod_small; lia. Qed.

Theorem determine_pf : forall ls rs li ri dist degree max, degree <= dist -> 2 * degree <= max -> (Z.of_nat max < 2 ^ 32)%Z ->
  let wl := wanted ls li dist degree in let wr := wanted rs ri dist degree in
  exists l r, determineValues ls rs li ri dist degree max = (Z.of_nat l, Z.of_nat r) /\
    l <= wl /\ r <= wr /\ l + r = Nat.min (wl + wr) max /\ (ls = false -> l = wl) /\ (rs = false -> r = wr).
Proof.
  intros ls rs li ri dist degree max D M L. cbv zeta. pose proof (Nat.div_mod max 2) as DM. pose proof (Nat.mod_upper_bound max 2) as MB.
  unfold determineValues, wanted. destruct ls, rs; cbn [andb].
  - destruct (Nat.leb_spec (dist + dist) max).
    + exists dist, dist. repeat split; try discriminate; lia.
    + exists (max / 2), (max - max / 2). rewrite usub_small by lia. repeat split; try discriminate; lia.
  - destruct ri; cbn [andb].
    + rewrite usub_small by lia. destruct (Z.ltb_spec (Z.of_nat (max - degree)) (Z.of_nat dist)).
      * exists (max - degree), degree. repeat split; try discriminate; lia.
      * exists dist, degree. repeat split; try discriminate; lia.
    + exists (if max <? dist then max else dist), 0. destruct (Nat.ltb_spec max dist); repeat split; try discriminate; lia.
  - destruct li; cbn [andb].
    + rewrite usub_small by lia. destruct (Z.ltb_spec (Z.of_nat (max - degree)) (Z.of_nat dist)).
      * exists degree, (max - degree). repeat split; try discriminate; lia.
      * exists degree, dist. repeat split; try discriminate; lia.
    + exists 0, (if max <? dist then max else dist). destruct (Nat.ltb_spec max dist); repeat split; try discriminate; lia.
  - exists (if li then degree else 0), (if ri then degree else 0). destruct li, ri; repeat split; try discriminate; lia.
Qed.

(** patches with fewer than 2*degree functions along the side: the two parts overlap, also through the unsigned difference *)
Theorem determine_refuted_pf : exists ls rs li ri dist degree max l r, degree <= dist /\ determineValues ls rs li ri dist degree max = (Z.of_nat l, Z.of_nat r) /\ max < l + r.
Proof. exists true, false, false, true, 3, 3, 2, 3, 3. split; [lia|]. split; [vm_compute; reflexivity|lia]. Qed.
