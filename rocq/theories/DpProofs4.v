(** The smoothing matrix of gsDPatch: statements of C66. *)
From Verif Require Import Common TopoModel BaseModel BaseModel2 IndexSpec TopoSpec SmoothSpec SmoothSpec2 RingModel RingSpec DpModel DpSpec
  IndexProofs IndexTopoProofs ListLemmas TopoProofs PointProofs MapperProofs CountProofs MatrixProofs HandlerProofs ResultProofs GeometryProofs
  RingProofs RingProofs2 RingProofs3 DpProofs DpProofs2 DpProofs3.
From Coq Require Import ZifyBool.

(** in a row, the functions near its ends are those on the two outermost rows of the adjacent sides *)
Lemma touches_on c s : touches c s <-> on_side c s = true.
Proof. destruct c, s; simpl; split; intros; auto; try discriminate; contradiction. Qed.
Lemma central_without b s o l : ring_like b -> o < 2 -> incl l (roff b s o) -> central b s l = without l (dnear b s o).
Proof.
  intros Hb Ho Hl. unfold central, without. apply filter_ext_in. intros x Hx. f_equal. apply eq_iff_eq_true. rewrite !existsb_exists. split.
  - intros (s' & Hs' & E). apply andb_prop in E. destruct E as [E1 E2]. apply negb_true_iff, Nat.eqb_neq in E1.
    assert (exists k, k < 2 /\ In x (roff b s' k)) as (k & Hk & Hin).
    { apply orb_prop in E2. destruct E2 as [E2|E2]; apply existsb_exists in E2; destruct E2 as (y & Hy & Ey); apply Nat.eqb_eq in Ey; subst y; eauto. }
    assert (exists c, on_side c s = true /\ on_side c s' = true /\ s <> s') as (c & C1 & C2 & C3).
    { destruct s, s'; simpl in E1; try lia; [exists SW|exists NW|exists SE|exists NE|exists SW|exists SE|exists NW|exists NE];
        repeat split; auto; discriminate. }
    exists x. split; [|apply Nat.eqb_refl]. apply (in_dnear b). exists c, k. split; auto. split; auto.
    apply (rl_meet b Hb c s s' k o x); auto; apply touches_on; auto.
  - intros (y & Hy & Ey). apply Nat.eqb_eq in Ey. subst y. apply (in_dnear b) in Hy. destruct Hy as (c & k & Hc & Hk & E).
    assert (exists s', on_side c s' = true /\ s <> s' /\ side_dir s' <> side_dir s) as (s' & C2 & C3 & C4).
    { destruct c, s; try discriminate Hc; first [exists West; repeat split; (reflexivity || discriminate)|exists East; repeat split; (reflexivity || discriminate)|exists South; repeat split; (reflexivity || discriminate)|exists North; repeat split; (reflexivity || discriminate)]. }
    destruct (proj2 (rl_meet b Hb c s s' k o x (proj2 (touches_on c s) Hc) (proj2 (touches_on c s') C2) C3 Hk Ho) E) as [_ G].
    exists s'. split; [destruct s'; simpl; auto|]. apply andb_true_intro. split; [apply negb_true_iff, Nat.eqb_neq; exact C4|].
    apply orb_true_iff. rewrite !existsb_exists. destruct k as [|[|]]; [left|right|lia]; exists x; split; auto; apply Nat.eqb_refl.
Qed.

Section F.
Variable DI : dinput.
Notation I := (dring DI).
Hypothesis RI : ring_input I.
Hypothesis RM : rows_match DI.
Notation t := (ritopo I).
Notation np := (length (ribases I)).
Hypothesis SU : supported SchemeDPatch t.
Let Hcons : consistent t := ri_topo I RI.
Let Hnp : tnp t = np := ri_np I RI.
Notation cls := (cls t).
Notation valence := (valence t).
Notation inner := (inner t).
Notation ifl := (ifl t).
Notation rc0 := (rc0 I).
Notation sizes := (sizes I).
Notation D := (dofs_from 0 sizes).
Notation B := (B I).
Notation rbas := (rbas I).
Notation tri := (tri I).
Notation cidx := (cidx sizes).
Notation dpt := (dpt DI).
Notation rem1 := (rem1 DI).
Notation rem2 := (rem2 DI).
Let rvalidc := rvalidc I RI.

Lemma dsups (c : pcorner) : fst c < np -> dsup I c = true.
Proof. intros H. apply (proj1 (supported_sup I RI SchemeDPatch) SU c H). Qed.

Definition is_dres (m : cmap) (R : dresult) : Prop :=
  rMapper SchemeDPatch I = Ok m /\ vals I m /\ drMap R = m /\ drRows R = cfreeSize m /\ drCols R = cfreeSize (cmap_of sizes) /\
  (forall y P r w, In y D -> kid DI m y P -> In (r, w) P -> dentry R r (cidx y) = w) /\
  (forall y P r, In y D -> kid DI m y P -> (forall w, ~ In (r, w) P) -> dentry R r (cidx y) = 0%Q).

Lemma dcompute_ok : exists m R, dCompute DI = Ok R /\ is_dres m R.
Proof.
  destruct (rMapper_val I RI dsups) as (m & Em & V). destruct (ring_count I RI SchemeDPatch SU) as (m' & Em' & Ec).
  rewrite Em in Em'. injection Em' as <-.
  destruct (matrix_ok DI RI RM m V dsups) as (s & Es & Ep & E1 & E2).
  exists m, (mkDR (cfreeSize m) (cfreeSize (cmap_of sizes)) m (xs_mat s)). split.
  - unfold dCompute. rewrite Ec. cbn [bind]. rewrite Em. cbn [bind]. rewrite Z.eqb_refl. cbn [ensure bind]. rewrite Nat2Z.id.
    change (mkDC DI m (cfreeSize m) (cfreeSize (cmap_of (map rsize (ribases I))))) with (C DI m).
    rewrite Es. cbn [bind]. rewrite Ep. reflexivity.
  - unfold is_dres. auto 10.
Qed.

Lemma cidx_column p k : p < np -> k < rsize (rbas p) -> In (p, k) D /\ cidx (p, k) = dcolumn DI p k.
Proof.
  intros Hp Hk. assert (In (p, k) D) as Hx by (apply (in_D I RI); auto). split; auto.
  unfold DpProofs.cidx, dcolumn. rewrite pos_in_dofs; rewrite ?Nat.sub_0_r, ?map_length; try lia; auto.
  - unfold RingProofs2.sizes. rewrite firstn_map. reflexivity.
  - unfold RingProofs2.sizes. rewrite map_length. exact Hp.
  - unfold RingProofs2.rbas in Hk. unfold RingProofs2.sizes. erewrite (nth_indep _ 0) by (rewrite map_length; exact Hp). rewrite map_nth. exact Hk.
Qed.
Lemma cidx_dof x : In x D -> cidx x = dcolumn DI (fst x) (snd x).
Proof. intros H. apply (in_D I RI) in H. destruct x as [p k]. apply cidx_column; apply H. Qed.

Lemma vcol (c : pcorner) s k o : fst c < np -> touches (snd c) s -> k < 2 -> o < 2 ->
  vcolumn DI c s k o = cidx (dpt c (side_dir s) k o) /\ In (dpt c (side_dir s) k o) D /\ side_dir s < 2.
Proof.
  intros Hc Ht Hk Ho. apply touches_on in Ht. pose proof (side_dir_lt s) as Hd. pose proof (dpt_in DI RI c (side_dir s) k o Hc Hk Ho) as Hx.
  split; auto. rewrite cidx_dof by auto. unfold vcolumn. rewrite <- (fst_dpt DI c (side_dir s) k o). f_equal.
  change (basis_at DI (fst c)) with (rbas (fst c)).
  apply on_side_iff_cside in Ht. destruct Ht as [->| ->]; rewrite side_dir_cside by lia; simpl.
  - apply rifv_blk0.
  - apply rifv_blk1; auto. apply (rbas_like I RI); auto.
Qed.

Lemma joined_dnext (c : pcorner) s (c' : pcorner) s' : joined t c s c' s' -> touches (snd c) s /\ touches (snd c') s' /\ fst c < np /\ fst c' < np /\
  dnext t (c, side_dir s) = Some (c', side_dir s').
Proof.
  destruct c as [p k], c' as [p' k']. intros (f & u & Hf & E1 & E2 & E). cbn [fst snd] in *.
  assert (on_side k s = true) as S1 by (rewrite E1; apply on_side_corner_at).
  assert (on_side k' s' = true) as S2 by (rewrite E2; apply on_side_corner_at).
  destruct (iface_np DI RI f Hf) as [Q1 Q2].
  split; [apply touches_on; auto|]. split; [apply touches_on; auto|].
  assert (p < np /\ p' < np) as [P1 P2] by (destruct E as [[F1 F2]|[F1 F2]]; rewrite F1, F2 in *; auto).
  split; auto. split; auto. unfold dnext. rewrite cside_of_on by exact S1.
  assert (glue t (p, s) = Some ((p', s'), ifflip f)) as ->.
  { apply (glue_some t Hcons). exists f. destruct E as [[F1 F2]|[F1 F2]]; auto. }
  unfold mapc. cbn [fst snd]. f_equal. f_equal. f_equal. rewrite E1, E2. rewrite pos_on_corner_at.
  rewrite <- xorb_assoc, xorb_nilpotent, xorb_false_l. reflexivity.
Qed.

Section M.
Variable m : cmap.
Variable R : dresult.
Hypothesis HR : is_dres m R.
Notation ridx := (ridx m).
Let V : vals I m := proj1 (proj2 HR).
Let ES : cmsizes m = sizes := va_sizes I m V.

Definition psum (coef : nat -> Q) (P : list (nat * Q)) : Q := sumQ (map (fun rw => (snd rw * coef (fst rw))%Q) P).

Lemma dcontrol_spec coef y P : In y D -> kid DI m y P -> (dcontrol R coef (cidx y) == psum coef P)%Q.
Proof.
  intros Hy K. pose proof HR as (_ & _ & R1 & R2 & R3 & E1 & E2). unfold dcontrol.
  rewrite (sumQ_support _ (map fst P)).
  - rewrite map_map. unfold psum. apply sumQ_map_ext. intros [r w] Hin. cbn [fst snd]. rewrite (E1 y P r w); auto. ring.
  - apply seq_NoDup.
  - apply (kid_nodup DI RI RM m V y P); auto.
  - intros r Hr. apply in_map_iff in Hr. destruct Hr as ([r' w] & <- & Hin). cbn [fst]. apply in_seq.
    destruct (kid_rows DI RI RM m V y P r' w K Hy Hin) as (x & (Hx & Hz) & ->). pose proof (ridx_lt sizes m ES x Hx Hz). lia.
  - intros r _ Hn. rewrite (E2 y P r); auto; [ring|]. intros w Hin. apply Hn. apply in_map_iff. exists (r, w). auto.
Qed.

Lemma dcolumn_unity c : c < drCols R -> (sumQ (map (fun r => dentry R r c) (seq 0 (drRows R))) == 1)%Q.
Proof.
  intros Hc. pose proof HR as (_ & _ & R1 & R2 & R3 & _). rewrite R3 in Hc. destruct (cidx_onto sizes c Hc) as (y & Hy & <-).
  destruct (kid_total DI RI RM m V dsups y Hy) as (P & K).
  transitivity (dcontrol R (fun _ => 1%Q) (cidx y)).
  - unfold dcontrol. apply sumQ_map_ext. intros r _. ring.
  - rewrite (dcontrol_spec _ y P) by auto. unfold psum. rewrite <- (kid_sum DI RI m dsups y P K). apply sumQ_map_ext. intros [r w] _. simpl. ring.
Qed.

Lemma dentry_range r c : c < drCols R -> (0 <= dentry R r c <= 1)%Q.
Proof.
  intros Hc. pose proof HR as (_ & _ & R1 & R2 & R3 & E1 & E2). rewrite R3 in Hc. destruct (cidx_onto sizes c Hc) as (y & Hy & <-).
  destruct (kid_total DI RI RM m V dsups y Hy) as (P & K).
  destruct (in_dec Nat.eq_dec r (map fst P)) as [Hi|Hi].
  - apply in_map_iff in Hi. destruct Hi as ([r' w] & <- & Hi). cbn [fst]. rewrite (E1 y P r' w) by auto. apply (kid_weight DI RI m y P r' w); auto.
  - rewrite (E2 y P r); auto; [split; discriminate|]. intros w Hw. apply Hi. apply in_map_iff. exists (r, w). auto.
Qed.

Lemma zero_own x : In x D -> cmval m x = 0%Z -> own_row DI R (fst x) (snd x).
Proof.
  intros Hx Zx. pose proof HR as (_ & _ & R1 & R2 & R3 & E1 & E2). exists (ridx x). split; [rewrite R1; apply (cindex_ok sizes m ES x Hx)|].
  split; [rewrite R2; apply (ridx_lt sizes m ES); auto; lia|]. intros r' Hr'. rewrite <- cidx_dof by auto.
  destruct (r' =? ridx x) eqn:E.
  - apply Nat.eqb_eq in E. subst r'. apply (E1 x [(ridx x, 1%Q)]); auto; [apply k_own; auto|left; auto].
  - apply Nat.eqb_neq in E. apply (E2 x [(ridx x, 1%Q)]); auto; [apply k_own; auto|]. intros w [[= <- _]|[]]. congruence.
Qed.
Lemma zero_control coef x : In x D -> cmval m x = 0%Z -> (dcontrol R coef (cidx x) == coef (ridx x))%Q.
Proof. intros Hx Zx. rewrite (dcontrol_spec coef x [(ridx x, 1%Q)]) by (auto; apply k_own; auto). unfold psum. simpl. ring. Qed.

(** a coupled function belongs to a boundary vertex of valence three *)
Lemma coupled_tri x : In x D -> (0 < cmval m x)%Z -> exists c, fst c < np /\ tri c = true /\ x = B c 0 0.
Proof.
  intros Hx Px. destruct (kid_total DI RI RM m V dsups x Hx) as (P & K).
  destruct K as [y Hz|f i a1 b1 a2 b2 y Hf N1 N2 N3 N4 Hy'|c Hc Hi|c d k c' d' Hc Hd Hn Hk|c Hc T|c d Hc Hd T Hn].
  - lia.
  - destruct (strip_value DI RI RM f i a1 a2 y Hf N1 N3 Hy') as (ps & Hps & Hin & _). pose proof (va_strip I m V ps y Hps Hin). lia.
  - pose proof (value_inner DI RI m V c Hc Hi). lia.
  - assert (ifl c d = true) as F by (apply (ifl_dnext DI); eauto). pose proof (value_dart0 DI RI m V c d k Hc Hd F Hk). lia.
  - eauto.
  - pose proof (value_trib DI RI m V c d Hc Hd T). lia.
Qed.

(** a boundary vertex has a boundary side *)
Lemma boundary_dir (c : pcorner) : fst c < np -> inner c = false -> exists c' d, In c' (cls c) /\ d < 2 /\ dnext t (c', d) = None.
Proof.
  intros Hc Hi. unfold TopoProofs.inner, vertex_inner in Hi.
  assert (exists b, In b (cls c) /\ forallb (fun s => isInterface t (fst b, s)) (containing_sides (snd b)) = false) as (b & Hb & E).
  { revert Hi. generalize (cls c) as l. induction l as [|a l IH]; simpl; [discriminate|]. intros H.
    match type of H with ?X && _ = false => destruct X eqn:Ea end.
    - destruct (IH H) as (b & Hb & Eb). eauto.
    - eauto. }
  exists b. unfold containing_sides in E. cbn [forallb] in E. rewrite andb_true_r in E.
  assert (forall d, isInterface t (fst b, cside (snd b) d) = false -> dnext t (b, d) = None) as K.
  { intros d Hd. destruct (dnext t (b, d)) as [[c' d']|] eqn:En; auto. exfalso.
    assert (ifl b d = true) as F by (apply (ifl_dnext DI); eauto). unfold TopoProofs.ifl in F. congruence. }
  apply andb_false_iff in E. destruct E as [E|E]; [exists 0|exists 1]; auto.
Qed.

Lemma drows_independent coef : (forall c, c < drCols R -> (dcontrol R coef c == 0)%Q) -> forall r, r < drRows R -> (coef r == 0)%Q.
Proof.
  intros H r Hr. pose proof HR as (_ & _ & R1 & R2 & R3 & E1 & E2). rewrite R2 in Hr. rewrite R3 in H.
  destruct (ridx_onto sizes m ES r Hr) as (x & Hx & Fx & <-).
  assert (forall y, In y D -> cmval m y = 0%Z -> (coef (ridx y) == 0)%Q) as Z0.
  { intros y Hy Zy. rewrite <- (zero_control coef y) by auto. apply H, cidx_lt, Hy. }
  destruct (Z.eq_dec (cmval m x) 0) as [Zx|Zx]; [apply Z0; auto|].
  destruct (coupled_tri x Hx ltac:(lia)) as (c & Hc & T & ->).
  assert (inner c = false) as Hi by (unfold DpProofs.tri in T; destruct (inner c); auto; discriminate).
  destruct (boundary_dir c Hc Hi) as (c' & d & Hc' & Hd & En). pose proof (rcls_valid I RI c c' Hc Hc') as Hp'.
  assert (tri c' = true) as T' by (rewrite (tri_cls I RI c c'); auto).
  rewrite <- (tri_eq DI RI m V c c' Hc T Hc').
  assert (In (dpt c' d 1 0) D) as Hy by (apply (dpt_in DI RI); auto).
  pose proof (H _ (cidx_lt sizes _ Hy)) as G. rewrite (dcontrol_spec coef _ _ Hy (k_trib DI m c' d Hp' Hd T' En)) in G.
  unfold psum in G. simpl in G. rewrite (Z0 (B c' 1 1)) in G; [|apply (B_in I RI); auto|apply (value11 DI RI m V); auto].
  unfold half in G. assert (coef (ridx (B c' 0 0)) == (2 # 1) * ((1 # 2) * 0 + ((1 # 2) * coef (ridx (B c' 0 0)) + 0)))%Q as -> by ring.
  rewrite G. ring.
Qed.

Lemma dart_control coef (c : pcorner) d k (c' : pcorner) d' : fst c < np -> d < 2 -> dnext t (c, d) = Some (c', d') -> darted DI c k ->
  (dcontrol R coef (cidx (dpt c d k 0)) == (1 # 2) * (dcontrol R coef (cidx (dpt c d k 1)) + dcontrol R coef (cidx (dpt c' d' k 1))))%Q.
Proof.
  intros Hc Hd Hn Hk. pose proof (dnext_dir t _ _ _ Hn) as Hd'. destruct (dnext_np DI RI _ _ _ _ Hn) as [_ Hp'].
  pose proof (dnext_in_cls DI RI c d c' d' Hd Hn) as Hcl. pose proof (dnext_sym t Hcons _ _ _ _ Hd Hn) as Hn'. pose proof (darted_lt DI RI _ _ Hk) as K2.
  rewrite (dcontrol_spec coef _ _ (dpt_in DI RI c d k 0 Hc K2 ltac:(lia)) (k_dart DI m c d k c' d' Hc Hd Hn Hk)).
  rewrite !zero_control.
  - unfold psum. cbn [map sumQ fst snd]. unfold half. ring.
  - apply (dpt_in DI RI); auto.
  - apply (value_dart1 DI RI m V); auto; [apply (ifl_dnext DI); eauto|]. apply (darted_cls DI RI c); auto.
  - apply (dpt_in DI RI); auto.
  - apply (value_dart1 DI RI m V); auto. apply (ifl_dnext DI); eauto.
Qed.
End M.

Lemma some_res R : dCompute DI = Ok R -> exists m, is_dres m R.
Proof. intros E. destruct dcompute_ok as (m & R' & E' & H). rewrite E in E'. injection E' as <-. eauto. Qed.

(** ** statements *)
Lemma matrix_thm : exists R, dCompute DI = Ok R /\ rMapper SchemeDPatch I = Ok (drMap R) /\ drRows R = cfreeSize (drMap R) /\
  drCols R = sumN (map rsize (ribases I)).
Proof.
  destruct dcompute_ok as (m & R & E & H). exists R. destruct H as (H1 & V & R1 & R2 & R3 & _). split; auto.
  split; [congruence|]. split; [congruence|]. rewrite R3. apply cmap_of_free.
Qed.

Lemma unity_thm R c : dCompute DI = Ok R -> c < drCols R ->
  (sumQ (map (fun r => dentry R r c) (seq 0 (drRows R))) == 1)%Q /\ forall r, (0 <= dentry R r c <= 1)%Q.
Proof.
  intros E Hc. destruct (some_res R E) as (m & H). split; [apply (dcolumn_unity m R H c Hc)|]. intros r. apply (dentry_range m R H r c Hc).
Qed.

Lemma independent_thm R coef : dCompute DI = Ok R -> (forall c, c < drCols R -> (dcontrol R coef c == 0)%Q) ->
  forall r, r < drRows R -> (coef r == 0)%Q.
Proof. intros E. destruct (some_res R E) as (m & H). apply (drows_independent m R H). Qed.

Lemma interface_thm R f l1 l2 l1' l2' i x1 x2 y1 y2 : dCompute DI = Ok R -> In f (tif t) ->
  dmatch DI f 0 = Ok (l1, l2) -> dmatch DI f 1 = Ok (l1', l2') ->
  nth_error (central (basis_at DI (fst (if1 f))) (snd (if1 f)) l1) i = Some x1 ->
  nth_error (central (basis_at DI (fst (if2 f))) (snd (if2 f)) l2) i = Some x2 ->
  nth_error (central (basis_at DI (fst (if1 f))) (snd (if1 f)) l1') i = Some y1 ->
  nth_error (central (basis_at DI (fst (if2 f))) (snd (if2 f)) l2') i = Some y2 ->
  forall coef,
    (dcontrol R coef (dcolumn DI (fst (if1 f)) x1) ==
       (1 # 2) * (dcontrol R coef (dcolumn DI (fst (if1 f)) y1) + dcontrol R coef (dcolumn DI (fst (if2 f)) y2)))%Q /\
    (dcontrol R coef (dcolumn DI (fst (if2 f)) x2) ==
       (1 # 2) * (dcontrol R coef (dcolumn DI (fst (if1 f)) y1) + dcontrol R coef (dcolumn DI (fst (if2 f)) y2)))%Q /\
    own_row DI R (fst (if1 f)) y1 /\ own_row DI R (fst (if2 f)) y2.
Proof.
  intros E Hf M0 M1 N1 N2 N3 N4 coef. destruct (some_res R E) as (m & H). pose proof (proj1 (proj2 H)) as V.
  destruct (iface_np DI RI f Hf) as [Q1 Q2].
  destruct (RM f 0 Hf ltac:(lia)) as (k1 & k2 & A & _ & P1 & P2). rewrite M0 in A. injection A as <- <-.
  destruct (RM f 1 Hf ltac:(lia)) as (k1 & k2 & A & _ & P3 & P4). rewrite M1 in A. injection A as <- <-.
  assert (forall (l q : list nat), Permutation l q -> incl l q) as PI by (intros l q G x; apply Permutation_in; exact G).
  rewrite (central_without _ _ 0) in N1; [|apply (rbas_like I RI); auto|lia|auto].
  rewrite (central_without _ _ 0) in N2; [|apply (rbas_like I RI); auto|lia|auto].
  rewrite (central_without _ _ 1) in N3; [|apply (rbas_like I RI); auto|lia|auto].
  rewrite (central_without _ _ 1) in N4; [|apply (rbas_like I RI); auto|lia|auto].
  change (basis_at DI) with rbas in *.
  assert (nth_error (rem1 f 0) i = Some x1) as G1 by (unfold DpProofs2.rem1; rewrite M0; exact N1).
  assert (nth_error (rem2 f 0) i = Some x2) as G2 by (unfold DpProofs2.rem2; rewrite M0; exact N2).
  assert (nth_error (rem1 f 1) i = Some y1) as G3 by (unfold DpProofs2.rem1; rewrite M1; exact N3).
  assert (nth_error (rem2 f 1) i = Some y2) as G4 by (unfold DpProofs2.rem2; rewrite M1; exact N4).
  destruct (rem1_1 DI RI RM m V f y1 Hf (nth_error_In _ _ G3)) as [A1 A2], (rem2_1 DI RI RM m V f y2 Hf (nth_error_In _ _ G4)) as [A3 A4].
  destruct (strip_D DI RI RM f x1 x2 Hf) as [S1 S2]. specialize (S1 (nth_error_In _ _ G1)). specialize (S2 (nth_error_In _ _ G2)).
  pose proof (cidx_dof _ A1) as C1. pose proof (cidx_dof _ A3) as C2. pose proof (cidx_dof _ S1) as C3. pose proof (cidx_dof _ S2) as C4.
  cbn [fst snd] in C1, C2, C3, C4. rewrite <- C1, <- C2, <- C3, <- C4.
  split; [|split; [|split]].
  - rewrite (dcontrol_spec m R H coef _ _ S1 (k_strip DI m f i x1 y1 x2 y2 _ Hf G1 G3 G2 G4 (or_introl eq_refl))).
    rewrite !(zero_control m R H) by auto. unfold psum. cbn [map sumQ fst snd]. unfold half. ring.
  - rewrite (dcontrol_spec m R H coef _ _ S2 (k_strip DI m f i x1 y1 x2 y2 _ Hf G1 G3 G2 G4 (or_intror eq_refl))).
    rewrite !(zero_control m R H) by auto. unfold psum. cbn [map sumQ fst snd]. unfold half. ring.
  - apply (zero_own m R H _ A1 A2).
  - apply (zero_own m R H _ A3 A4).
Qed.

Lemma corner_thm R (c : pcorner) s (c' : pcorner) s' coef : dCompute DI = Ok R -> joined t c s c' s' ->
  (dcontrol R coef (vcolumn DI c s 1 0) == (1 # 2) * (dcontrol R coef (vcolumn DI c s 1 1) + dcontrol R coef (vcolumn DI c' s' 1 1)))%Q.
Proof.
  intros E J. destruct (some_res R E) as (m & H). destruct (joined_dnext c s c' s' J) as (T1 & T2 & Q1 & Q2 & En).
  destruct (vcol c s 1 0 Q1 T1) as (-> & _ & Hd); try lia. destruct (vcol c s 1 1 Q1 T1) as (-> & _); try lia.
  destruct (vcol c' s' 1 1 Q2 T2) as (-> & _); try lia. apply (dart_control m R H); auto. left; reflexivity.
Qed.

Lemma boundary2_thm R (c : pcorner) s (c' : pcorner) s' : dCompute DI = Ok R -> joined t c s c' s' -> ~ interior_vertex t c -> has_valence t c 2 ->
  (nth_error (riC0 I) (vertIndex c) = Some false -> forall coef,
    (dcontrol R coef (vcolumn DI c s 0 0) == (1 # 2) * (dcontrol R coef (vcolumn DI c s 0 1) + dcontrol R coef (vcolumn DI c' s' 0 1)))%Q) /\
  (nth_error (riC0 I) (vertIndex c) = Some true -> own_row DI R (fst c) (rifv (basis_at DI (fst c)) 0 (snd c) s 0)) /\
  own_row DI R (fst c) (rifv (basis_at DI (fst c)) 0 (snd c) s 1).
Proof.
  intros E J Hni Hv2. destruct (some_res R E) as (m & H). pose proof (proj1 (proj2 H)) as V.
  destruct (joined_dnext c s c' s' J) as (T1 & T2 & Q1 & Q2 & En). pose proof (proj2 (rvalidc c) Q1) as Hv.
  apply (has_valence_iff t Hcons c 2 Hv) in Hv2.
  assert (inner c = false) as Hi by (destruct (inner c) eqn:Ei; auto; exfalso; apply Hni, (interior_vertex_iff t Hcons); auto).
  assert (nth_error (riC0 I) (vertIndex c) = Some (rc0 c)) as Ec.
  { pose proof (rc0_vget I RI c Q1) as G. unfold vget in G. destruct (nth_error (riC0 I) (vertIndex c)); congruence. }
  assert (forall o, o < 2 -> rifv (basis_at DI (fst c)) 0 (snd c) s o = snd (dpt c (side_dir s) 0 o)) as Er.
  { intros o Ho. apply touches_on in T1. change (basis_at DI (fst c)) with (rbas (fst c)).
    apply on_side_iff_cside in T1. destruct T1 as [->| ->]; rewrite side_dir_cside by lia; simpl.
    - apply rifv_blk0.
    - apply rifv_blk1; auto. apply (rbas_like I RI); auto. }
  pose proof (side_dir_lt s) as Hd.
  assert (forall o, o < 2 -> In (dpt c (side_dir s) 0 o) D) as Din by (intros; apply (dpt_in DI RI); auto).
  assert (tri c = false) as Tr by (unfold DpProofs.tri; rewrite Hv2; apply andb_false_r).
  split; [|split].
  - intros Es coef. rewrite Ec in Es. injection Es as Es.
    destruct (vcol c s 0 0 Q1 T1) as (-> & _ & _); try lia. destruct (vcol c s 0 1 Q1 T1) as (-> & _); try lia.
    destruct (vcol c' s' 0 1 Q2 T2) as (-> & _); try lia. apply (dart_control m R H); auto. right. auto.
  - intros Es. rewrite Ec in Es. injection Es as Es. rewrite Er by lia. rewrite (fst_dpt DI c (side_dir s) 0 0). apply (zero_own m R H); auto.
    rewrite (dpt00 DI). pose proof (va_near I m V c Q1 0 0 ltac:(lia) ltac:(lia)) as G. rewrite Tr in G. unfold elb in G. rewrite Hi, Hv2, Es in G.
    simpl in G. try (destruct (ifl c 0), (ifl c 1)); exact G.
  - rewrite Er by lia. rewrite (fst_dpt DI c (side_dir s) 0 1). apply (zero_own m R H); auto.
    assert (ifl c (side_dir s) = true) as F by (apply (ifl_dnext DI); eauto).
    pose proof (val2_boundary t Hcons c Hv Hi Hv2) as Bd.
    destruct (side_dir s) as [|[|]]; [| |lia]; simpl.
    + pose proof (va_near I m V c Q1 1 0 ltac:(lia) ltac:(lia)) as G. rewrite Tr in G. unfold elb in G. rewrite Hi, Hv2 in G.
      rewrite F in Bd. symmetry in Bd. apply negb_true_iff in Bd. rewrite F, Bd in G. simpl in G. destruct (rc0 c); exact G.
    + pose proof (va_near I m V c Q1 0 1 ltac:(lia) ltac:(lia)) as G. rewrite Tr in G. unfold elb in G. rewrite Hi, Hv2 in G.
      rewrite F in Bd. simpl in Bd. rewrite F, Bd in G. simpl in G. destruct (rc0 c); exact G.
Qed.

Lemma mean_of (coef : nat -> Q) (w : Q) (g : pcorner -> nat) l : (sumQ (map (fun rw => snd rw * coef (fst rw)) (map (fun c => (g c, w)) l)) == w * sumQ (map (fun c => coef (g c)) l))%Q.
Proof. induction l as [|a l IH]; simpl; [ring|]. rewrite IH. ring. Qed.

Lemma inner_col m R coef (c : pcorner) : is_dres m R -> fst c < np -> (dcontrol R coef (inner_column DI c) == coef (ridx m (B c 1 1)))%Q /\ own_row DI R (fst c) (snd (B c 1 1)).
Proof.
  intros H Hc. pose proof (proj1 (proj2 H)) as V. unfold inner_column.
  destruct (vcol c (cside (snd c) 0) 1 1 Hc) as (-> & Din & Hd); try lia; [apply cside_touches|]. rewrite (dpt11 DI) in *.
  split; [apply (zero_control m R H); auto|]. all: try (apply (zero_own m R H (B c 1 1)); auto). all: apply (value11 DI RI m V); auto.
Qed.

Lemma inner_thm R (c : pcorner) s v l coef : dCompute DI = Ok R -> fst c < np -> touches (snd c) s -> interior_vertex t c -> has_valence t c v ->
  NoDup l -> (forall b, In b l <-> same_vertex t c b) ->
  (dcontrol R coef (vcolumn DI c s 0 0) == (1 # Pos.of_nat v) * sumQ (map (fun b => dcontrol R coef (inner_column DI b)) l))%Q.
Proof.
  intros E Hc Ts Hi Hval Nl Hl. destruct (some_res R E) as (m & H). pose proof (proj2 (rvalidc c) Hc) as Hv.
  apply (has_valence_iff t Hcons c v Hv) in Hval. apply (interior_vertex_iff t Hcons c Hv) in Hi. subst v.
  destruct (vcol c s 0 0 Hc Ts) as (-> & Din & _); try lia. rewrite (dpt00 DI) in *.
  rewrite (dcontrol_spec m R H coef _ _ Din (k_inner DI m c Hc Hi)). unfold psum. rewrite mean_of.
  apply Qmult_comp; [reflexivity|].
  assert (Permutation l (cls c)) as P.
  { apply NoDup_Permutation; auto; [apply (cls_nodup t Hcons); auto|]. intros x. rewrite Hl. apply (same_vertex_cls t Hcons); auto. }
  rewrite (sumQ_perm _ _ (Permutation_map _ P)). apply sumQ_map_ext. intros b Hb. symmetry. apply (inner_col m R coef b H).
  apply (rcls_valid I RI c); auto.
Qed.

Lemma boundary3_row m R (c : pcorner) l : is_dres m R -> fst c < np -> ~ interior_vertex t c -> has_valence t c 3 ->
  NoDup l -> (forall b, In b l <-> same_vertex t c b) ->
  tri c = true /\ Permutation l (cls c) /\ ridx m (B c 0 0) < drRows R /\ forall coef b s, In b l -> touches (snd b) s ->
    (dcontrol R coef (vcolumn DI b s 0 0) == (1 # 4) * (coef (ridx m (B c 0 0)) + sumQ (map (fun b' => dcontrol R coef (inner_column DI b')) l)))%Q /\
    (In (fst b, s) (tbd t) -> (dcontrol R coef (vcolumn DI b s 1 0) == (1 # 2) * (dcontrol R coef (inner_column DI b) + coef (ridx m (B c 0 0))))%Q).
Proof.
  intros H Hc Hni Hval Nl Hl. pose proof (proj1 (proj2 H)) as V.
  pose proof H as (_ & _ & R1 & R2 & R3 & _). pose proof (proj2 (rvalidc c) Hc) as Hv.
  apply (has_valence_iff t Hcons c 3 Hv) in Hval.
  assert (inner c = false) as Hi by (destruct (inner c) eqn:Ei; auto; exfalso; apply Hni, (interior_vertex_iff t Hcons); auto).
  assert (tri c = true) as T by (unfold DpProofs.tri; rewrite Hi, Hval; reflexivity).
  assert (Permutation l (cls c)) as P.
  { apply NoDup_Permutation; auto; [apply (cls_nodup t Hcons); auto|]. intros x. rewrite Hl. apply (same_vertex_cls t Hcons); auto. }
  assert (In (B c 0 0) D) as D0 by (apply (B_in I RI); auto).
  pose proof (value_tri DI RI m V c Hc T) as V0.
  split; auto. split; auto. split; [rewrite R2; apply (ridx_lt sizes m (va_sizes I m V)); auto; lia|].
  intros coef b s Hb Ts. assert (In b (cls c)) as Hb' by (eapply Permutation_in; eauto).
  pose proof (rcls_valid I RI c b Hc Hb') as Hpb. assert (tri b = true) as Tb by (rewrite (tri_cls I RI c b); auto).
  pose proof (tri_eq DI RI m V c b Hc T Hb') as Er. split.
  - destruct (vcol b s 0 0 Hpb Ts) as (-> & Din & _); try lia. rewrite (dpt00 DI) in *.
    rewrite (dcontrol_spec m R H coef _ _ Din (k_tri0 DI m b Hpb Tb)). unfold psum. cbn [map sumQ fst snd]. rewrite mean_of, Er.
    assert (Permutation l (cls b)) as Pb by (etransitivity; [exact P|apply (cls_perm t Hcons); auto]).
    rewrite (sumQ_perm _ _ (Permutation_map _ Pb)).
    assert (sumQ (map (fun b' => dcontrol R coef (inner_column DI b')) (cls b)) == sumQ (map (fun c0 => coef (ridx m (B c0 1 1))) (cls b)))%Q as ->.
    { apply sumQ_map_ext. intros b' Hb2. apply (inner_col m R coef b' H). apply (rcls_valid I RI b); auto. }
    unfold quarter. ring.
  - intros Hbd. destruct (vcol b s 1 0 Hpb Ts) as (-> & Din & Hd); try lia.
    assert (dnext t (b, side_dir s) = None) as En.
    { destruct (dnext t (b, side_dir s)) as [[c2 d2]|] eqn:En; auto. exfalso.
      assert (ifl b (side_dir s) = true) as F by (apply (ifl_dnext DI); eauto). unfold TopoProofs.ifl in F.
      rewrite cside_of_on in F by (apply touches_on; auto). apply isInterface_in in F. apply (iface_not_bd t Hcons (fst b, s)); auto. }
    rewrite (dcontrol_spec m R H coef _ _ Din (k_trib DI m b (side_dir s) Hpb Hd Tb En)). unfold psum. cbn [map sumQ fst snd].
    rewrite (proj1 (inner_col m R coef b H Hpb)), Er. unfold half. ring.
Qed.

Lemma boundary3_thm R (c : pcorner) l : dCompute DI = Ok R -> fst c < np -> ~ interior_vertex t c -> has_valence t c 3 ->
  NoDup l -> (forall b, In b l <-> same_vertex t c b) ->
  exists e, e < drRows R /\ forall coef b s, In b l -> touches (snd b) s ->
    (dcontrol R coef (vcolumn DI b s 0 0) == (1 # 4) * (coef e + sumQ (map (fun b' => dcontrol R coef (inner_column DI b')) l)))%Q /\
    (In (fst b, s) (tbd t) -> (dcontrol R coef (vcolumn DI b s 1 0) == (1 # 2) * (dcontrol R coef (inner_column DI b) + coef e))%Q).
Proof.
  intros E Hc Hni Hval Nl Hl. destruct (some_res R E) as (m & H). exists (ridx m (B c 0 0)).
  destruct (boundary3_row m R c l H Hc Hni Hval Nl Hl) as (_ & _ & G). exact G.
Qed.

(** all other functions keep rows of their own *)
Lemma interior_thm R p k : dCompute DI = Ok R -> p < np -> k < rsize (basis_at DI p) ->
  (forall s, ~ In k (roff (basis_at DI p) s 0)) -> own_row DI R p k.
Proof.
  intros E Hp Hk Hs. destruct (some_res R E) as (m & H). pose proof (proj1 (proj2 H)) as V.
  destruct (cidx_column p k Hp Hk) as [Din _]. apply (zero_own m R H (p, k) Din).
  pose proof (rbas_like I RI p Hp) as L. change (basis_at DI p) with (rbas p) in *.
  destruct (existsb (fun c => k =? rblk (rbas p) c 1 1) [SW; SE; NW; NE]) eqn:Ex.
  - apply existsb_exists in Ex. destruct Ex as (c & _ & Ec). apply Nat.eqb_eq in Ec. rewrite Ec.
    change (p, rblk (rbas p) c 1 1) with (B (p, c) 1 1). apply (value11 DI RI m V); auto.
  - apply (va_other I m V).
    + intros (c & a & e & Hc & Ha & He & Eb). injection Eb as Ep Ek. rewrite existsb_false in Ex.
      assert (k = rblk (rbas p) (snd c) a e) as Ek' by (rewrite Ep; exact Ek).
      destruct (proj1 (rblk_meet (rbas p) L (snd c) a e k Ha He) Ek') as [G1 G2].
      destruct a as [|[|]]; [eapply Hs; exact G1| |lia]. destruct e as [|[|]]; [eapply Hs; exact G2| |lia].
      assert (In (snd c) [SW; SE; NW; NE]) as Hin by (destruct (snd c); simpl; auto). specialize (Ex _ Hin).
      rewrite <- Ek', Nat.eqb_refl in Ex. discriminate.
    + intros ps Hps Hin. apply in_map_iff in Hin. destruct Hin as (x & Ex' & Hx). injection Ex' as Ep Ek. apply in_rstrip in Hx.
      destruct Hx as [Hx _]. apply (Hs (snd ps)). rewrite <- Ep, <- Ek. exact Hx.
Qed.
Lemma boundary_thm R p s k : dCompute DI = Ok R -> In (p, s) (tbd t) -> In k (central (basis_at DI p) s (roff (basis_at DI p) s 0)) -> own_row DI R p k.
Proof.
  intros E Hps Hk. destruct (some_res R E) as (m & H). pose proof (proj1 (proj2 H)) as V.
  assert (p < np) as Hp by (rewrite <- Hnp; apply (sides_valid t Hcons (p, s)); auto).
  rewrite (central_without _ _ 0) in Hk; [|apply (rbas_like I RI); auto|lia|apply incl_refl].
  destruct (bstrip_value DI RI m V (p, s) (p, k) Hps) as [Din Zx]; [apply in_map_iff; exists k; auto|].
  apply (zero_own m R H (p, k) Din Zx).
Qed.
Lemma corner1_thm R (c : pcorner) s k o : dCompute DI = Ok R -> fst c < np -> touches (snd c) s -> ~ interior_vertex t c -> has_valence t c 1 -> k < 2 -> o < 2 ->
  own_row DI R (fst c) (rifv (basis_at DI (fst c)) k (snd c) s o).
Proof.
  intros E Hc Ts Hni Hval Hk Ho. destruct (some_res R E) as (m & H). pose proof (proj1 (proj2 H)) as V. pose proof (proj2 (rvalidc c) Hc) as Hv.
  apply (has_valence_iff t Hcons c 1 Hv) in Hval.
  assert (inner c = false) as Hi by (destruct (inner c) eqn:Ei; auto; exfalso; apply Hni, (interior_vertex_iff t Hcons); auto).
  apply touches_on in Ts. change (basis_at DI (fst c)) with (rbas (fst c)).
  apply on_side_iff_cside in Ts. destruct Ts as [->| ->].
  - rewrite rifv_blk0. apply (zero_own m R H (B c o k)); [apply (B_in I RI); auto|apply (corner_value DI m V); auto].
  - rewrite rifv_blk1 by (auto; apply (rbas_like I RI); auto).
    apply (zero_own m R H (B c k o)); [apply (B_in I RI); auto|apply (corner_value DI m V); auto].
Qed.
End F.

Lemma unsupported_thm DI : ring_input (dring DI) -> ~ supported SchemeDPatch (ritopo (dring DI)) -> dCompute DI = Err.
Proof.
  intros RI H. unfold dCompute. destruct (rcountDoFs SchemeDPatch (dring DI)); cbn [bind]; auto.
  rewrite (ring_unsupported (dring DI) RI SchemeDPatch H). reflexivity.
Qed.
