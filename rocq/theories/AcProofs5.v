(** The rows of the special vertices of gsAlmostC1. *)
From Verif Require Import Common TopoModel BaseModel BaseModel2 BaseSpec2 IndexSpec TopoSpec SmoothSpec SmoothSpec2 RefModel RefSpec RingModel RingSpec DpModel DpSpec
  IndexProofs IndexTopoProofs ListLemmas TopoProofs PointProofs MapperProofs CountProofs MatrixProofs HandlerProofs ResultProofs GeometryProofs
  BaseProofs2 RefProofs RingProofs RingProofs2 RingProofs3 DpProofs DpProofs2 DpProofs3 DpProofs4 AcModel AcSpec AcSpec2 AcProofs AcProofs2 AcProofs3 AcProofs4.
From Coq Require Import ZifyBool.
Open Scope nat_scope.

Section W.
Variable DI : dinput.
Notation I := (dring DI).
Hypothesis RI : ring_input I.
Hypothesis RM : rows_match DI.
Notation t := (ritopo I).
Notation np := (length (ribases I)).
Hypothesis SU : supported SchemeAlmostC1 t.
Let Hcons : consistent t := ri_topo I RI.
Let Hnp : tnp t = np := ri_np I RI.
Notation cls := (cls t).
Notation valence := (valence t).
Notation inner := (inner t).
Notation ifl := (ifl t).
Notation rc0 := (rc0 I).
Notation sizes := (sizes I).
Notation D := (dofs_from 0 sizes).
Notation B := (B I).
Notation i0 := (i0 I).
Notation i1 := (i1 I).
Notation rbas := (rbas I).
Notation cidx := (cidx sizes).
Let rvalidc := rvalidc I RI.

Definition spc (c : pcorner) : bool :=
  (inner c && negb (valence c =? 4)) || (negb (inner c) && (2 - (if rc0 c then 1 else 0) <? valence c)).

Lemma spc_iff (c : pcorner) : special DI c <-> fst c < np /\ spc c = true.
Proof.
  assert (length (riC0 I) = 4 * tnp t) as L by (rewrite Hnp; apply (ri_C0_length I RI)).
  assert (forall c : pcorner, fst c < np -> spec_b t (riC0 I) c = spc c) as K.
  { intros c' Hc'. unfold spec_b, spc. replace (c0 (riC0 I) c') with (rc0 c'); [reflexivity|]. unfold c0. rewrite (c0_rc0 DI RI c' Hc'). reflexivity. }
  split.
  - intros H. pose proof (proj1 H) as Hc. rewrite Hnp in Hc. split; auto. rewrite <- K by auto.
    apply (spec_b_iff t (riC0 I) Hcons L); auto. lia.
  - intros [Hc H]. apply (spec_b_iff t (riC0 I) Hcons L); [lia|]. rewrite K by auto. exact H.
Qed.

Lemma spc_cls (c b : pcorner) : fst c < np -> In b (cls c) -> spc b = spc c.
Proof.
  intros Hc Hb. unfold spc. rewrite (inner_cls t Hcons c b), (valence_cls t Hcons c b), (rc0_cls I RI c b); auto; apply rvalidc; auto.
Qed.

Lemma inner_val (c : pcorner) : fst c < np -> inner c = true -> 3 <= valence c.
Proof.
  intros Hc Hi. pose proof (proj2 (rvalidc c) Hc) as Hv. apply (SU c (valence c)); [exact Hv|apply (has_valence_iff t Hcons); auto|].
  apply (interior_vertex_iff t Hcons); auto.
Qed.

(** what a special vertex may be *)
Lemma spc_cases (c : pcorner) : fst c < np -> spc c = true ->
  (3 <= valence c /\ ((inner c && negb (valence c =? 4) || half0 I c = true) \/ (inner c = false /\ rc0 c = true))) \/
  (valence c = 2 /\ inner c = false /\ rc0 c = true /\ sharp2 I c = true).
Proof.
  intros Hc H. unfold spc in H. pose proof (inner_val c Hc) as Iv. destruct (inner c) eqn:Ei.
  - left. specialize (Iv eq_refl). split; auto. left. simpl in H. rewrite orb_false_r in H. rewrite H. reflexivity.
  - cbn [andb negb orb] in H. destruct (rc0 c) eqn:Ec.
    + destruct (valence c =? 2) eqn:E2.
      * right. split; [lia|]. split; auto. split; auto. unfold sharp2. rewrite Ei, E2, Ec. reflexivity.
      * left. split; [simpl in H; lia|]. right. auto.
    + left. split; [simpl in H; lia|]. left. unfold half0. rewrite Ei, Ec. assert (2 <? valence c = true) as -> by (simpl in H; lia). reflexivity.
Qed.

Definition vlist (c : pcorner) : list dof :=
  if valence c =? 2 then map i0 (cls c) ++ getLowestIndices (flat_map i1 (cls c)) 1 else getLowestIndices (map i0 (cls c)) 3.

Lemma val2_i1 (c : pcorner) : fst c < np -> valence c = 2 -> inner c = false -> 1 <= length (flat_map i1 (cls c)).
Proof.
  intros Hc E2 Ei. rewrite (i1_length I). rewrite (boundary_idarts t Hcons c) by (auto; apply rvalidc; auto). lia.
Qed.

Lemma i0_len (c : pcorner) : length (map i0 (cls c)) = valence c.
Proof. rewrite map_length. reflexivity. Qed.

Lemma vlist_split (c : pcorner) x : fst c < np -> spc c = true -> In x (vlist c) ->
  (exists b, In b (cls c) /\ x = B b 0 0) \/
  (valence c = 2 /\ exists b a e, In b (cls c) /\ a < 2 /\ e < 2 /\ x = B b a e /\ (a =? 0) && (e =? 0) = false /\
     (a =? 0) && ifl b 0 || (e =? 0) && ifl b 1 = true).
Proof.
  intros Hc Hs Hx. unfold vlist in Hx.
  destruct (spc_cases c Hc Hs) as [[Hv _]|(Hv & Hi & Hr & Hsh)].
  - assert (valence c =? 2 = false) as E by lia. rewrite E in Hx. left. apply lowest_incl in Hx; [|apply (i0_nodup I RI); auto|rewrite i0_len; lia].
    apply in_map_iff in Hx. destruct Hx as (b & <- & Hb). eauto.
  - rewrite Hv in Hx. cbn [Nat.eqb] in Hx. apply in_app_iff in Hx. destruct Hx as [Hx|Hx].
    + left. apply in_map_iff in Hx. destruct Hx as (b & <- & Hb). eauto.
    + right. split; auto. apply lowest_incl in Hx; [|apply (i1_nodup I RI); auto|apply val2_i1; auto]. apply (in_i1s I RI) in Hx. exact Hx.
Qed.

Lemma vlist_len (c : pcorner) : fst c < np -> spc c = true -> length (vlist c) = 3 /\ NoDup (vlist c).
Proof.
  intros Hc Hs. unfold vlist. destruct (spc_cases c Hc Hs) as [[Hv _]|(Hv & Hi & Hr & Hsh)].
  - assert (valence c =? 2 = false) as -> by lia.
    destruct (lowest_split (map i0 (cls c)) 3 (i0_nodup I RI c Hc)) as (r & _ & L & P & _); [rewrite i0_len; lia|]. split; auto.
    pose proof (Permutation_NoDup (Permutation_sym P) (i0_nodup I RI c Hc)) as N. apply NoDup_app_iff in N. tauto.
  - rewrite Hv. cbn [Nat.eqb]. pose proof (val2_i1 c Hc Hv Hi) as L1.
    destruct (lowest_split (flat_map i1 (cls c)) 1 (i1_nodup I RI c Hc) L1) as (r & _ & L & P & _).
    pose proof (Permutation_NoDup (Permutation_sym P) (i1_nodup I RI c Hc)) as N. apply NoDup_app_iff in N.
    split; [rewrite app_length, i0_len, Hv, L; reflexivity|]. apply NoDup_app_iff. split; [apply (i0_nodup I RI); auto|]. split; [tauto|].
    intros x H1 H2. apply (i0_i1 I RI c x Hc H1). apply (lowest_incl _ 1); auto. apply (i1_nodup I RI); auto.
Qed.

Lemma vlist_cls (c b : pcorner) x : fst c < np -> In b (cls c) -> In x (vlist b) <-> In x (vlist c).
Proof.
  intros Hc Hb. unfold vlist. rewrite (valence_cls t Hcons c b) by (auto; apply rvalidc; auto). destruct (valence c =? 2).
  - rewrite !in_app_iff, <- !low_in. rewrite (low1_cls I RI c b) by auto.
    split; intros [H|H]; auto; left; [apply (Permutation_in _ (i0_perm I RI c b Hc Hb)) in H|apply (Permutation_in _ (Permutation_sym (i0_perm I RI c b Hc Hb))) in H]; auto.
  - rewrite <- !low_in. rewrite (low0_cls I RI c b) by auto. tauto.
Qed.

Lemma vlist_disjoint (c c' : pcorner) x : fst c < np -> fst c' < np -> spc c = true -> spc c' = true -> In x (vlist c) -> In x (vlist c') -> In c' (cls c).
Proof.
  intros Hc Hc' Hs Hs' Hx Hx'.
  assert (forall c, fst c < np -> spc c = true -> In x (vlist c) -> exists b a e, In b (cls c) /\ a < 2 /\ e < 2 /\ x = B b a e) as K.
  { intros d Hd Sd Xd. destruct (vlist_split d x Hd Sd Xd) as [(b & Hb & ->)|(_ & b & a & e & Hb & Ha & He & -> & _)]; [exists b, 0, 0|exists b, a, e]; (split; [assumption|]); (split; [lia|]); (split; [lia|reflexivity]). }
  destruct (K c Hc Hs Hx) as (b & a & e & Hb & Ha & He & E), (K c' Hc' Hs' Hx') as (b' & a' & e' & Hb' & Ha' & He' & E').
  rewrite E in E'. apply (B_inj I RI) in E'; auto; [|apply (rcls_valid I RI c b); auto]. destruct E' as (<- & _).
  apply (Permutation_in _ (Permutation_sym (cls_perm t Hcons c b (proj2 (rvalidc c) Hc) Hb))).
  apply (Permutation_in _ (cls_perm t Hcons c' b (proj2 (rvalidc c') Hc') Hb')). apply (cls_self t Hcons). apply rvalidc; auto.
Qed.

Section M.
Variable m : cmap.
Variable R : dresult.
Hypothesis HR : is_ares DI m R.
Notation ridx := (ridx m).
Let V : avals I m := proj1 (proj2 HR).
Let ES : cmsizes m = sizes := av_sizes I m V.
Notation own := (own DI m).
Notation keptd := (keptd DI m).

Lemma near_value (c : pcorner) a e : fst c < np -> a < 2 -> e < 2 -> if aelb I c a e then (cmval m (B c a e) < 0)%Z else cmval m (B c a e) = 0%Z.
Proof. intros Hc Ha He. apply (av_near I m V c Hc a e Ha He). Qed.

Lemma vlist_zero (c : pcorner) x : fst c < np -> spc c = true -> In x (vlist c) -> In x D /\ cmval m x = 0%Z.
Proof.
  intros Hc Hs Hx. pose proof Hx as Hx0. unfold vlist in Hx0.
  destruct (vlist_split c x Hc Hs Hx) as [(b & Hb & ->)|(Hv & b & a & e & Hb & Ha & He & -> & Hn & Hf)]; pose proof (rcls_valid I RI c b Hc Hb) as Hb'.
  - split; [apply (B_in I RI); auto|]. destruct (spc_cases c Hc Hs) as [[Hv Hk]|(Hv & Hi & Hr & Hsh)].
    + assert (valence c =? 2 = false) as E by lia. rewrite E in Hx0. destruct Hk as [Hk|[Hi Hr]].
      * pose proof (near_value b 0 0 Hb' ltac:(lia) ltac:(lia)) as N. unfold aelb in N.
        assert (kept I b 0 0 = true) as Ek; [|rewrite Ek, andb_false_r in N; exact N].
        unfold kept. cbn [Nat.eqb andb]. rewrite (low0_cls I RI c b) by auto. apply low_in in Hx0. rewrite Hx0, andb_true_r.
        destruct (half0_cls I RI c b Hc Hb) as (-> & _). rewrite (inner_cls t Hcons c b), (valence_cls t Hcons c b); auto; apply rvalidc; auto.
      * apply (sharp_own DI RI m V b); auto; [rewrite (inner_cls t Hcons c b); auto; apply rvalidc; auto|rewrite (rc0_cls I RI c b); auto].
    + apply (sharp_own DI RI m V b); auto; [rewrite (inner_cls t Hcons c b); auto; apply rvalidc; auto|rewrite (rc0_cls I RI c b); auto].
  - split; [apply (B_in I RI); auto|]. destruct (spc_cases c Hc Hs) as [[Hv' _]|(_ & Hi & Hr & Hsh)]; [lia|].
    rewrite Hv in Hx0. cbn [Nat.eqb] in Hx0. apply in_app_iff in Hx0. destruct Hx0 as [Hx0|Hx0].
    { exfalso. apply in_map_iff in Hx0. destruct Hx0 as (b' & E & Hb2). apply (B_inj I RI) in E; auto; [|apply (rcls_valid I RI c b'); auto].
      destruct E as (_ & <- & <-). discriminate. }
    pose proof (near_value b a e Hb' Ha He) as N. unfold aelb in N. assert (kept I b a e = true) as Ek; [|rewrite Ek, andb_false_r in N; exact N].
    unfold kept. rewrite Hn. rewrite (low1_cls I RI c b) by auto. apply low_in in Hx0. rewrite Hx0. destruct (half0_cls I RI c b Hc Hb) as (_ & _ & ->).
    rewrite Hsh. reflexivity.
Qed.

Lemma acRows_ok (c : pcorner) : fst c < np -> spc c = true -> acRows I m c (valence c) = Ok (map ridx (vlist c)).
Proof.
  intros Hc Hs. unfold acRows. rewrite (all0_ok I RI c Hc). cbn [bind].
  assert ((if valence c =? 2 then do j1 <- rAllInterfaceIndices I c 1; match getLowestIndices j1 1 with x :: _ => Ok (map i0 (cls c) ++ [x]) | [] => Err end
           else Ok (getLowestIndices (map i0 (cls c)) 3)) = Ok (vlist c)) as ->.
  { unfold vlist. destruct (spc_cases c Hc Hs) as [[Hv _]|(Hv & Hi & Hr & Hsh)].
    - assert (valence c =? 2 = false) as -> by lia. reflexivity.
    - rewrite Hv. cbn [Nat.eqb]. rewrite (all1_ok I RI c Hc). cbn [bind].
      destruct (lowest_split (flat_map i1 (cls c)) 1 (i1_nodup I RI c Hc) (val2_i1 c Hc Hv Hi)) as (r & _ & L & _).
      destruct (getLowestIndices (flat_map i1 (cls c)) 1) as [|x [|]]; try discriminate. reflexivity. }
  cbn [bind]. apply mapM_ok. intros x Hx. destruct (vlist_zero c x Hc Hs Hx) as [Hin Hz].
  assert (cis_free m (snd x) (fst x) = true) as ->.
  { unfold cis_free. replace (fst x, snd x) with x by (destruct x; reflexivity). rewrite Hz. reflexivity. }
  cbn [ensure bind]. apply (cindex_ok sizes m ES); auto.
Qed.

Lemma kept_vlist x : keptd x -> exists c, fst c < np /\ spc c = true /\ In x (vlist c).
Proof.
  intros (Hz & c & a & e & Hc & Ha & He & -> & Hav). pose proof (near_value c a e Hc Ha He) as N. unfold aelb in N. rewrite Hav in N. cbn [andb] in N.
  destruct (kept I c a e) eqn:Ek; cbn [negb] in N; [|lia]. exists c. split; auto. unfold kept in Ek.
  destruct ((a =? 0) && (e =? 0)) eqn:E0; apply andb_true_iff in Ek; destruct Ek as [E1 E2].
  - assert (a = 0 /\ e = 0) as [-> ->] by lia. assert (spc c = true) as Hs.
    { unfold spc. apply orb_prop in E1. destruct E1 as [E1|E1]; [rewrite E1; reflexivity|]. unfold half0 in E1. apply orb_true_iff. right.
      destruct (inner c), (rc0 c); try discriminate; simpl in *; lia. }
    split; auto. unfold vlist. assert (valence c =? 2 = false) as ->.
    { apply orb_prop in E1. destruct E1 as [E1|E1].
      - apply andb_true_iff in E1. pose proof (inner_val c Hc (proj1 E1)). lia.
      - unfold half0 in E1. lia. }
    apply low_in. exact E2.
  - assert (valence c = 2 /\ inner c = false /\ rc0 c = true) as (Hv & Hi & Hr) by (unfold sharp2 in E1; destruct (inner c), (rc0 c); try discriminate; simpl in E1; split; auto; lia).
    split; [unfold spc; rewrite Hi, Hr, Hv; reflexivity|]. unfold vlist. rewrite Hv. cbn [Nat.eqb]. apply in_app_iff. right. apply low_in. exact E2.
Qed.

Lemma own_corner (c : pcorner) : fst c < np -> spc c = true -> own (B c 0 0) -> inner c = false /\ rc0 c = true.
Proof.
  intros Hc Hs [_ Ho]. specialize (Ho c 0 0 Hc ltac:(lia) ltac:(lia) eq_refl). unfold avg in Ho. cbn [Nat.eqb andb] in Ho.
  apply orb_false_iff in Ho. destruct Ho as [Ho Hf]. apply orb_false_iff in Ho. destruct Ho as [Hi Hh].
  destruct (spc_cases c Hc Hs) as [[Hv [Hk|Hk]]|(Hv & Hi' & Hr & Hsh)]; auto.
  rewrite Hi, Hh in Hk. discriminate.
Qed.

Lemma corner_in_vlist (c : pcorner) : fst c < np -> spc c = true -> valence c <= 3 -> In (B c 0 0) (vlist c).
Proof.
  intros Hc Hs Hv3. pose proof (cls_self t Hcons c (proj2 (rvalidc c) Hc)) as Self. unfold vlist. destruct (spc_cases c Hc Hs) as [[Hv _]|(Hv & _)].
  - assert (valence c =? 2 = false) as -> by lia.
    destruct (lowest_split (map i0 (cls c)) 3 (i0_nodup I RI c Hc)) as (r & _ & L & P & _); [rewrite i0_len; lia|].
    pose proof (Permutation_length P) as PL. rewrite app_length, L, i0_len in PL. assert (length r = 0) as Lr by lia. apply length_zero_iff_nil in Lr. subst r.
    rewrite app_nil_r in P. apply (Permutation_in _ (Permutation_sym P)). apply in_map_iff. exists c. auto.
  - rewrite Hv. cbn [Nat.eqb]. apply in_app_iff. left. apply in_map_iff. exists c. auto.
Qed.

(** ** the specification *)
Lemma corner_dof_B (c : pcorner) : fst c < np -> corner_dof DI c = B c 0 0.
Proof. intros Hc. unfold corner_dof, RingProofs2.B. f_equal. change (basis_at DI (fst c)) with (rbas (fst c)). apply rcorner_blk. apply (rbas_like I RI); auto. Qed.

Lemma edge_dof_dpt (c : pcorner) s : fst c < np -> touches (snd c) s -> edge_dof DI c s = dpt DI c (side_dir s) 1 0.
Proof. intros Hc Ts. unfold edge_dof. rewrite (rifv_dpt DI RI c s 1 0) by auto. rewrite (fst_dpt DI c (side_dir s) 1 0). symmetry. apply surjective_pairing. Qed.


Lemma iface_edge_iff (c : pcorner) s : fst c < np -> interface_edge DI c s <-> exists d, d < 2 /\ s = cside (snd c) d /\ ifl c d = true.
Proof.
  intros Hc. unfold interface_edge. rewrite touches_on, on_side_iff_cside. unfold TopoProofs.ifl. split.
  - intros [[->| ->] Hin]; [exists 0|exists 1]; (split; [lia|]); split; auto; apply isInterface_in; auto.
  - intros (d & Hd & -> & F). apply isInterface_in in F. split; auto. destruct d as [|[|]]; auto; lia.
Qed.
Lemma in_i1_edge (c : pcorner) x : fst c < np -> In x (i1 c) <-> exists s, interface_edge DI c s /\ x = edge_dof DI c s.
Proof.
  intros Hc. unfold RingProofs2.i1. split.
  - intros Hx. apply in_app_iff in Hx. destruct Hx as [Hx|Hx].
    + destruct (ifl c 0) eqn:F; [|destruct Hx]. destruct Hx as [<-|[]]. exists (cside (snd c) 0). split; [apply iface_edge_iff; auto; exists 0; auto|].
      rewrite edge_dof_dpt by (auto using cside_touches). rewrite side_dir_cside by lia. reflexivity.
    + destruct (ifl c 1) eqn:F; [|destruct Hx]. destruct Hx as [<-|[]]. exists (cside (snd c) 1). split; [apply iface_edge_iff; auto; exists 1; auto|].
      rewrite edge_dof_dpt by (auto using cside_touches). rewrite side_dir_cside by lia. reflexivity.
  - intros (s & Hs & ->). rewrite edge_dof_dpt by (solve [auto|apply Hs]). apply iface_edge_iff in Hs; auto. destruct Hs as (d & Hd & -> & F). rewrite side_dir_cside by auto.
    apply in_app_iff. destruct d as [|[|]]; [left|right|lia]; rewrite F; left; reflexivity.
Qed.

Lemma zero_row x : In x D -> cmval m x = 0%Z -> has_row R x (ridx x).
Proof.
  intros Hx Hz. pose proof HR as (_ & _ & R1 & R2 & _). unfold has_row. rewrite R1, R2. split; [apply (cindex_ok sizes m ES); auto|apply (ridx_lt sizes m ES); auto; lia].
Qed.

Lemma vlist_rows (c b : pcorner) x0 x1 x2 : fst c < np -> spc c = true -> In b (cls c) -> vlist b = [x0; x1; x2] ->
  vertex_rows DI R c (ridx x0) (ridx x1) (ridx x2).
Proof.
  intros Hc Hs Hb E. pose proof (proj2 (rvalidc c) Hc) as Hv. pose proof (rcls_valid I RI c b Hc Hb) as Hb'.
  assert (spc b = true) as Hsb by (rewrite (spc_cls c b); auto).
  assert (forall b', In b' (cls b) <-> same_vertex t c b') as SV.
  { intros b'. rewrite (same_vertex_cls t Hcons c b' Hv). split; apply Permutation_in; [symmetry|]; apply (cls_perm t Hcons); auto. }
  assert (forall x, In x [x0; x1; x2] -> has_row R x (ridx x)) as HRW.
  { intros x Hx. rewrite <- E in Hx. destruct (vlist_zero b x Hb' Hsb Hx). apply zero_row; auto. }
  pose proof (valence_cls t Hcons c b Hv Hb) as Vb.
  unfold vlist in E. destruct (spc_cases b Hb' Hsb) as [[Hv3 _]|(Hv2 & Hi & Hr & Hsh)].
  - assert (valence b =? 2 = false) as E2 by lia. rewrite E2 in E.
    destruct (lowest_split (map i0 (cls b)) 3 (i0_nodup I RI b Hb')) as (r & _ & L & P & Inc & Lo); [rewrite i0_len; lia|]. rewrite E in *.
    assert (forall x, In x [x0; x1; x2] -> exists b', In b' (cls b) /\ x = corner_dof DI b') as K.
    { intros x Hx. assert (In x (map i0 (cls b))) as Hx' by (apply (Permutation_in _ P), in_app_iff; auto).
      apply in_map_iff in Hx'. destruct Hx' as (b' & <- & Hb2). exists b'. split; auto. rewrite corner_dof_B by (apply (rcls_valid I RI b b'); auto). reflexivity. }
    destruct (K x0) as (b0 & B0 & ->); [simpl; auto|]. destruct (K x1) as (b1 & B1 & ->); [simpl; auto|]. destruct (K x2) as (b2 & B2 & ->); [simpl; auto|].
    inversion Inc as [|? ? I1 Inc1]; subst. inversion Inc1 as [|? ? I2 _]; subst.
    apply (vr_many DI R c (valence c) b0 b1 b2); auto; try (apply SV; auto); try (apply HRW; simpl; auto).
    + apply (has_valence_iff t Hcons); auto.
    + lia.
    + apply I1. simpl; auto.
    + apply I2. simpl; auto.
    + intros b' Sb. apply SV in Sb. pose proof (rcls_valid I RI b b' Hb' Sb) as Pb.
      assert (In (corner_dof DI b') ([corner_dof DI b0; corner_dof DI b1; corner_dof DI b2] ++ r)) as Hin.
      { apply (Permutation_in _ (Permutation_sym P)). rewrite corner_dof_B by auto. apply in_map_iff. exists b'. auto. }
      assert (forall b'', In b'' (cls b) -> corner_dof DI b'' = corner_dof DI b' -> b' = b'') as Inj.
      { intros b'' H1 H2. pose proof (rcls_valid I RI b b'' Hb' H1) as P2. rewrite !corner_dof_B in H2 by auto. apply (B_inj I RI) in H2; auto. symmetry. tauto. }
      apply in_app_iff in Hin. destruct Hin as [[Hin|[Hin|[Hin|[]]]]|Hin]; auto 10.
      right; right; right. apply Lo; auto. simpl; auto.
  - rewrite Hv2 in E. cbn [Nat.eqb] in E. pose proof (val2_i1 b Hb' Hv2 Hi) as L1.
    destruct (lowest_split (flat_map i1 (cls b)) 1 (i1_nodup I RI b Hb') L1) as (r & _ & L & P & _ & Lo).
    destruct (getLowestIndices (flat_map i1 (cls b)) 1) as [|y [|]] eqn:Ey; try discriminate.
    assert (exists b0 b1, cls b = [b0; b1]) as (b0 & b1 & Eb).
    { unfold TopoProofs.valence in Hv2. destruct (cls b) as [|b0 [|b1 [|]]]; try discriminate. eauto. }
    rewrite Eb in E. cbn [map app] in E. injection E as <- <- <-.
    assert (fst b0 < np /\ fst b1 < np) as [P0 P1] by (split; apply (rcls_valid I RI b); auto; rewrite Eb; simpl; auto).
    assert (In y (flat_map i1 (cls b))) as Hy by (apply (Permutation_in _ P); left; auto).
    apply in_flat_map in Hy. destruct Hy as (b2 & Hb2 & Hy). pose proof (rcls_valid I RI b b2 Hb' Hb2) as P2. apply in_i1_edge in Hy; auto.
    destruct Hy as (s & Hes & ->).
    apply (vr_two DI R c b0 b1 b2 s).
    + apply (has_valence_iff t Hcons); auto. lia.
    + pose proof (cls_nodup t Hcons b (proj2 (rvalidc b) Hb')) as N. rewrite Eb in N. inversion N as [|? ? N1 _]; subst. intros ->. apply N1. left; auto.
    + apply SV. rewrite Eb. simpl; auto.
    + apply SV. rewrite Eb. simpl; auto.
    + apply SV. exact Hb2.
    + exact Hes.
    + intros b' s' Sb Hes'. apply SV in Sb. pose proof (rcls_valid I RI b b' Hb' Sb) as Pb.
      assert (In (edge_dof DI b' s') ([edge_dof DI b2 s] ++ r)) as Hin.
      { apply (Permutation_in _ (Permutation_sym P)). apply in_flat_map. exists b'. split; auto. apply in_i1_edge; eauto. }
      apply in_app_iff in Hin. destruct Hin as [[Hin|[]]|Hin]; auto. right. apply Lo; auto. simpl; auto.
    + rewrite corner_dof_B by auto. apply HRW. simpl; auto.
    + rewrite corner_dof_B by auto. apply HRW. simpl; auto.
    + apply HRW. simpl; auto.
Qed.
End M.
End W.
