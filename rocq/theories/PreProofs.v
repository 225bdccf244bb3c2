(** The geometry exported by gsAlmostC1: proofs. *)
From Coq Require Import Reals Qreals Lra.
From Verif Require Import Common TopoModel BaseModel BaseModel2 BaseSpec2 IndexSpec TopoSpec SmoothSpec SmoothSpec2 RefModel RefSpec RingModel RingSpec DpModel DpSpec
  IndexProofs IndexTopoProofs ListLemmas TopoProofs PointProofs MapperProofs CountProofs MatrixProofs HandlerProofs ResultProofs GeometryProofs
  BaseProofs2 RefProofs RingProofs RingProofs2 RingProofs3 DpProofs DpProofs2 DpProofs3 DpProofs4 PiSpec PiProofs TriangleModel TriangleSpec TriangleProofs EvModel EvSpec
  AcModel AcSpec AcSpec2 AcProofs AcProofs2 AcProofs3 AcProofs4 AcProofs5 AcProofs6 AcProofs7 PreModel PreSpec.
From Verif Require MapProofs ExportProofs.
From Coq Require Import ZifyBool.
Open Scope nat_scope.

(* ------------------------------------------------------------------ *)
(** * Coefficients of free functions *)

Section Free.
Variables (sz : list nat) (m : cmap).
Hypothesis ES : cmsizes m = sz.
Notation D := (dofs_from 0 sz).
Context {A : Type} (d : A) (P : list (list A)).
Hypothesis HP : map (@length A) P = sz.
Notation at_dof := (ExportProofs.at_dof d P).

Lemma P_get (x : dof) : In x D -> exists cs, vget P (fst x) = Ok cs /\ vget cs (snd x) = Ok (at_dof x) /\
  nth_error P (fst x) = Some cs /\ nth_error cs (snd x) = Some (at_dof x).
Proof.
  intros Hx. apply (cvalid_in sz (mkCM sz (fun _ => 0%Z) 1 (-1)) x eq_refl) in Hx. unfold cvalid in Hx. cbn [cmsizes] in Hx.
  destruct (nth_error sz (fst x)) as [n|] eqn:En; [|discriminate]. rewrite <- HP, nth_error_map in En.
  destruct (nth_error P (fst x)) as [cs|] eqn:Ec; [|discriminate]. cbn [option_map] in En. injection En as En.
  exists cs. unfold vget. rewrite Ec. split; auto. destruct (nth_error cs (snd x)) as [u|] eqn:Er; [|apply nth_error_None in Er; lia].
  unfold ExportProofs.at_dof. rewrite (nth_error_nth P (fst x) [] Ec), (nth_error_nth cs (snd x) d Er). auto.
Qed.

Lemma cfreeCoefs_ok : (forall x y, In x D -> In y D -> (0 <= cmval m x)%Z -> (0 <= cmval m y)%Z -> ridx m x = ridx m y -> x = y) ->
  exists v, cfreeCoefs m P = Ok v /\ length v = cfreeSize m /\
    forall x, In x D -> (0 <= cmval m x)%Z -> nth_error v (ridx m x) = Some (at_dof x).
Proof.
  intros Inj. unfold cfreeCoefs. rewrite (cdofs_D sz m ES).
  match goal with |- context [foldM ?f D ?s] =>
    destruct (foldM_inv (fun pre (v : list (option A)) => length v = cfreeSize m /\
      forall x, In x pre -> (0 <= cmval m x)%Z -> nth_error v (ridx m x) = Some (Some (at_dof x))) f D s) as (v & E & L & Hv) end.
  - split; [apply repeat_length|]. intros x [].
  - intros pre x post v E [L Hv]. assert (In x D) as Hx by (rewrite E; apply in_elt).
    assert (forall y, In y pre -> In y D) as Hpre by (intros y Hy; rewrite E; apply in_app_iff; auto).
    unfold cis_free. replace (fst x, snd x) with x by (destruct x; reflexivity). destruct (0 <=? cmval m x)%Z eqn:F.
    + rewrite (cindex_ok sz m ES x Hx). cbn [bind]. destruct (P_get x Hx) as (cs & -> & E2 & _). cbn [bind]. rewrite E2. cbn [bind].
      assert (ridx m x < length v) as Lx by (rewrite L; apply (ridx_lt sz m ES); auto; lia).
      eexists. split; [apply vset_ok; auto|]. split; [rewrite upd_length; auto|]. intros y Hy Fy. rewrite nth_error_upd by auto.
      destruct (Nat.eqb_spec (ridx m y) (ridx m x)) as [Ey|Ny].
      * assert (y = x) as ->; auto. apply Inj; auto; [|lia]. apply in_app_iff in Hy. destruct Hy as [Hy|[<-|[]]]; auto.
      * apply in_app_iff in Hy. destruct Hy as [Hy|[<-|[]]]; [apply Hv; auto|congruence].
    + exists v. split; auto. split; auto. intros y Hy Fy. apply in_app_iff in Hy. destruct Hy as [Hy|[<-|[]]]; [apply Hv; auto|lia].
  - rewrite E. cbn [bind].
    assert (forall w : list (option A), (forall i, i < length w -> exists a, nth_error w i = Some (Some a)) ->
      exists u, mapM (fun o => match o with Some a => Ok a | None => Err end) w = Ok u /\ map Some u = w) as K.
    { induction w as [|o w IH]; intros H; [exists []; auto|]. destruct (H 0) as (a & Ha); [simpl; lia|]. simpl in Ha. injection Ha as ->.
      destruct IH as (u & Eu & <-); [intros i Hi; apply (H (S i)); simpl; lia|]. exists (a :: u). simpl. rewrite Eu. auto. }
    destruct (K v) as (u & Eu & Ev).
    + intros i Hi. rewrite L in Hi. destruct (ridx_onto sz m ES i Hi) as (x & Hx & Fx & <-). eauto.
    + exists u. rewrite Eu. split; auto. split; [rewrite <- L, <- Ev, map_length; auto|]. intros x Hx Fx. specialize (Hv x Hx Fx).
      rewrite <- Ev, nth_error_map in Hv. destruct (nth_error u (ridx m x)); [injection Hv as ->; auto|discriminate].
Qed.
End Free.

(* ------------------------------------------------------------------ *)
(** * Products *)

Lemma weighted_ext n w g w' g' : (forall k, k < n -> w k = w' k) -> (forall k, k < n -> g k = g' k) -> weighted n w g = weighted n w' g'.
Proof. intros H1 H2. unfold weighted. f_equal; apply rsum_ext; intros k Hk; rewrite H1, H2; auto. Qed.

Lemma fold_weighted (w : nat -> R) l : forall a, 
  fold_right (fun (rv : nat * vec3) s => vadd (vscale (w (fst rv)) (snd rv)) s) vzero (combine (seq a (length l)) l) =
  weighted (length l) (fun k => w (a + k)) (points l).
Proof.
  induction l as [|u l IH]; intros a; [reflexivity|]. cbn [length seq combine fold_right fst snd]. rewrite IH. unfold points.
  assert (forall f, rsum (S (length l)) f = (f 0%nat + rsum (length l) (fun k => f (S k)))%R) as K.
  { intros f. generalize (length l). induction n as [|n IHn]; cbn [rsum]; [ring|]. cbn [rsum] in IHn. rewrite IHn. ring. }
  unfold weighted, vadd, vscale. cbn [vx vy vz]. rewrite !K, Nat.add_0_r. cbn [nth]. f_equal; f_equal; apply rsum_ext; intros k _; rewrite Nat.add_succ_r; reflexivity.
Qed.

Lemma timesT_ok rows cols A v : length v = rows -> exists l, timesT rows cols A v = Ok l /\ length l = cols /\
  forall c, c < cols -> nth_error l c = Some (weighted rows (fun r => A r c) (points v)).
Proof.
  intros <-. unfold timesT. rewrite Nat.eqb_refl. cbn [ensure bind]. eexists. split; [reflexivity|]. split; [rewrite map_length, seq_length; auto|].
  intros c Hc. rewrite nth_error_map, nth_error_nth' with (d := 0) by (rewrite seq_length; auto). rewrite seq_nth by auto. cbn [option_map plus]. f_equal.
  apply (fold_weighted (fun r => A r c) v 0).
Qed.
Lemma timesT_inv rows cols A v l : timesT rows cols A v = Ok l -> length v = rows.
Proof. unfold timesT. destruct (length v =? rows) eqn:E; [intros _; lia|discriminate]. Qed.

(* ------------------------------------------------------------------ *)
(** * setCoefficients *)

Lemma set_cols (sz : list nat) : cfreeSize (cmap_of sz) = sumN sz.
Proof.
  unfold cfreeSize. cbn [cmval cmap_of cmsizes]. rewrite filter_all by auto. rewrite dofs_from_length.
  assert (filter (fun z => 0 <? z)%Z (map (fun _ : dof => 0%Z) (dofs_from 0 sz)) = []) as ->; [|simpl; lia].
  induction (dofs_from 0 sz); simpl; auto.
Qed.
Lemma dofs_combine sz : forall a, dofs_from a sz = flat_map (fun pn => map (pair (fst pn)) (seq 0 (snd pn))) (combine (seq a (length sz)) sz).
Proof. induction sz as [|n sz IH]; intros a; auto. cbn [dofs_from length seq combine flat_map fst snd]. rewrite IH. reflexivity. Qed.

Lemma pos_seq l : forall pre, NoDup (pre ++ l) -> map (fun x => pos_in x (pre ++ l)) l = seq (length pre) (length l).
Proof.
  induction l as [|x l IH]; intros pre N; auto. cbn [map length seq]. f_equal.
  - rewrite pos_in_app_r by (intros H; apply NoDup_remove_2 in N; apply N, in_app_iff; auto). simpl. rewrite (proj2 (dof_eqb_iff x x) eq_refl). lia.
  - replace (pre ++ x :: l) with ((pre ++ [x]) ++ l) in * by (rewrite <- app_assoc; reflexivity). rewrite (IH (pre ++ [x]) N), app_length. simpl. f_equal. lia.
Qed.

Lemma setCoefs_ok {A} (sz : list nat) (v : list A) : length v = sumN sz -> exists L, setCoefs sz v = Ok L /\ map (@length A) L = sz /\ concat L = v.
Proof.
  intros Lv. destruct v as [|d v0] eqn:Ev.
  - (* no functions *)
    exists (map (fun _ => []) sz). cbn [length] in Lv. assert (forall n, In n sz -> n = 0) as Z.
    { clear Ev. induction sz as [|n sz IH]; intros k Hk; [destruct Hk|]. cbn [sumN] in Lv. destruct Hk as [<-|Hk]; [lia|apply IH; auto; lia]. }
    unfold setCoefs. assert (sumN sz =? length (@nil A) = true) as -> by (simpl; lia). cbn [ensure bind].
    split; [|split].
    + assert (forall a, mapM (fun pn => mapM (fun k => do i <- cindex (cmap_of sz) k (fst pn); vget (@nil A) i) (seq 0 (snd pn))) (combine (seq a (length sz)) sz) = Ok (map (fun _ => []) sz)) as K; [|apply K].
      generalize (cmap_of sz) as m. clear Ev Lv. induction sz as [|n sz IH]; intros m a; auto. rewrite (Z n) in * by (left; auto). simpl. rewrite IH; auto. intros k Hk. apply Z. right; auto.
    + rewrite map_map. simpl. transitivity (map (fun n : nat => n) sz); [|apply map_id]. apply map_ext_in. intros n Hn. rewrite (Z n Hn). reflexivity.
    + clear. induction sz; auto.
  - rewrite <- Ev in *. clear Ev v0. set (D := dofs_from 0 sz). assert (length D = length v) as LD by (unfold D; rewrite dofs_from_length; auto).
    exists (map (fun pn => map (fun k => nth (cidx sz (fst pn, k)) v d) (seq 0 (snd pn))) (combine (seq 0 (length sz)) sz)).
    assert (concat (map (fun pn : nat * nat => map (fun k => nth (cidx sz (fst pn, k)) v d) (seq 0 (snd pn))) (combine (seq 0 (length sz)) sz)) = v) as Ec.
    { transitivity (map (fun x => nth (cidx sz x) v d) D).
      - unfold D. rewrite dofs_combine. generalize (combine (seq 0 (length sz)) sz). induction l as [|pn l IH]; auto.
        cbn [map concat flat_map]. rewrite map_app, IH, map_map. reflexivity.
      - assert (map (cidx sz) D = seq 0 (length D)) as Es by (apply (pos_seq D []); cbn [app]; apply (D_nodup sz)).
        rewrite <- (map_map (cidx sz) (fun i => nth i v d)), Es, LD. clear. induction v as [|x v IH]; auto. cbn [length seq map nth]. f_equal.
        rewrite <- seq_shift, map_map. cbn [nth]. exact IH. }
    split; [|split; auto].
    + unfold setCoefs. rewrite Lv, Nat.eqb_refl. cbn [ensure bind]. apply mapM_ok. intros [p n] Hp. apply mapM_ok. intros k Hk. cbn [fst snd] in *.
      assert (In (p, k) D) as Hx by (unfold D; rewrite dofs_combine; apply in_flat_map; exists (p, n); split; auto; apply in_map; auto).
      pose proof (cindex_ok sz (cmap_of sz) eq_refl (p, k) Hx) as Ei. cbn [fst snd] in Ei. rewrite Ei. cbn [bind]. rewrite (ridx_orig sz). pose proof (cidx_lt sz (p, k) Hx) as Lt. rewrite set_cols in Lt.
      unfold vget. rewrite (nth_error_nth' v d) by lia. reflexivity.
    + rewrite map_map. transitivity (map snd (combine (seq 0 (length sz)) sz)); [apply map_ext; intros pn; rewrite map_length, seq_length; auto|].
      clear. generalize 0. induction sz as [|n sz IH]; intros a; auto. cbn [length seq combine map snd]. rewrite IH. reflexivity.
Qed.
Lemma setCoefs_err {A} (sz : list nat) (v : list A) : length v <> sumN sz -> setCoefs sz v = Err.
Proof. intros H. unfold setCoefs. assert (sumN sz =? length v = false) as -> by lia. reflexivity. Qed.

(* ------------------------------------------------------------------ *)
(** * _preCoefficients *)

Section P.
Variable DI : dinput.
Notation I := (dring DI).
Hypothesis RI : ring_input I.
Hypothesis RM : rows_match DI.
Notation t := (ritopo I).
Notation np := (length (ribases I)).
Hypothesis SU : supported SchemeAlmostC1 t.
Let Hcons : consistent t := ri_topo I RI.
Let Hnp : tnp t = np := ri_np I RI.
Notation cls := (cls t).
Notation valence := (valence t).
Notation inner := (inner t).
Notation B := (B I).
Notation spc := (spc DI).
Notation vlist := (vlist DI).
Notation D := (dofs_from 0 (sizes I)).
Let rvalidc := rvalidc I RI.
Variable P : list (list vec3).
Hypothesis HP : fits DI P.
Notation at_dof := (ExportProofs.at_dof vzero P).

Lemma free_ok m R : is_ares DI m R -> exists v, cfreeCoefs m P = Ok v /\ length v = drRows R /\
  forall x, In x D -> cmval m x = 0%Z -> nth_error v (ridx m x) = Some (at_dof x).
Proof.
  intros HR. pose proof HR as (_ & V & R1 & R2 & _). destruct (cfreeCoefs_ok (sizes I) m (av_sizes I m V) vzero P HP) as (v & E & L & H).
  - intros x y Hx Hy Fx Fy. pose proof (val_le DI RI m V x Hx). pose proof (val_le DI RI m V y Hy). apply (aridx_neq DI RI m V); auto; lia.
  - exists v. split; auto. split; [congruence|]. intros x Hx Zx. apply H; auto. lia.
Qed.

Lemma point_dof x u : In x D -> point_at P x u <-> u = at_dof x.
Proof.
  intros Hx. destruct (P_get (sizes I) vzero P HP x Hx) as (cs & _ & _ & E1 & E2). unfold point_at. split.
  - intros (cs' & E1' & E2'). congruence.
  - intros ->. eauto.
Qed.
Lemma row_dof m R x r : is_ares DI m R -> has_row R x r <-> In x D /\ cmval m x = 0%Z /\ r = ridx m x.
Proof.
  intros HR. split; [apply (has_row_dof DI RI m R x r HR)|]. intros (Hx & Zx & ->). pose proof HR as (_ & V & R1 & R2 & _). split.
  - rewrite R1. apply (cindex_ok (sizes I) m (av_sizes I m V) x Hx).
  - rewrite R2. apply (ridx_lt (sizes I) m (av_sizes I m V) x Hx). lia.
Qed.

(** vertices share no function *)
Lemma vlist_disj (c c' : pcorner) x : special DI c -> special DI c' -> In x (vlist c) -> In x (vlist c') -> In c' (cls c).
Proof.
  intros Hs Hs' Hx Hx'. destruct (proj1 (spc_iff DI RI c) Hs) as [Hc Sc], (proj1 (spc_iff DI RI c') Hs') as [Hc' Sc'].
  assert (forall z, fst z < np -> spc z = true -> In x (vlist z) -> exists b a e, In b (cls z) /\ a < 2 /\ e < 2 /\ x = B b a e) as K.
  { intros z Hz Sz Hin. destruct (vlist_split DI RI SU z x Hz Sz Hin) as [(b & Hb & ->)|(_ & b & a & e & Hb & Ha & He & -> & _)]; [exists b, 0, 0|exists b, a, e]; repeat split; auto. }
  destruct (K c Hc Sc Hx) as (b & a & e & Hb & Ha & He & ->), (K c' Hc' Sc' Hx') as (b' & a' & e' & Hb' & Ha' & He' & Eb).
  apply (B_inj I RI) in Eb; auto; [|apply (rcls_valid I RI c b); auto]. destruct Eb as (<- & _).
  apply (Permutation_in _ (Permutation_sym (cls_perm t Hcons c b (proj2 (rvalidc c) Hc) Hb))).
  apply (Permutation_in _ (cls_perm t Hcons c' b (proj2 (rvalidc c') Hc') Hb')). apply (cls_self t Hcons). apply rvalidc; auto.
Qed.

(** the condition of the code *)
Lemma branch_ok (c : pcorner) : fst c < np ->
  ((2 <? valence c) && negb ((valence c =? 4) && inner c)) || ((valence c =? 2) && rc0 I c) = spc c.
Proof.
  intros Hc. unfold AcProofs5.spc. pose proof (inner_val DI RI SU c Hc) as Iv. destruct (inner c); cbn [andb negb orb].
  - specialize (Iv eq_refl). assert (valence c =? 2 = false) as -> by lia. cbn [andb]. rewrite !orb_false_r, andb_true_r. assert (2 <? valence c = true) as -> by lia. reflexivity.
  - rewrite andb_false_r. cbn [negb]. rewrite andb_true_r. destruct (rc0 I c); cbn [andb]; lia.
Qed.

Variable F : refinedIn.
Variable nf : nat.
Variable cl : pcorner -> nat -> nat -> nat.
Variable pt : pcorner -> nat -> nat -> vec3.
Hypothesis RO : refined_ok DI F nf cl pt.
Notation firstc := (firstc DI).

Section M.
Variable m : cmap.
Variable R : dresult.
Hypothesis HR : is_ares DI m R.
Let V : avals I m := proj1 (proj2 HR).
Notation ridx := (ridx m).

(** the rows of a vertex hold the corners of its triangle *)
Definition placed_at (v : list vec3) (b : pcorner) : Prop :=
  exists x0 x1 x2 k0 k1 k2, vlist b = [x0; x1; x2] /\ (exists T, acTri t F b = Ok ([k0; k1; k2], T)) /\
    nth_error v (ridx x0) = Some k0 /\ nth_error v (ridx x1) = Some k1 /\ nth_error v (ridx x2) = Some k2.

Definition PInv (done : list pcorner) (st : list vec3 * list bool) : Prop :=
  length (fst st) = drRows R /\ length (snd st) = 4 * np /\
  (forall c, fst c < np -> exists b, vget (snd st) (vertIndex c) = Ok b /\
     (b = true <-> In c done \/ exists b', In b' done /\ special DI b' /\ In c (cls b'))) /\
  (forall x, In x D -> cmval m x = 0%Z -> (forall c, In c done -> special DI c -> ~ In x (vlist c)) -> nth_error (fst st) (ridx x) = Some (at_dof x)) /\
  (forall c, In c done -> special DI c -> exists b, In b (cls c) /\ firstc b /\ placed_at (fst st) b).

Lemma zrow x : In x D -> cmval m x = 0%Z -> ridx x < drRows R.
Proof. intros Hx Zx. pose proof HR as (_ & _ & _ & -> & _). apply (ridx_lt (sizes I) m (av_sizes I m V) x Hx). lia. Qed.

Lemma pre_step pre pc post st : all_corners np = pre ++ pc :: post -> PInv pre st ->
  exists st', acPreStep I m F st pc = Ok st' /\ PInv (pre ++ [pc]) st'.
Proof.
  intros EA (Lv & Lc & Mk & Own & Tr). destruct st as [v vc]. cbn [fst snd] in *.
  assert (fst pc < np) as Pp by (apply in_all_corners; rewrite EA; apply in_elt).
  pose proof (proj2 (rvalidc pc) Pp) as Vp. pose proof (cls_self t Hcons pc Vp) as Self.
  assert (forall c, In c pre -> fst c < np) as Hpre by (intros c Hc; apply in_all_corners; rewrite EA; apply in_app_iff; auto).
  assert (~ In pc pre) as Nin.
  { intros H. pose proof (all_corners_sorted np) as S. rewrite EA in S. clear -S H. induction pre as [|a pre IH]; [destruct H|]. cbn [app] in S. inversion S as [|? ? S1 S2]; subst.
    destruct H as [->|H]; auto. rewrite Forall_forall in S2. specialize (S2 pc (in_elt _ _ _)). lia. }
  assert (forall c, special DI c -> In pc (cls c) -> special DI pc) as Sp by (intros c Hc Hin; apply (cls_special DI RI c); auto).
  assert (forall a b : pcorner, fst a < np -> In b (cls a) -> Permutation (cls a) (cls b)) as Pm by (intros a b Ha Hb; apply (cls_perm t Hcons); auto; apply rvalidc; auto).
  unfold acPreStep. cbn [fst snd]. destruct (Mk pc Pp) as ([|] & Em & Hm); rewrite Em; cbn [bind].
  - (* handled with an earlier corner *)
    exists (v, vc). split; auto. destruct (proj1 Hm eq_refl) as [H|(b & Hb & Sb & Hpb)]; [contradiction|].
    pose proof (Pm b pc (Hpre b Hb) Hpb) as Pb.
    split; [exact Lv|]. split; [exact Lc|]. cbn [fst snd]. split; [|split].
    + intros c Hc. destruct (Mk c Hc) as (y & Ey & Hy). exists y. split; auto. rewrite Hy. split.
      * intros [H|(b' & H1 & H2)]; [left; apply in_app_iff; auto|right; exists b'; split; auto; apply in_app_iff; auto].
      * intros [H|(b' & H1 & H2 & H3)].
        -- apply in_app_iff in H. destruct H as [H|[<-|[]]]; auto. right. eauto.
        -- apply in_app_iff in H1. destruct H1 as [H1|[<-|[]]]; [right; eauto|]. right. exists b. split; auto. split; auto. apply (Permutation_in _ (Permutation_sym Pb)). exact H3.
    + intros x Hx Zx Hn. apply Own; auto. intros c Hc. apply Hn. apply in_app_iff; auto.
    + intros c Hc Sc. apply in_app_iff in Hc. destruct Hc as [Hc|[<-|[]]]; auto. destruct (Tr b Hb Sb) as (b' & H1 & H2). exists b'. split; auto.
      apply (Permutation_in _ Pb). exact H1.
  - assert (forall b, In b pre -> special DI b -> ~ In pc (cls b)) as Nm.
    { intros b Hb Sb H. assert (false = true) as Ff by (apply Hm; right; eauto). discriminate. }
    rewrite (rc0_vget I RI pc Pp). cbn [bind]. rewrite (cornerList_cls t Hcons pc Vp). cbn [bind].
    rewrite (rvertexData I RI pc Pp). cbn [bind fst snd]. rewrite (branch_ok pc Pp). destruct (spc pc) eqn:Es.
    + (* special vertex *)
      assert (special DI pc) as Hs by (apply (spc_iff DI RI); auto).
      destruct (triangle_ok DI RI F nf cl pt RO pc Hs) as (f & k0 & k1 & k2 & ub & Pf & ET & _). rewrite ET. cbn [bind fst snd].
      rewrite (acRows_ok DI RI SU m R HR pc Pp Es). cbn [bind].
      destruct (vlist pc) as [|x0 [|x1 [|x2 [|]]]] eqn:Ev; try (destruct (vlist_len DI RI SU pc Pp Es) as [Lx _]; rewrite Ev in Lx; discriminate).
      assert (forall x, In x [x0; x1; x2] -> In x D /\ cmval m x = 0%Z) as Zv by (intros x Hx; rewrite <- Ev in Hx; apply (vlist_zero DI RI SU m R HR pc x Pp Es Hx)).
      destruct (Zv x0) as [D0 Z0]; [simpl; auto|]. destruct (Zv x1) as [D1 Z1]; [simpl; auto|]. destruct (Zv x2) as [D2 Z2]; [simpl; auto|].
      pose proof (zrow x0 D0 Z0) as L0. pose proof (zrow x1 D1 Z1) as L1. pose proof (zrow x2 D2 Z2) as L2.
      pose proof (ridx3 DI RI SU m R HR pc x0 x1 x2 Hs Ev) as N3. inversion N3 as [|? ? N01 N3']; subst. inversion N3' as [|? ? N12 _]; subst.
      assert (ridx x0 <> ridx x1 /\ ridx x0 <> ridx x2 /\ ridx x1 <> ridx x2) as (Q1 & Q2 & Q3) by (cbn [In] in *; repeat split; intros E; rewrite ?E in *; auto).
      set (v' := upd (upd (upd v (ridx x0) k0) (ridx x1) k1) (ridx x2) k2).
      assert (foldM (fun coefs j => do r <- vget (map ridx [x0; x1; x2]) j; do k <- vget [k0; k1; k2] j; vset coefs r k) (seq 0 (length [k0; k1; k2])) v = Ok v') as ->.
      { cbn [length seq foldM map vget nth_error bind]. rewrite vset_ok by lia. cbn [bind]. rewrite vset_ok by (rewrite upd_length; lia). cbn [bind].
        rewrite vset_ok by (rewrite !upd_length; lia). reflexivity. }
      cbn [bind]. destruct (marks_fold np (cls pc) vc Lc) as (vc' & EF & L' & G); [intros c Hc; apply (rcls_valid I RI pc c); auto|]. rewrite EF. cbn [bind].
      exists (v', vc'). split; auto. split; [unfold v'; cbn [fst]; rewrite !upd_length; auto|]. split; [exact L'|]. cbn [fst snd].
      assert (forall r, nth_error v' r = if r =? ridx x2 then Some k2 else if r =? ridx x1 then Some k1 else if r =? ridx x0 then Some k0 else nth_error v r) as Gv.
      { intros r. unfold v'. rewrite nth_error_upd by (rewrite !upd_length; lia). rewrite nth_error_upd by (rewrite upd_length; lia). rewrite nth_error_upd by lia. reflexivity. }
      assert (forall x, In x D -> cmval m x = 0%Z -> ~ In x [x0; x1; x2] -> nth_error v' (ridx x) = nth_error v (ridx x)) as Keep.
      { intros x Hx Zx Nx. rewrite Gv. destruct (Nat.eqb_spec (ridx x) (ridx x2)) as [E|]; [apply (aridx_neq DI RI m V) in E; auto; subst; exfalso; apply Nx; simpl; auto|].
        destruct (Nat.eqb_spec (ridx x) (ridx x1)) as [E|]; [apply (aridx_neq DI RI m V) in E; auto; subst; exfalso; apply Nx; simpl; auto|].
        destruct (Nat.eqb_spec (ridx x) (ridx x0)) as [E|]; [apply (aridx_neq DI RI m V) in E; auto; subst; exfalso; apply Nx; simpl; auto|]. reflexivity. }
      split; [|split].
      * intros c Hc. rewrite G by auto. destruct (in_dec pcorner_dec c (cls pc)) as [i|i].
        -- exists true. split; auto. split; auto. intros _. right. exists pc. split; auto. apply in_elt.
        -- destruct (Mk c Hc) as (y & Ey & Hy). exists y. split; auto. rewrite Hy. split.
           ++ intros [H|(b' & H1 & H2)]; [left; apply in_app_iff; auto|right; exists b'; split; auto; apply in_app_iff; auto].
           ++ intros [H|(b' & H1 & H2 & H3)].
              ** apply in_app_iff in H. destruct H as [H|[<-|[]]]; auto. contradiction.
              ** apply in_app_iff in H1. destruct H1 as [H1|[<-|[]]]; [right; eauto|contradiction].
      * intros x Hx Zx Hn. rewrite Keep; auto; [|rewrite <- Ev; apply Hn; auto; apply in_elt]. apply Own; auto. intros c Hc. apply Hn. apply in_app_iff; auto.
      * intros c Hc Sc. apply in_app_iff in Hc. destruct Hc as [Hc|[<-|[]]].
        -- destruct (Tr c Hc Sc) as (b & Hb & Fb & y0 & y1 & y2 & j0 & j1 & j2 & Eb & ETb & W0 & W1 & W2). exists b. split; auto. split; auto.
           exists y0, y1, y2, j0, j1, j2. split; auto. split; auto.
           assert (special DI b) as Sb by (apply (cls_special DI RI c); auto). destruct (proj1 (spc_iff DI RI b) Sb) as [Hb' Sb'].
           assert (forall y, In y [y0; y1; y2] -> nth_error v' (ridx y) = nth_error v (ridx y)) as Ky.
           { intros y Hy. rewrite <- Eb in Hy. destruct (vlist_zero DI RI SU m R HR b y Hb' Sb' Hy) as [Dy Zy]. apply Keep; auto. rewrite <- Ev. intros Hin.
             apply (Nm c Hc Sc). apply (Permutation_in _ (Permutation_sym (Pm c b (Hpre c Hc) Hb))). apply (vlist_disj b pc y); auto. }
           rewrite !Ky by (simpl; auto). auto.
        -- exists pc. split; auto. split.
           ++ intros c Hc. destruct (le_lt_dec (vertIndex pc) (vertIndex c)) as [|Lt]; auto. exfalso.
              pose proof (rcls_valid I RI pc c Pp Hc) as Pc. assert (In c pre) as Hcp.
              { assert (In c (all_corners np)) as Hin by (apply in_all_corners; auto). rewrite EA in Hin. apply in_app_iff in Hin. destruct Hin as [Hin|[<-|Hin]]; auto; [lia|].
                pose proof (all_corners_sorted np) as Ss. rewrite EA in Ss. apply sorted_app in Ss. inversion Ss as [|? ? _ Hall]; subst. rewrite Forall_forall in Hall. specialize (Hall c Hin). lia. }
              apply (Nm c Hcp (cls_special DI RI pc c Hs Hc)). apply (Permutation_in _ (Pm pc c Pp Hc)). exact Self.
           ++ exists x0, x1, x2, k0, k1, k2. split; auto. split; [eauto|]. rewrite !Gv, !Nat.eqb_refl.
              rewrite (proj2 (Nat.eqb_neq _ _) Q1), (proj2 (Nat.eqb_neq _ _) Q2), (proj2 (Nat.eqb_neq _ _) Q3). auto.
    + (* other corners *)
      assert (~ special DI pc) as Hs by (intros H; apply (spc_iff DI RI) in H; destruct H; congruence).
      assert (vertIndex pc < length vc) as Lt by (rewrite Lc; apply IndexProofs.vertIndex_lt; auto). rewrite vset_ok by auto. cbn [bind].
      exists (v, upd vc (vertIndex pc) true). split; auto. split; [exact Lv|]. split; [cbn [snd]; rewrite upd_length; exact Lc|]. cbn [fst snd]. split; [|split].
      * intros c Hc. rewrite vget_upd by auto. destruct (Nat.eqb_spec (vertIndex pc) (vertIndex c)) as [E|E].
        -- apply vertIndex_inj in E. subst c. exists true. split; auto. split; auto. intros _. left. apply in_elt.
        -- destruct (Mk c Hc) as (y & Ey & Hy). exists y. split; auto. rewrite Hy. split.
           ++ intros [H|(b' & H1 & H2)]; [left; apply in_app_iff; auto|right; exists b'; split; auto; apply in_app_iff; auto].
           ++ intros [H|(b' & H1 & H2 & H3)].
              ** apply in_app_iff in H. destruct H as [H|[<-|[]]]; auto. congruence.
              ** apply in_app_iff in H1. destruct H1 as [H1|[<-|[]]]; [right; eauto|contradiction].
      * intros x Hx Zx Hn. apply Own; auto. intros c Hc. apply Hn. apply in_app_iff; auto.
      * intros c Hc Sc. apply in_app_iff in Hc. destruct Hc as [Hc|[<-|[]]]; [auto|contradiction].
Qed.

Lemma pre_ok : exists v, acPre I m F P = Ok v /\ length v = drRows R /\
  (forall x, In x D -> cmval m x = 0%Z -> (forall c, special DI c -> ~ In x (vlist c)) -> nth_error v (ridx x) = Some (at_dof x)) /\
  forall c, special DI c -> exists b, In b (cls c) /\ firstc b /\ placed_at v b.
Proof.
  destruct (free_ok m R HR) as (v0 & E0 & L0 & H0). unfold acPre. rewrite E0. cbn [bind].
  destruct (foldM_inv PInv (acPreStep I m F) (all_corners np) (v0, repeat false (4 * np))) as ([v vc] & EF & L & _ & _ & Ow & Tr).
  - split; auto. split; [apply repeat_length|]. cbn [fst snd]. split; [|split; auto].
    + intros c Hc. exists false. split; [apply vget_repeat, IndexProofs.vertIndex_lt; auto|]. split; [discriminate|]. intros [[]|(b & [] & _)].
    + intros c [].
  - intros pre pc post st E Hi. apply (pre_step pre pc post); auto.
  - rewrite EF. cbn [bind fst snd] in *. exists v. split; auto. split; auto. split.
    + intros x Hx Zx Hn. apply Ow; auto.
    + intros c Hs. apply Tr; auto. apply in_all_corners. apply (spc_iff DI RI c). exact Hs.
Qed.
End M.

Lemma points_nth v r u : nth_error v r = Some u -> points v r = u.
Proof. intros H. unfold points. apply nth_error_nth. exact H. Qed.

(** ** statements *)
Lemma free_thm R : acCompute DI = Ok R -> exists v, cfreeCoefs (drMap R) P = Ok v /\ length v = drRows R /\
  forall x r u, has_row R x r -> point_at P x u -> nth_error v r = Some u.
Proof.
  intros E. destruct (some_ares DI RI RM SU R E) as (m & HR). destruct (free_ok m R HR) as (v & Ev & L & H). pose proof HR as (_ & _ & -> & _).
  exists v. split; auto. split; auto. intros x r u Hr Hu. apply (row_dof m R x r HR) in Hr. destruct Hr as (Hx & Zx & ->).
  apply (point_dof x u Hx) in Hu. subst u. auto.
Qed.

Lemma special_row_vlist m R x : is_ares DI m R -> In x D -> cmval m x = 0%Z -> ~ special_row DI R (ridx m x) -> forall c, special DI c -> ~ In x (vlist c).
Proof.
  intros HR Hx Zx Hn c Hs Hin. apply Hn. destruct (special_rows DI RI SU m R c HR Hs) as (x0 & x1 & x2 & Ev & Hv). exists c, (ridx m x0), (ridx m x1), (ridx m x2).
  split; auto. split; auto. rewrite Ev in Hin. destruct Hin as [<-|[<-|[<-|[]]]]; simpl; auto.
Qed.
Lemma vlist_special_row m R c x : is_ares DI m R -> special DI c -> In x (vlist c) -> special_row DI R (ridx m x).
Proof.
  intros HR Hs Hin. destruct (special_rows DI RI SU m R c HR Hs) as (x0 & x1 & x2 & Ev & Hv). exists c, (ridx m x0), (ridx m x1), (ridx m x2).
  split; auto. split; auto. rewrite Ev in Hin. destruct Hin as [<-|[<-|[<-|[]]]]; simpl; auto.
Qed.

Lemma pre_thm R A : acFinal DI F = Ok (R, A) -> exists v, acPre I (drMap R) F P = Ok v /\ length v = drRows R /\
  forall x r u, has_row R x r -> ~ special_row DI R r -> point_at P x u -> nth_error v r = Some u.
Proof.
  intros E. destruct (final_inv DI RI RM SU F nf cl pt RO R A E) as (m & Ec & HR & FI). destruct (pre_ok m R HR) as (v & Ev & L & H & _).
  pose proof HR as (_ & _ & -> & _). exists v. split; auto. split; auto. intros x r u Hr Hn Hu. apply (row_dof m R x r HR) in Hr. destruct Hr as (Hx & Zx & ->).
  apply (point_dof x u Hx) in Hu. subst u. apply H; auto. apply (special_row_vlist m R x HR); auto.
Qed.

Lemma vertex_geo R A c v : acFinal DI F = Ok (R, A) -> special DI c -> acPre I (drMap R) F P = Ok v ->
  exists b f, same_vertex t c b /\ projection DI F b f /\ forall c' a e, same_vertex t c c' -> a < 2 -> e < 2 ->
    weighted (drRows R) (fun r => A r (cl c' a e)) (points v) = f (pt c' a e).
Proof.
  intros E Hs Ep. destruct (final_inv DI RI RM SU F nf cl pt RO R A E) as (m & Ec & HR & FI). destruct (pre_ok m R HR) as (v' & Ev & L & _ & Tr).
  pose proof HR as (_ & _ & R1 & _). rewrite R1, Ev in Ep. injection Ep as ->. destruct (proj1 (spc_iff DI RI c) Hs) as [Hc Sc].
  destruct (fi_tri _ _ _ _ _ _ _ _ FI c Hs) as (b & Hb & Fb & f & x0 & x1 & x2 & k0 & k1 & k2 & Pf & Evl & (T1 & ET) & T).
  destruct (Tr c Hs) as (b' & Hb' & Fb' & y0 & y1 & y2 & j0 & j1 & j2 & Evl' & (T2 & ET') & W0 & W1 & W2).
  assert (forall a z : pcorner, In a (cls c) -> In z (cls c) -> In z (cls a)) as Cc.
  { intros a z Ha Hz. apply (Permutation_in _ (cls_perm t Hcons c a (proj2 (rvalidc c) Hc) Ha)). exact Hz. }
  assert (b' = b) as ->. { apply vertIndex_inj. pose proof (Fb b' (Cc b b' Hb Hb')). pose proof (Fb' b (Cc b' b Hb' Hb)). lia. }
  rewrite ET in ET'. injection ET' as <- <- <- _. rewrite Evl in Evl'. injection Evl' as <- <- <-.
  exists b, f. split; [apply (sv_cls DI RI); auto|]. split; auto. intros c' a e Sv Ha He. apply (sv_cls DI RI c c' Hc) in Sv.
  destruct (T c' a e (Cc b c' Hb Sv) Ha He) as (_ & K & Zr). rewrite <- K. pose proof (rcls_valid I RI c b Hc Hb) as Pb.
  assert (special DI b) as Sb by (apply (cls_special DI RI c); auto). destruct (proj1 (spc_iff DI RI b) Sb) as [_ Sb'].
  pose proof (ridx3 DI RI SU m R HR b x0 x1 x2 Sb Evl) as N3.
  assert (forall x, In x [x0; x1; x2] -> ridx m x < drRows R) as Lr.
  { intros x Hx. rewrite <- Evl in Hx. destruct (vlist_zero DI RI SU m R HR b x Pb Sb' Hx). apply zrow; auto. }
  unfold weighted, combination, vadd, vscale. cbn [vx vy vz].
  apply points_nth in W0, W1, W2.
  f_equal; (rewrite (rsum_three _ _ (ridx m x0) (ridx m x1) (ridx m x2)); [rewrite W0, W1, W2; ring|apply Lr; simpl; auto|apply Lr; simpl; auto|apply Lr; simpl; auto|auto|intros r Hr; rewrite Zr by auto; ring]).
Qed.

(** rows of special vertices are those of corner functions, or empty *)
Lemma special_entries m R c x k : is_ares DI m R -> special DI c -> In x (vlist c) -> k < drCols R ->
  dentry R (ridx m x) k = 0%Q \/ exists b, In b (cls c) /\ k = dcolumn DI (fst b) (snd (corner_dof DI b)).
Proof.
  intros HR Hs Hin Hk. pose proof HR as (_ & _ & R1 & R2 & R3 & E1 & E2). destruct (proj1 (spc_iff DI RI c) Hs) as [Hc Sc].
  destruct (vlist_zero DI RI SU m R HR c x Hc Sc Hin) as [Hx Zx]. pose proof (proj1 (proj2 HR)) as V.
  destruct (zero_cases DI RI m V x Zx) as [Ox|Kx]; [|left; apply (kept_spare DI RI RM m R HR x Hx Kx); auto].
  assert (exists b, In b (cls c) /\ x = B b 0 0) as (b & Hb & Eb).
  { destruct (vlist_split DI RI SU c x Hc Sc Hin) as [H|(_ & b & a & e & Hb & Ha & He & -> & Hn & Hf)]; auto. exfalso.
    destruct Ox as [_ Ox]. specialize (Ox b a e (rcls_valid I RI c b Hc Hb) Ha He eq_refl). unfold avg in Ox. rewrite Hn in Ox. congruence. }
  subst x. pose proof (rcls_valid I RI c b Hc Hb) as Pb. rewrite R3 in Hk. destruct (cidx_onto (sizes I) k Hk) as (y & Hy & <-).
  destruct (dof_eqb y (B b 0 0)) eqn:Ey.
  - apply dof_eqb_iff in Ey. subst y. right. exists b. split; auto. rewrite (cidx_dof DI RI) by auto. rewrite <- (corner_dof_B DI RI) by auto. reflexivity.
  - left. destruct (akid_total DI RI RM m V y Hy) as (Q & K). apply (E2 y Q (ridx m (B b 0 0)) Hy K). intros w Hw.
    rewrite (proj2 (dof_eqb_iff _ _)) in Ey; [discriminate|]. apply (corner_row_only DI RI RM m R b y Q w); auto.
Qed.

Lemma rsum_weighted n k (a : nat -> nat -> R) (w : nat -> R) (g : nat -> vec3) :
  weighted n (fun r => rsum k (fun j => a r j * w j)%R) g = weighted k w (fun j => weighted n (fun r => a r j) g).
Proof.
  unfold weighted. cbn [vx vy vz].
  assert (forall h : nat -> R, rsum n (fun r => rsum k (fun j => a r j * w j) * h r)%R = rsum k (fun j => w j * rsum n (fun r => a r j * h r))%R) as K.
  { intros h. rewrite (rsum_ext n _ (fun r => rsum k (fun j => (a r j * w j) * h r)%R)).
    - rewrite rsum_swap. apply rsum_ext. intros j _. rewrite <- rsum_scal. apply rsum_ext. intros r _. ring.
    - intros r _. rewrite Rmult_comm, <- rsum_scal. apply rsum_ext. intros j _. ring. }
  rewrite !K. reflexivity.
Qed.

Lemma local_ok m R : is_ares DI m R -> exists v L, cfreeCoefs m P = Ok v /\ length v = drRows R /\ acLocal DI R P = Ok L /\ map (@length vec3) L = sizes I /\
  length (concat L) = drCols R /\ (forall k, k < drCols R -> points (concat L) k = weighted (drRows R) (fun r => Q2R (dentry R r k)) (points v)) /\
  forall x, In x D -> cmval m x = 0%Z -> nth_error v (ridx m x) = Some (at_dof x).
Proof.
  intros HR. pose proof HR as (_ & _ & R1 & R2 & R3 & _). destruct (free_ok m R HR) as (v & Ev & Lv & Hv).
  destruct (timesT_ok (drRows R) (drCols R) (fun r c => Q2R (dentry R r c)) v Lv) as (l & El & Ll & Hl).
  destruct (setCoefs_ok (sizes I) l) as (L & EL & H1 & H2); [rewrite Ll, R3; apply set_cols|].
  exists v, L. split; auto. split; auto. split; [unfold acLocal; rewrite R1, Ev; cbn [bind]; rewrite El; cbn [bind]; exact EL|]. split; auto.
  split; [congruence|]. split; auto. intros k Hk. rewrite H2. apply points_nth. apply Hl; auto.
Qed.

Lemma local_thm R : acCompute DI = Ok R -> exists v L, cfreeCoefs (drMap R) P = Ok v /\ acLocal DI R P = Ok L /\ fits DI L /\
  length (concat L) = drCols R /\ forall k, k < drCols R -> points (concat L) k = weighted (drRows R) (fun r => Q2R (dentry R r k)) (points v).
Proof.
  intros E. destruct (some_ares DI RI RM SU R E) as (m & HR). destruct (local_ok m R HR) as (v & L & H1 & H2 & H3 & H4 & H5 & H6 & _).
  pose proof HR as (_ & _ & -> & _). exists v, L. auto 6.
Qed.

Lemma elsewhere_geo R A v L x : acFinal DI F = Ok (R, A) -> (exists c, special DI c) -> corners_near DI F nf cl -> acPre I (drMap R) F P = Ok v ->
  acLocal DI R P = Ok L -> x < nf -> ~ near_special DI cl x ->
  weighted (drRows R) (fun r => A r x) (points v) = weighted (drCols R) (rf_t F x) (points (concat L)).
Proof.
  intros E Hex HN Ep EL Hx Hn. destruct (final_inv DI RI RM SU F nf cl pt RO R A E) as (m & Ec & HR & FI). destruct (pre_ok m R HR) as (v' & Ev & Lv & Ow & Tr).
  pose proof HR as (_ & V & R1 & R2 & R3 & _). rewrite R1, Ev in Ep. injection Ep as ->.
  destruct (local_ok m R HR) as (v0 & L' & Ev0 & Lv0 & EL' & _ & _ & Hl & Hv0). rewrite EL in EL'. injection EL' as <-.
  rewrite (weighted_ext (drCols R) (rf_t F x) (points (concat L)) (rf_t F x) (fun j => weighted (drRows R) (fun r => Q2R (dentry R r j)) (points v0))) by (auto; apply Hl).
  rewrite <- rsum_weighted. unfold weighted.
  assert (forall r, r < drRows R -> A r x = rsum (drCols R) (fun j => Q2R (dentry R r j) * rf_t F x j)%R) as EA by (intros r _; apply (elsewhere_thm DI RI RM SU F nf cl pt RO R A r x E); auto).
  assert (forall r, r < drRows R -> points v r = points v0 r \/ rsum (drCols R) (fun j => Q2R (dentry R r j) * rf_t F x j)%R = 0%R) as K.
  { intros r Hr. rewrite R2 in Hr. destruct (ridx_onto (sizes I) m (av_sizes I m V) r Hr) as (y & Hy & Fy & <-).
    pose proof (val_le DI RI m V y Hy) as Le. assert (cmval m y = 0%Z) as Zy by lia.
    destruct (existsb (fun c => spc c && existsb (dof_eqb y) (vlist c)) (all_corners np)) eqn:Ex.
    - right. apply existsb_exists in Ex. destruct Ex as (c & Hc & Ex). apply in_all_corners in Hc. apply andb_true_iff in Ex. destruct Ex as [Sc Ex].
      apply existsb_exists in Ex. destruct Ex as (y' & Hy' & Eq). apply dof_eqb_iff in Eq. subst y'.
      assert (special DI c) as Hs by (apply (spc_iff DI RI); auto).
      transitivity (rsum (drCols R) (fun _ => 0%R)); [|rewrite rsum_const; ring]. apply rsum_ext. intros k Hk.
      destruct (special_entries m R c y k HR Hs Hy' Hk) as [-> |(b & Hb & ->)]; [unfold Q2R; cbn; ring|].
      rewrite (HN b x); auto; [ring|]. apply (cls_special DI RI c); auto.
    - left. rewrite (points_nth v _ _ (Ow y Hy Zy ltac:(intros c Hs Hin; rewrite existsb_false in Ex; destruct (proj1 (spc_iff DI RI c) Hs) as [Hc Sc];
        specialize (Ex c (proj2 (in_all_corners np c) Hc)); rewrite Sc in Ex; cbn [andb] in Ex; rewrite existsb_false in Ex; specialize (Ex y Hin);
        rewrite (proj2 (dof_eqb_iff y y) eq_refl) in Ex; discriminate))). rewrite (points_nth v0 _ _ (Hv0 y Hy Zy)). reflexivity. }
  f_equal; apply rsum_ext; intros r Hr; rewrite EA by auto; destruct (K r Hr) as [-> | ->]; auto; ring.
Qed.

Lemma export_ok R A : acFinal DI F = Ok (R, A) -> exists v G, acPre I (drMap R) F P = Ok v /\ acExport DI F nf P = Ok G /\ length G = nf /\
  forall x, x < nf -> nth_error G x = Some (weighted (drRows R) (fun r => A r x) (points v)).
Proof.
  intros E. destruct (pre_thm R A E) as (v & Ev & Lv & _). destruct (timesT_ok (drRows R) nf A v Lv) as (G & EG & LG & HG).
  exists v, G. split; auto. split; auto. unfold acExport. rewrite E. cbn [bind fst snd]. rewrite Ev. cbn [bind]. exact EG.
Qed.

Lemma regular_geo R A L : acFinal DI F = Ok (R, A) -> (forall c, ~ special DI c) -> nf = drCols R -> acLocal DI R P = Ok L -> acExport DI F nf P = Ok (concat L).
Proof.
  intros E Hn En EL. destruct (final_inv DI RI RM SU F nf cl pt RO R A E) as (m & Ec & HR & FI). destruct (pre_ok m R HR) as (v & Ev & Lv & Ow & _).
  destruct (local_ok m R HR) as (v0 & L' & Ev0 & Lv0 & EL' & _ & Lc & Hl & Hv0). rewrite EL in EL'. injection EL' as <-.
  pose proof HR as (_ & V & R1 & R2 & R3 & _). destruct (export_ok R A E) as (v' & G & Ev' & EG & LG & HG). rewrite R1, Ev in Ev'. injection Ev' as <-.
  rewrite EG. f_equal. assert (v = v0) as ->.
  { apply (nth_ext v v0 vzero vzero); [congruence|]. intros r Hr. rewrite Lv, R2 in Hr. destruct (ridx_onto (sizes I) m (av_sizes I m V) r Hr) as (y & Hy & Fy & <-).
    pose proof (val_le DI RI m V y Hy). rewrite (nth_error_nth _ _ _ (Ow y Hy ltac:(lia) ltac:(intros c Hs; destruct (Hn c Hs)))), (nth_error_nth _ _ _ (Hv0 y Hy ltac:(lia))). reflexivity. }
  apply (nth_ext G (concat L) vzero vzero); [congruence|]. intros k Hk. rewrite LG in Hk. rewrite (nth_error_nth _ _ _ (HG k Hk)).
  change (nth k (concat L) vzero) with (points (concat L) k). rewrite Hl by lia. apply weighted_ext; auto. intros r _. rewrite (fi_regular _ _ _ _ _ _ _ _ FI Hn). reflexivity.
Qed.

Lemma geometry_thm R A L G : acFinal DI F = Ok (R, A) -> (exists c, special DI c) -> corners_near DI F nf cl -> acLocal DI R P = Ok L ->
  points_of DI F (drCols R) cl pt (concat L) -> (forall c, special DI c -> in_plane DI F pt c) -> acExport DI F nf P = Ok G ->
  length G = nf /\ forall x, x < nf -> nth_error G x = Some (weighted (drCols R) (rf_t F x) (points (concat L))).
Proof.
  intros E Hex HN EL [_ HPt] HI EG. destruct (export_ok R A E) as (v & G' & Ev & EG' & LG & HG). rewrite EG in EG'. injection EG' as <-.
  split; auto. intros x Hx. rewrite HG by auto. f_equal. destruct (near_dec DI RI cl x) as [(c & a & e & Hs & Ha & He & ->)|Hn].
  - destruct (vertex_geo R A c v E Hs Ev) as (b & f & Sb & Pf & K). pose proof (proj1 (proj1 (spc_iff DI RI c) Hs)) as Hc. rewrite (K c a e); auto.
    + rewrite (HI c Hs b f a e); auto.
    + apply (sv_cls DI RI); auto. apply (cls_self t Hcons), rvalidc; auto.
  - apply (elsewhere_geo R A v L x); auto.
Qed.

Lemma planar_thm R A L G : acFinal DI F = Ok (R, A) -> (exists c, special DI c) -> corners_near DI F nf cl -> acLocal DI R P = Ok L ->
  points_of DI F (drCols R) cl pt (concat L) -> rf_dim F = 2 -> flat_points P -> acExport DI F nf P = Ok G ->
  length G = nf /\ forall x, x < nf -> nth_error G x = Some (weighted (drCols R) (rf_t F x) (points (concat L))).
Proof.
  intros E Hex HN EL HPt Hd Hf EG. apply (geometry_thm R A L G); auto. intros c Hs b f a e Sb [[_ ->]|[Hd3 _]] Ha He; [|congruence].
  destruct HPt as [_ HPt]. assert (vz (pt c a e) = 0%R) as Z; [|destruct (pt c a e) as [px py pz]; cbn in *; unfold dropz; cbn; congruence].
  rewrite (HPt c a e Hs Ha He). destruct (final_inv DI RI RM SU F nf cl pt RO R A E) as (m & Ec & HR & FI).
  destruct (local_ok m R HR) as (v & L' & Ev & Lv & EL' & _ & _ & Hl & Hv). rewrite EL in EL'. injection EL' as <-.
  pose proof HR as (_ & V & R1 & R2 & R3 & _). unfold weighted at 1. cbn [vz].
  transitivity (rsum (drCols R) (fun _ => 0%R)); [|rewrite rsum_const; ring]. apply rsum_ext. intros k Hk. rewrite Hl by auto. unfold weighted. cbn [vz].
  rewrite (rsum_ext (drRows R) _ (fun _ => 0%R)); [rewrite rsum_const; ring|]. intros r Hr. rewrite R2 in Hr.
  destruct (ridx_onto (sizes I) m (av_sizes I m V) r Hr) as (y & Hy & Fy & <-). pose proof (val_le DI RI m V y Hy).
  rewrite (points_nth v _ _ (Hv y Hy ltac:(lia))). rewrite (Hf y (at_dof y)); [ring|]. apply (point_dof y _ Hy). reflexivity.
Qed.

Lemma given_thm G : acExportGiven DI F nf P G = acExport DI F nf P.
Proof. reflexivity. Qed.
End P.
