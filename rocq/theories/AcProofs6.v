(** The treatment of the special vertices of gsAlmostC1. *)
From Coq Require Sorted.
From Coq Require Import Reals Qreals Lra.
From Verif Require Import Common TopoModel BaseModel BaseModel2 BaseSpec2 IndexSpec TopoSpec SmoothSpec SmoothSpec2 RefModel RefSpec RingModel RingSpec DpModel DpSpec
  IndexProofs IndexTopoProofs ListLemmas TopoProofs PointProofs MapperProofs CountProofs MatrixProofs HandlerProofs ResultProofs GeometryProofs
  BaseProofs2 RefProofs RingProofs RingProofs2 RingProofs3 DpProofs DpProofs2 DpProofs3 DpProofs4 PiSpec PiProofs TriangleModel TriangleSpec TriangleProofs EvModel
  AcModel AcSpec AcSpec2 AcProofs AcProofs2 AcProofs3 AcProofs4 AcProofs5.
From Verif Require MapProofs.
From Coq Require Import ZifyBool.
Open Scope nat_scope.

Lemma vsum_mean (l : list vec3) : l <> [] -> Forall unit_vec l -> exists n, mean_direction l n.
Proof.
  intros Hn Hu. unfold mean_direction. set (s := vsum l).
  assert (0 <= vdot s s)%R as P by (unfold vdot; pose proof (Rle_0_sqr (vx s)); pose proof (Rle_0_sqr (vy s)); pose proof (Rle_0_sqr (vz s)); unfold Rsqr in *; lra).
  destruct (Req_EM_T (vdot s s) 0) as [E|E].
  - destruct l as [|n l]; [congruence|]. exists n. split; [inversion Hu; auto|]. right. split; [|reflexivity]. unfold vzero.
    destruct s as [x y z]. unfold vdot in E. cbn [vx vy vz] in E.
    pose proof (Rle_0_sqr x). pose proof (Rle_0_sqr y). pose proof (Rle_0_sqr z). unfold Rsqr in *.
    assert (x * x = 0 /\ y * y = 0 /\ z * z = 0)%R as (X & Y & Z) by (repeat split; lra).
    f_equal; apply Rmult_integral in X, Y, Z; tauto.
  - assert (0 < sqrt (vdot s s))%R as Q by (apply sqrt_lt_R0; lra). pose proof (sqrt_sqrt (vdot s s) P) as SS.
    exists (vscale (/ sqrt (vdot s s)) s). split.
    + unfold unit_vec, vdot, vscale. cbn [vx vy vz]. 
      transitivity (/ sqrt (vdot s s) * / sqrt (vdot s s) * vdot s s)%R; [unfold vdot; ring|]. rewrite <- SS at 3. field. lra.
    + left. exists (sqrt (vdot s s)). split; auto. destruct s as [x y z]. unfold vscale. cbn [vx vy vz]. f_equal; field; lra.
Qed.

Lemma pcorner_dec (a b : pcorner) : {a = b} + {a <> b}.
Proof. repeat decide equality. Qed.

Lemma marks_fold n (l : list pcorner) : forall vc, length vc = 4 * n -> (forall c, In c l -> fst c < n) ->
  exists vc', foldM (fun vc c => vset vc (vertIndex c) true) l vc = Ok vc' /\ length vc' = 4 * n /\
    forall c, fst c < n -> vget vc' (vertIndex c) = if in_dec pcorner_dec c l then Ok true else vget vc (vertIndex c).
Proof.
  induction l as [|a l IH]; intros vc L H.
  - exists vc. split; [reflexivity|]. split; auto.
  - assert (vertIndex a < length vc) as La by (rewrite L; apply IndexProofs.vertIndex_lt, H; left; auto).
    destruct (IH (upd vc (vertIndex a) true)) as (vc' & E & L' & G); [rewrite upd_length; auto|intros c Hc; apply H; right; auto|].
    exists vc'. split; [cbn [foldM]; rewrite vset_ok by auto; exact E|]. split; auto. intros c Hc. rewrite G by auto.
    rewrite vget_upd by auto. destruct (in_dec pcorner_dec c l) as [i|i], (in_dec pcorner_dec c (a :: l)) as [j|j]; auto.
    + exfalso. apply j. right; auto.
    + destruct j as [->|j]; [|contradiction]. rewrite Nat.eqb_refl. reflexivity.
    + destruct (vertIndex a =? vertIndex c) eqn:Ev; auto. apply Nat.eqb_eq, vertIndex_inj in Ev. exfalso. apply j. left; auto.
Qed.

Lemma Forall2_nth_error {A B} (P : A -> B -> Prop) l l' k x : Forall2 P l l' -> nth_error l k = Some x -> exists y, nth_error l' k = Some y /\ P x y.
Proof.
  intros H. revert k. induction H as [|a b l l' Hp H IH]; intros [|k] E; try discriminate.
  - injection E as <-. exists b. auto.
  - cbn [nth_error] in E. destruct (IH k E) as (y & Ey & Py). exists y. auto.
Qed.

Definition offs : list (nat * nat) := [(0, 0); (0, 1); (1, 0); (1, 1)].
Lemma in_offs a e : In (a, e) offs <-> a < 2 /\ e < 2.
Proof.
  unfold offs. split.
  - intros [[= <- <-]|[[= <- <-]|[[= <- <-]|[[= <- <-]|[]]]]]; lia.
  - intros [Ha He]. destruct a as [|[|]], e as [|[|]]; try lia; simpl; auto.
Qed.

(** corners are visited in the order of their numbers *)
Lemma sorted_filter {A} (R : A -> A -> Prop) f l : Sorted.StronglySorted R l -> Sorted.StronglySorted R (filter f l).
Proof.
  induction 1 as [|a l Hs IH Ha]; cbn [filter]; [constructor|]. destruct (f a); auto. constructor; auto.
  rewrite Forall_forall in *. intros x Hx. apply filter_In in Hx. apply Ha. apply Hx.
Qed.
Lemma sorted_app {A} (R : A -> A -> Prop) l l' : Sorted.StronglySorted R (l ++ l') -> Sorted.StronglySorted R l'.
Proof. induction l as [|a l IH]; auto. cbn [app]. intros H. inversion H; subst. auto. Qed.
Lemma sorted_map {A} (f : A -> nat) l : Sorted.StronglySorted lt (map f l) -> Sorted.StronglySorted (fun a b => f a < f b) l.
Proof.
  induction l as [|a l IH]; intros H; constructor; cbn [map] in H; inversion H as [|? ? H1 H2]; subst; auto.
  rewrite Forall_forall in *. intros x Hx. apply H2, in_map, Hx.
Qed.
Lemma sorted_seq n k : Sorted.StronglySorted lt (seq k n).
Proof. revert k. induction n as [|n IH]; intros k; cbn [seq]; constructor; auto. apply Forall_forall. intros x Hx. apply in_seq in Hx. lia. Qed.
Lemma all_corners_sorted n : Sorted.StronglySorted (fun a b => vertIndex a < vertIndex b) (all_corners n).
Proof. apply sorted_map. rewrite map_vertIndex. apply sorted_seq. Qed.
Lemma map_split3 {A B} (f : A -> B) l pre x post : map f l = pre ++ x :: post -> exists lp a lq, l = lp ++ a :: lq /\ map f lp = pre /\ f a = x /\ map f lq = post.
Proof.
  revert l. induction pre as [|y pre IH]; intros [|a l] E; try discriminate; cbn [map app] in E; injection E as E1 E2.
  - exists [], a, l. auto.
  - destruct (IH l E2) as (lp & b & lq & -> & <- & <- & <-). exists (a :: lp), b, lq. split; auto. split; [cbn [map]; congruence|auto].
Qed.
Lemma cls_hd t (Hc : consistent t) c : validc t c -> hd_error (cls t c) = Some c.
Proof. intros H. unfold cls. destruct (cornerList_ok t Hc c H) as (l & -> & _ & Hh & _). exact Hh. Qed.

Section E.
Variable DI : dinput.
Notation I := (dring DI).
Hypothesis RI : ring_input I.
Hypothesis RM : rows_match DI.
Notation t := (ritopo I).
Notation np := (length (ribases I)).
Hypothesis SU : supported SchemeAlmostC1 t.
Let Hcons : consistent t := ri_topo I RI.
Let Hnp : tnp t = np := ri_np I RI.
Notation cls := (cls t).
Notation valence := (valence t).
Notation inner := (inner t).
Notation spc := (spc DI).
Notation vlist := (vlist DI).
Let rvalidc := rvalidc I RI.
Variable F : refinedIn.
Variable nf : nat.
Variable cl : pcorner -> nat -> nat -> nat.
Variable pt : pcorner -> nat -> nat -> vec3.
Hypothesis RO : refined_ok DI F nf cl pt.

Lemma spcI (c : pcorner) : fst c < np -> spc c = true -> special DI c.
Proof. intros H1 H2. apply (spc_iff DI RI). auto. Qed.

Definition items (c : pcorner) : list (pcorner * (nat * nat)) := flat_map (fun b => map (pair b) offs) (cls c).
Notation clx x := (cl (fst x) (fst (snd x)) (snd (snd x))).
Notation ptx x := (pt (fst x) (fst (snd x)) (snd (snd x))).

Lemma in_items (c b : pcorner) a e : In (b, (a, e)) (items c) <-> In b (cls c) /\ a < 2 /\ e < 2.
Proof.
  unfold items. rewrite in_flat_map. split.
  - intros (b' & Hb & Hx). apply in_map_iff in Hx. destruct Hx as ([a' e'] & [= -> -> ->] & Ho). apply in_offs in Ho. auto.
  - intros (Hb & Ho). exists b. split; auto. apply in_map. apply in_offs. exact Ho.
Qed.
Lemma items_nodup (c : pcorner) : fst c < np -> NoDup (items c).
Proof.
  intros Hc. apply MapProofs.NoDup_flat_map_disj.
  - apply (cls_nodup t Hcons). apply rvalidc; auto.
  - intros a Ha. apply MapProofs.NoDup_map_inj; [intros x y _ _ [= E]; exact E|]. unfold offs. repeat constructor; simpl; intuition discriminate.
  - intros a b x Ha Hb Hxa Hxb. apply in_map_iff in Hxa, Hxb. destruct Hxa as (? & <- & _), Hxb as (? & [= -> _] & _). reflexivity.
Qed.

Lemma cls_special (c b : pcorner) : special DI c -> In b (cls c) -> special DI b.
Proof.
  intros Hs Hb. apply (spc_iff DI RI) in Hs. destruct Hs as [Hc Hs]. apply (spc_iff DI RI). split; [apply (rcls_valid I RI c b); auto|].
  rewrite (spc_cls DI RI c b); auto.
Qed.

Lemma cols_nodup (c : pcorner) : special DI c -> NoDup (map (fun x => clx x) (items c)).
Proof.
  intros Hs. pose proof (proj1 (proj1 (spc_iff DI RI c) Hs)) as Hc. apply MapProofs.NoDup_map_inj; [|apply items_nodup; auto].
  intros [b [a e]] [b' [a' e']] Hx Hy E. apply in_items in Hx, Hy. cbn [fst snd] in E. destruct Hx as (Hb & Ha & He), Hy as (Hb' & Ha' & He').
  apply (ro_inj _ _ _ _ _ RO) in E; auto; try (apply (cls_special c); auto). destruct E as (-> & -> & ->). reflexivity.
Qed.

Lemma mapM_concat {X Y Z} (f : X -> Y -> res Z) (g : X -> Y -> Z) (os : list Y) l : (forall x y, In x l -> In y os -> f x y = Ok (g x y)) ->
  mapM (fun x => mapM (f x) os) l = Ok (map (fun x => map (g x) os) l).
Proof. intros H. apply mapM_ok. intros x Hx. apply mapM_ok. intros y Hy. apply H; auto. Qed.

Lemma items_map {Y} (c : pcorner) (g : pcorner -> nat * nat -> Y) : concat (map (fun b => map (g b) offs) (cls c)) = map (fun x => g (fst x) (snd x)) (items c).
Proof.
  unfold items. generalize (cls c). induction l as [|b l IH]; auto. cbn [map concat flat_map]. rewrite map_app, IH, map_map. reflexivity.
Qed.

Lemma triangle_ok (c : pcorner) : special DI c -> exists f k0 k1 k2 ub, projection DI F c f /\
  acTri t F c = Ok ([k0; k1; k2], (map (fun x => clx x) (items c), ub)) /\
  Forall2 (fun x w => convex_weights w /\ combination k0 k1 k2 w = f (ptx x)) (items c) ub.
Proof.
  intros Hs. pose proof (proj1 (proj1 (spc_iff DI RI c) Hs)) as Hc. pose proof (proj2 (rvalidc c) Hc) as Hv. pose proof (cornerList_cls t Hcons c Hv) as Ecl.
  assert (forall us (P : vec3 -> vec3 -> Prop) ub, us = map (fun x => ptx x) (items c) -> Forall2 P us ub -> Forall2 (fun x w => P (ptx x) w) (items c) ub) as FM.
  { intros us P ub -> H. remember (map (fun x => ptx x) (items c)) as us eqn:E. revert E. generalize (items c). revert H.
    induction 1 as [|u w us ub Hp H IH]; intros [|x its] E; try discriminate; constructor.
    - cbn [map] in E. injection E as -> _. exact Hp.
    - apply IH. cbn [map] in E. injection E as _ ->. reflexivity. }
  assert (exists f k0 k1 k2 ub, projection DI F c f /\
    makeTriangle (rf_dim F) (rf_point F c) (map (fun x => ptx x) (items c)) (map (rf_normal F) (cls c)) = Ok ([k0; k1; k2], ub) /\
    Forall2 (fun x w => convex_weights w /\ combination k0 k1 k2 w = f (ptx x)) (items c) ub) as (f & k0 & k1 & k2 & ub & Pf & Em & Fa).
  { destruct (ro_placed _ _ _ _ _ RO c Hs) as [(Ed & b & a & e & Sb & Ha & He & Hne)|(Ed & Hu & Hp)].
    - destruct (triangle_planar (rf_point F c) (map (fun x => ptx x) (items c)) (map (rf_normal F) (cls c))) as (k0 & k1 & k2 & ub & Em & Fa).
      { exists (pt b a e). split; auto. apply in_map_iff. exists (b, (a, e)). split; auto. apply in_items. split; auto. apply (same_vertex_cls t Hcons); auto. }
      exists dropz, k0, k1, k2, ub. split; [left; auto|]. rewrite Ed. split; auto.
      apply (FM _ (fun u w => convex_weights w /\ combination k0 k1 k2 w = dropz u) ub eq_refl Fa).
    - assert (Forall unit_vec (map (rf_normal F) (cls c))) as Fu.
      { apply Forall_forall. intros n Hn. apply in_map_iff in Hn. destruct Hn as (b & <- & Hb). apply Hu. apply (same_vertex_cls t Hcons); auto. }
      assert (map (rf_normal F) (cls c) <> []) as Nn.
      { intros E. pose proof (cls_self t Hcons c Hv) as Self. destruct (cls c); [destruct Self|discriminate]. }
      destruct (vsum_mean _ Nn Fu) as (n & Hm). destruct (Hp (cls c) n Ecl Hm) as (b & a & e & Sb & Ha & He & Hne).
      destruct (triangle_surface (rf_point F c) (map (fun x => ptx x) (items c)) (map (rf_normal F) (cls c)) n Nn Fu Hm) as (k0 & k1 & k2 & ub & Em & Fa).
      { exists (pt b a e). split; auto. apply in_map_iff. exists (b, (a, e)). split; auto. apply in_items. split; auto. apply (same_vertex_cls t Hcons); auto. }
      exists (foot (rf_point F c) n), k0, k1, k2, ub. split; [right; split; auto; exists (cls c), n; auto|]. rewrite Ed. split; auto.
      apply (FM _ (fun u w => convex_weights w /\ combination k0 k1 k2 w = foot (rf_point F c) n u) ub eq_refl Fa). }
  exists f, k0, k1, k2, ub. split; auto. split; auto. unfold acTri. rewrite Ecl. cbn [bind].
  rewrite (mapM_concat (fun c ij => do i <- rf_ix F (fst ij) c (cside (snd c) 0) (snd ij); do col <- rf_col F i (fst c); Ok (col, rf_coef F (fst c) i))
    (fun c ij => (cl c (fst ij) (snd ij), pt c (fst ij) (snd ij)))).
  - cbn [bind]. fold offs. rewrite items_map, !map_map. cbn [fst snd]. rewrite Em. reflexivity.
  - intros b [a e] Hb Ho. apply in_offs in Ho. cbn [fst snd]. destruct (ro_col _ _ _ _ _ RO b a e (cls_special c b Hs Hb) (proj1 Ho) (proj2 Ho)) as (i & -> & E2 & E3).
    cbn [bind]. rewrite E2. cbn [bind]. rewrite E3. reflexivity.
Qed.

Section M.
Variable m : cmap.
Variable D : dresult.
Hypothesis HR : is_ares DI m D.
Notation ridx := (ridx m).

Definition tri (A : nat -> nat -> R) (b : pcorner) : Prop :=
  exists f x0 x1 x2 k0 k1 k2, projection DI F b f /\ vlist b = [x0; x1; x2] /\ (exists T, acTri t F b = Ok ([k0; k1; k2], T)) /\
    forall c a e, In c (cls b) -> a < 2 -> e < 2 ->
      convex_weights (V3 (A (ridx x0) (cl c a e)) (A (ridx x1) (cl c a e)) (A (ridx x2) (cl c a e))) /\
      combination k0 k1 k2 (V3 (A (ridx x0) (cl c a e)) (A (ridx x1) (cl c a e)) (A (ridx x2) (cl c a e))) = f (pt c a e) /\
      forall r, ~ In r [ridx x0; ridx x1; ridx x2] -> A r (cl c a e) = 0%R.

(** the first corner of its vertex *)
Definition firstc (b : pcorner) : Prop := forall c, In c (cls b) -> vertIndex b <= vertIndex c.

Variable A1 : nat -> nat -> R.
Definition EInv (done : list (list pcorner)) (st : (nat -> nat -> R) * list bool) : Prop :=
  length (snd st) = 4 * np /\
  (forall c, fst c < np -> exists b, vget (snd st) (vertIndex c) = Ok b /\ (b = true <-> In c (concat done))) /\
  (forall r x, (forall c a e, In c (concat done) -> a < 2 -> e < 2 -> x <> cl c a e) -> fst st r x = A1 r x) /\
  (forall l, In l done -> exists b, In b l /\ firstc b /\ tri (fst st) b).

Lemma ridx3 (c : pcorner) x0 x1 x2 : special DI c -> vlist c = [x0; x1; x2] -> NoDup [ridx x0; ridx x1; ridx x2].
Proof.
  intros Hs E. apply (spc_iff DI RI) in Hs. destruct Hs as [Hc Hs]. destruct (vlist_len DI RI SU c Hc Hs) as [_ N]. rewrite E in N.
  change (NoDup (map ridx [x0; x1; x2])). apply MapProofs.NoDup_map_inj; auto. intros x y Hx Hy Exy. rewrite <- E in Hx, Hy.
  destruct (vlist_zero DI RI SU m D HR c x Hc Hs Hx), (vlist_zero DI RI SU m D HR c y Hc Hs Hy).
  apply (aridx_neq DI RI m (proj1 (proj2 HR))); auto.
Qed.

Definition vert (l : list pcorner) : Prop := exists a, special DI a /\ l = cls a.
Lemma vert_in l c b : vert l -> In c l -> special DI c /\ (In b l <-> In b (cls c)).
Proof.
  intros (a & Hs & ->) Hc. split; [apply (cls_special a); auto|]. pose proof (proj1 (proj1 (spc_iff DI RI a) Hs)) as Ha.
  pose proof (cls_perm t Hcons a c (proj2 (rvalidc a) Ha) Hc) as P. split; apply Permutation_in; [|symmetry]; auto.
Qed.

Lemma ev_step done l st : (forall l', In l' done -> vert l') -> vert l ->
  (forall pc rest, l = pc :: rest -> ~ In pc (concat done) -> firstc pc) -> EInv done st ->
  exists st', acEV I m F st l = Ok st' /\ EInv (done ++ [l]) st'.
Proof.
  intros Hd Hl Hfst (L & Mk & Out & Tr). destruct st as [A vc]. cbn [fst snd] in *.
  assert (exists pc rest, l = pc :: rest) as (pc & rest & El).
  { destruct Hl as (a & Ha & E). pose proof (proj1 (proj1 (spc_iff DI RI a) Ha)) as Pa. pose proof (cls_self t Hcons a (proj2 (rvalidc a) Pa)) as Self.
    rewrite <- E in Self. destruct l; [destruct Self|eauto]. }
  assert (In pc l) as Hpc by (rewrite El; left; auto).
  assert (acEV I m F (A, vc) l = do chk <- vget vc (vertIndex pc); if (chk : bool) then Ok (A, vc) else
      do vd <- vertexData t pc; do T <- acTriangle t F pc; do rows <- acRows I m pc (fst vd); do A <- triangleStep A rows (fst T) (snd T);
      do vc <- foldM (fun vc c => vset vc (vertIndex c) true) l vc; Ok (A, vc)) as Eq by (rewrite El; reflexivity).
  rewrite Eq. assert (~ In pc (concat done) -> firstc pc) as Hfc by (apply (Hfst pc rest); auto). clear Eq El rest Hfst.
  destruct (vert_in l pc pc Hl Hpc) as [Hs _]. pose proof (fun b => proj2 (vert_in l pc b Hl Hpc)) as Same.
  destruct (proj1 (spc_iff DI RI pc) Hs) as [Pp Sp]. pose proof (proj2 (rvalidc pc) Pp) as Vp.
  assert (forall c, In c l -> fst c < np) as Lnp by (intros c Hc; apply (rcls_valid I RI pc c); auto; apply Same; auto).
  destruct (Mk pc Pp) as ([|] & Em & Hm); rewrite Em; cbn [bind].
  - (* marked *)
    exists (A, vc). split; auto. assert (In pc (concat done)) as Hin by (apply Hm; auto). apply in_concat in Hin. destruct Hin as (l' & Hl' & Hpc').
    pose proof (fun b => proj2 (vert_in l' pc b (Hd l' Hl') Hpc')) as Same'.
    assert (forall c, In c (concat (done ++ [l])) <-> In c (concat done)) as CC.
    { intros c. rewrite concat_app, in_app_iff. cbn [concat]. rewrite app_nil_r. split; auto. intros [H|H]; auto.
      apply in_concat. exists l'. split; auto. apply Same', Same. exact H. }
    split; [exact L|]. cbn [fst snd]. split; [|split].
    + intros c Hc. destruct (Mk c Hc) as (b & Eb & Hb). exists b. split; auto. rewrite Hb. symmetry. apply CC.
    + intros r x Hx. apply Out. intros c a e Hc. apply Hx. apply CC; auto.
    + intros l2 Hl2. apply in_app_iff in Hl2. destruct Hl2 as [Hl2|[<-|[]]]; auto.
      destruct (Tr l' Hl') as (b & Hb & Fb & Tb). exists b. split; auto. apply Same, Same'. exact Hb.
  - assert (~ In pc (concat done)) as Hnin by (intros H; apply Hm in H; discriminate).
    assert (forall c, In c l -> ~ In c (concat done)) as Disj.
    { intros c Hc Hin. apply Hnin. apply in_concat in Hin. destruct Hin as (l' & Hl' & Hc'). apply in_concat. exists l'. split; auto.
      destruct (vert_in l' c pc (Hd l' Hl') Hc') as [_ S1]. apply S1. destruct (vert_in l c pc Hl Hc) as [_ S2]. apply S2. exact Hpc. }
    rewrite (rvertexData I RI pc Pp). cbn [bind fst snd].
    destruct (triangle_ok pc Hs) as (f & k0 & k1 & k2 & ub & Pf & ET & Fa). unfold acTriangle. rewrite ET. cbn [bind fst snd].
    rewrite (acRows_ok DI RI SU m D HR pc Pp Sp). cbn [bind].
    destruct (vlist pc) as [|x0 [|x1 [|x2 [|]]]] eqn:Ev; try (destruct (vlist_len DI RI SU pc Pp Sp) as [Lv _]; rewrite Ev in Lv; discriminate).
    cbn [map].
    assert (length (map (fun x => clx x) (items pc)) = length ub) as Lu.
    { rewrite map_length. clear -Fa. induction Fa; cbn [length]; congruence. }
    destruct (step_entries A (ridx x0) (ridx x1) (ridx x2) [] (map (fun x => clx x) (items pc)) ub (ridx3 pc x0 x1 x2 Hs Ev) (cols_nodup pc Hs) Lu)
      as (A' & ES & EO & EI). rewrite ES. cbn [bind].
    destruct (marks_fold np l vc L Lnp) as (vc' & EF & L' & G). rewrite EF. cbn [bind]. exists (A', vc'). split; auto.
    assert (forall c a e, special DI c -> a < 2 -> e < 2 -> ~ In c l -> forall r, A' r (cl c a e) = A r (cl c a e)) as Keep.
    { intros c a e Sc Ha He Nc r. apply EO. intros Hin. apply in_map_iff in Hin. destruct Hin as ([b [a' e']] & E & Hb). cbn [fst snd] in E.
      apply in_items in Hb. destruct Hb as (Hb & Ha' & He'). apply (ro_inj _ _ _ _ _ RO) in E; auto; [|apply (cls_special pc); auto].
      destruct E as (<- & _). apply Nc, Same. exact Hb. }
    split; [exact L'|]. cbn [fst snd]. split; [|split].
    + intros c Hc. rewrite G by auto. destruct (in_dec pcorner_dec c l) as [i|i].
      * exists true. split; auto. split; auto. intros _. rewrite concat_app, in_app_iff. cbn [concat]. rewrite app_nil_r. auto.
      * destruct (Mk c Hc) as (b & Eb & Hb). exists b. split; auto. rewrite Hb, concat_app, in_app_iff. cbn [concat]. rewrite app_nil_r. tauto.
    + intros r x Hx. rewrite EO.
      * apply Out. intros c a e Hc Ha He. apply Hx; auto. rewrite concat_app, in_app_iff. auto.
      * intros Hin. apply in_map_iff in Hin. destruct Hin as ([b [a e]] & <- & Hb). cbn [fst snd] in Hx. apply in_items in Hb. destruct Hb as (Hb & Ha & He).
        apply (Hx b a e); auto. rewrite concat_app, in_app_iff. cbn [concat]. rewrite app_nil_r. right. apply Same; auto.
    + intros l2 Hl2. apply in_app_iff in Hl2. destruct Hl2 as [Hl2|[<-|[]]].
      * destruct (Tr l2 Hl2) as (b & Hb & Fb & f2 & y0 & y1 & y2 & j0 & j1 & j2 & Pf2 & Ev2 & ET2 & T2). exists b. split; auto. split; auto.
        exists f2, y0, y1, y2, j0, j1, j2. split; auto. split; auto. split; auto. intros c a e Hc Ha He.
        assert (In c l2) as Hc2 by (apply (vert_in l2 b c (Hd l2 Hl2) Hb); auto).
        assert (special DI c) as Sc by (apply (vert_in l2 c c (Hd l2 Hl2) Hc2)).
        assert (~ In c l) as Nc by (intros H; apply (Disj c H), in_concat; eauto).
        rewrite !(Keep c a e Sc Ha He Nc). destruct (T2 c a e Hc Ha He) as (T3 & T4 & T5). split; auto. split; auto.
        intros r Hr. rewrite (Keep c a e Sc Ha He Nc). auto.
      * exists pc. split; auto. split; auto. exists f, x0, x1, x2, k0, k1, k2. split; auto. split; auto. split; [eauto|]. intros c a e Hc Ha He.
        assert (In (c, (a, e)) (items pc)) as Hit by (apply in_items; auto). apply In_nth_error in Hit. destruct Hit as (k & Hk).
        destruct (Forall2_nth_error _ _ _ k _ Fa Hk) as (w & Hw & (Cw & Kw)). cbn [fst snd] in Kw.
        destruct (EI k (cl c a e) w) as (-> & -> & -> & Z); [rewrite nth_error_map, Hk; reflexivity|exact Hw|]. destruct w as [wx wy wz]. auto.
Qed.

Definition specials : list pcorner := filter (fun c => spec_b t (riC0 I) c && first_b t c) (all_corners np).
Lemma specials_in c : In c specials -> special DI c /\ forall b, In b (cls c) -> fst c <= fst b.
Proof.
  assert (length (riC0 I) = 4 * tnp t) as L by (rewrite Hnp; apply (ri_C0_length I RI)).
  intros Hc. apply filter_In in Hc. destruct Hc as [Hc E]. apply in_all_corners in Hc. rewrite <- Hnp in Hc. apply andb_true_iff in E. destruct E as [E1 E2].
  split; [apply (spec_b_iff t (riC0 I) Hcons L c Hc); auto|]. intros b Hb. unfold first_b in E2. apply negb_true_iff in E2. rewrite existsb_false in E2.
  specialize (E2 b Hb). lia.
Qed.
Lemma in_specials c : special DI c -> (forall b, In b (cls c) -> fst c <= fst b) -> In c specials.
Proof.
  assert (length (riC0 I) = 4 * tnp t) as L by (rewrite Hnp; apply (ri_C0_length I RI)).
  intros Hs Hf. pose proof (proj1 (proj1 (spc_iff DI RI c) Hs)) as Hc. apply filter_In. split; [apply in_all_corners; auto|]. apply andb_true_iff.
  split; [apply (spec_b_iff t (riC0 I) Hcons L c); auto; lia|]. unfold first_b. apply negb_true_iff. apply existsb_false. intros b Hb. specialize (Hf b Hb). lia.
Qed.

Lemma lists_ok : getSpecialCornerLists t (riC0 I) = Ok (map cls specials) /\ (forall l, In l (map cls specials) -> vert l) /\ forall c, special DI c -> exists l, In l (map cls specials) /\ In c l.
Proof.
  assert (length (riC0 I) = 4 * tnp t) as L by (rewrite Hnp; apply (ri_C0_length I RI)).
  pose proof (special_lists t (riC0 I) Hcons L) as E. rewrite Hnp in E. fold specials in E. split; [exact E|].
  destruct (special_ok t (riC0 I) Hcons L (ri_C0_vertex I RI)) as (lists & E' & _ & H2). rewrite E in E'. injection E' as <-. split; [|exact H2].
  intros l Hl. apply in_map_iff in Hl. destruct Hl as (a & <- & Ha). exists a. split; auto. apply specials_in; auto.
Qed.

Lemma lists_first pre l post pc rest : map cls specials = pre ++ l :: post -> l = pc :: rest -> ~ In pc (concat pre) -> firstc pc.
Proof.
  intros E El Hn. destruct (map_split3 _ _ _ _ _ E) as (lp & a & lq & Es & Ep & Ea & _).
  assert (In a specials) as Ha by (rewrite Es; apply in_app_iff; right; left; auto). destruct (specials_in a Ha) as [Hs Hf].
  pose proof (proj1 (proj1 (spc_iff DI RI a) Hs)) as Pa. pose proof (proj2 (rvalidc a) Pa) as Va.
  assert (a = pc) as -> by (pose proof (cls_hd t Hcons a Va) as Hh; rewrite Ea, El in Hh; injection Hh; auto).
  intros c Hc. destruct (le_lt_dec (vertIndex pc) (vertIndex c)) as [|Lt]; auto. exfalso.
  assert (special DI c) as Sc by (apply (cls_special pc); auto). pose proof (rcls_valid I RI pc c Pa Hc) as Pc. pose proof (Hf c Hc) as Lp.
  assert (fst c = fst pc) as Ef by (unfold vertIndex in Lt; destruct (snd c), (snd pc); cbn [corner_ix] in Lt; lia).
  assert (Permutation (cls pc) (cls c)) as Pm by (apply (cls_perm t Hcons); auto).
  assert (In c specials) as Hcs.
  { apply in_specials; auto. intros b Hb. rewrite Ef. apply Hf. apply (Permutation_in _ (Permutation_sym Pm)). exact Hb. }
  apply Hn. apply in_concat. exists (cls c). split.
  - rewrite <- Ep. apply in_map. rewrite Es in Hcs. apply in_app_iff in Hcs. destruct Hcs as [Hcs|[->|Hcs]]; auto; [lia|]. exfalso.
    assert (Sorted.StronglySorted (fun a b => vertIndex a < vertIndex b) specials) as Ss by (apply sorted_filter, all_corners_sorted).
    rewrite Es in Ss. apply sorted_app in Ss. inversion Ss as [|? ? _ Hall]; subst. rewrite Forall_forall in Hall. specialize (Hall c Hcs). lia.
  - apply (Permutation_in _ Pm). apply (cls_self t Hcons); auto.
Qed.

(** the final matrix *)
Record final (A0 : nat -> nat -> R) (n : nat) (A : nat -> nat -> R) : Prop := {
  fi_regular : (forall c, ~ special DI c) -> A = A0;
  fi_out : (exists c, special DI c) -> forall r x, ~ near_special DI cl x -> A r x = refined n A0 (rf_t F) r x;
  fi_tri : forall c, special DI c -> exists b, In b (cls c) /\ firstc b /\ tri A b }.

Lemma evs_ok A0 n : A1 = refined n A0 (rf_t F) -> exists A, acEVs I m F n A0 = Ok A /\ final A0 n A.
Proof.
  intros EA. destruct lists_ok as (El & Hv & Hc). pose proof lists_first as Hf. unfold acEVs. rewrite El. cbn [bind]. set (lists := map cls specials) in *. clearbody lists.
  destruct lists as [|l0 lists0] eqn:Ell.
  - exists A0. split; auto. constructor; auto.
    + intros (c & Hs). destruct (Hc c Hs) as (l & [] & _).
    + intros c Hs. destruct (Hc c Hs) as (l & [] & _).
  - rewrite <- Ell in *. rewrite <- EA.
    destruct (foldM_inv EInv (acEV I m F) lists (A1, repeat false (4 * np))) as ([A vc] & EF & L & Mk & Out & Tr).
    + split; [apply repeat_length|]. cbn [fst snd]. split; [|split; auto].
      * intros c Hp. exists false. split; [apply vget_repeat, IndexProofs.vertIndex_lt; auto|]. cbn [concat]. split; [discriminate|intros []].
      * intros l [].
    + intros pre l post st E Hi. apply ev_step; auto; [intros l' Hl'; apply Hv; rewrite E; apply in_app_iff; auto|apply Hv; rewrite E; apply in_app_iff; right; left; auto|]. intros pc rest El' Hn'. apply (Hf pre l post pc rest); auto.
    + cbn [fst snd] in *. exists A. split; [transitivity (do st <- foldM (acEV I m F) lists (A1, repeat false (4 * np)); Ok (fst st)); [rewrite Ell; reflexivity|rewrite EF; reflexivity]|].
      constructor.
      * intros Hn. exfalso. destruct (Hv l0) as (a & Ha & _); [rewrite Ell; left; auto|]. apply (Hn a Ha).
      * intros _ r x Hx. rewrite <- EA. apply Out. intros c a e Hin Ha He ->. apply Hx. exists c, a, e. apply in_concat in Hin. destruct Hin as (l & Hl & Hcl).
        destruct (vert_in l c c (Hv l Hl) Hcl). auto.
      * intros c Hs. destruct (Hc c Hs) as (l & Hl & Hcl). destruct (Tr l Hl) as (b & Hb & Fb & Tb). exists b. split; [|auto]. apply (vert_in l c b (Hv l Hl) Hcl); auto.
Qed.
End M.

Definition real_of (D : dresult) : nat -> nat -> R := fun r c => Q2R (dentry D r c).

Lemma final_ok : exists m D A, acFinal DI F = Ok (D, A) /\ acCompute DI = Ok D /\ is_ares DI m D /\ final m (real_of D) (drCols D) A.
Proof.
  destruct (acompute_ok DI RI RM SU) as (m & D & E & HR). destruct (evs_ok m D HR (refined (drCols D) (real_of D) (rf_t F)) (real_of D) (drCols D) eq_refl) as (A & EA & FA).
  exists m, D, A. split; auto. unfold acFinal. rewrite E. cbn [bind]. pose proof HR as (_ & _ & -> & _). fold (real_of D). rewrite EA. reflexivity.
Qed.
Lemma final_inv D A : acFinal DI F = Ok (D, A) -> exists m, acCompute DI = Ok D /\ is_ares DI m D /\ final m (real_of D) (drCols D) A.
Proof. intros E. destruct final_ok as (m & D' & A' & E' & E2 & H1 & H2). rewrite E in E'. injection E' as <- <-. eauto. Qed.
End E.
