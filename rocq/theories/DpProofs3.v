(** The handlers of gsDPatch write the intended rows of every column. *)
From Verif Require Import Common TopoModel BaseModel BaseModel2 IndexSpec TopoSpec SmoothSpec SmoothSpec2 RingModel RingSpec DpModel DpSpec
  IndexProofs IndexTopoProofs ListLemmas TopoProofs PointProofs MapperProofs CountProofs MatrixProofs HandlerProofs RingProofs RingProofs2 RingProofs3
  DpProofs DpProofs2.
From Coq Require Import ZifyBool.

Section H.
Variable DI : dinput.
Notation I := (dring DI).
Hypothesis RI : ring_input I.
Hypothesis RM : rows_match DI.
Variable m : cmap.
Hypothesis V : vals I m.
Hypothesis Hsup : forall c, fst c < length (ribases I) -> dsup I c = true.
Notation t := (ritopo I).
Notation np := (length (ribases I)).
Notation S0 := (shadow I).
Let W0 := shadow_wf I RI.
Let Hcons : consistent t := ri_topo I RI.
Let Hnp : tnp t = np := ri_np I RI.
Notation cls := (cls t).
Notation valence := (valence t).
Notation inner := (inner t).
Notation ifl := (ifl t).
Notation rc0 := (rc0 I).
Notation sizes := (sizes I).
Notation D := (dofs_from 0 sizes).
Notation B := (B I).
Notation rbas := (rbas I).
Notation strip := (strip I).
Notation tri := (tri I).
Notation ridx := (ridx m).
Notation cidx := (cidx sizes).
Notation dpt := (dpt DI).
Notation kid := (kid DI m).
Notation darted := (darted DI).
Notation rem1 := (rem1 DI).
Notation rem2 := (rem2 DI).
Notation smarks := (marks S0 sideIndex (@fst nat side)).
Notation vmarks := (marks S0 vertIndex (@fst nat corner)).
Let rvalidc := rvalidc I RI.
Let np0 := np0 I.
Let ES : cmsizes m = sizes := va_sizes I m V.

Definition C : dctx := mkDC DI m (cfreeSize m) (cfreeSize (cmap_of sizes)).

Lemma row_ok x p : In x D -> p = fst x -> drow C (snd x) p = Ok (ridx x).
Proof. intros H ->. apply (cindex_ok sizes m ES x H). Qed.
Lemma col_ok x p : In x D -> p = fst x -> dcol C (snd x) p = Ok (cidx x).
Proof. intros H ->. apply (cindex_orig sizes x H). Qed.
Lemma row_pi p i : In (p, i) D -> drow C i p = Ok (ridx (p, i)).
Proof. intros H. apply (row_ok (p, i) p); auto. Qed.
Lemma col_pi p i : In (p, i) D -> dcol C i p = Ok (cidx (p, i)).
Proof. intros H. apply (col_ok (p, i) p); auto. Qed.
Lemma difv_ok (c : pcorner) d k o : fst c < np -> d < 2 -> k < 2 -> o < 2 -> difv C k c (cside (snd c) d) o = Ok (snd (dpt c d k o)).
Proof.
  intros H Hd Hk Ho. unfold difv. cbn [dcI C]. rewrite (rbas_get I RI) by exact H. cbn [bind]. f_equal.
  destruct d as [|[|]]; [| |lia]; simpl.
  - apply rifv_blk0.
  - apply rifv_blk1; auto. apply (rbas_like I RI); auto.
Qed.
Lemma fst_dpt (c : pcorner) d k o : fst c = fst (dpt c d k o). Proof. destruct d; reflexivity. Qed.
Lemma dpt11 (c : pcorner) d : dpt c d 1 1 = B c 1 1. Proof. destruct d; reflexivity. Qed.
Lemma dpt00 (c : pcorner) d : dpt c d 0 0 = B c 0 0. Proof. destruct d; reflexivity. Qed.

(** ** invariant *)
Definition aentry := (nat * dof * Q)%type.
Definition conc (a : aentry) : entry := let '(r, y, w) := a in (r, cidx y, w).
Definition self (x : dof) : aentry := (ridx x, x, 1%Q).
Definition good (a : aentry) : Prop := let '(r, y, w) := a in In y D /\ exists P, kid y P /\ In (r, w) P.
Definition selfclosed (l : list aentry) : Prop :=
  forall r y w x, In (r, y, w) l -> In x D -> cmval m x = 0%Z -> ridx x = r -> In (self x) l.

Definition Inv (s : xstate) (l : list aentry) : Prop :=
  (forall e, In e (xs_mat s) <-> In e (map conc l)) /\
  (forall a, In a l -> good a) /\ selfclosed l /\
  length (xs_basis s) = dcRows C /\
  (forall r, r < dcRows C -> exists b, vget (xs_basis s) r = Ok b /\
     (b = true <-> exists c w, In (r, c, w) (xs_mat s))).

Lemma good_self x : In x D -> cmval m x = 0%Z -> good (self x).
Proof. intros H E. split; [exact H|]. eexists. split; [apply k_own; exact E|left; reflexivity]. Qed.
Lemma good_row r y w : good (r, y, w) -> r < dcRows C /\ cidx y < dcCols C.
Proof.
  intros (Hy & P & K & Hin). split; [|apply cidx_lt; exact Hy].
  destruct (kid_rows DI RI RM m V y P r w K Hy Hin) as (x & (Hx & Hz) & ->). apply (ridx_lt sizes m ES); auto.
Qed.

(** rows of coupled functions or of functions that are written themselves *)
Lemma selfclosed_of l : (forall r y w, In (r, y, w) l -> exists x, In x D /\ r = ridx x /\
    ((0 < cmval m x)%Z \/ (cmval m x = 0%Z /\ In (self x) l))) -> selfclosed l.
Proof.
  intros H r y w x Hin Hx Zx Er. destruct (H r y w Hin) as (x0 & H0 & -> & [G|[G Hs]]).
  - apply (ridx_neq DI RI m V) in Er; auto; [subst x0|]; lia.
  - apply (ridx_neq DI RI m V) in Er; auto; [|lia]. subst x0. exact Hs.
Qed.
Lemma selfclosed_app l l' : selfclosed l -> selfclosed l' -> selfclosed (l ++ l').
Proof.
  intros H1 H2 r y w x Ha Hx Zx Er. apply in_app_iff in Ha. apply in_app_iff. destruct Ha as [Ha|Ha]; [left|right]; eauto.
Qed.

Lemma push_basis es s :
  length (xs_basis s) = dcRows C ->
  (forall r, r < dcRows C -> exists b, vget (xs_basis s) r = Ok b /\ (b = true <-> exists c w, In (r, c, w) (xs_mat s))) ->
  (forall r c w, In (r, c, w) es -> r < dcRows C /\ c < dcCols C) ->
  exists s', dpush C es s = Ok s' /\ xs_side s' = xs_side s /\ xs_vert s' = xs_vert s /\
    length (xs_basis s') = dcRows C /\
    (forall e, In e (xs_mat s') <-> In e (xs_mat s) \/ In e es) /\
    (forall r, r < dcRows C -> exists b, vget (xs_basis s') r = Ok b /\ (b = true <-> exists c w, In (r, c, w) (xs_mat s'))).
Proof.
  revert s. induction es as [|[[r c] w] es IH]; intros s HL HB He.
  - exists s. repeat split; auto. intros [?|[]]; auto.
  - unfold dpush. cbn [foldM]. destruct (He r c w) as [Hr Hc]; [left; auto|].
    rewrite (proj2 (Nat.ltb_lt _ _) Hr), (proj2 (Nat.ltb_lt _ _) Hc). cbn [andb ensure bind].
    rewrite vset_ok by (rewrite HL; exact Hr). cbn [bind].
    edestruct IH as (s' & E & E1 & E2 & E3 & E4 & E5).
    4:{ exists s'. split; [exact E|]. rewrite E1, E2. cbn [xs_side xs_vert]. split; auto. split; auto. split; auto. split; [|exact E5].
        intros e. rewrite E4. cbn [xs_mat In]. tauto. }
    + cbn [xs_basis]. rewrite upd_length. exact HL.
    + cbn [xs_basis xs_mat]. intros r' Hr'. rewrite vget_upd by (rewrite HL; exact Hr).
      destruct (r =? r') eqn:Er.
      * apply Nat.eqb_eq in Er. subst r'. exists true. split; auto. split; auto. intros _. exists c, w. left; auto.
      * destruct (HB r' Hr') as (b & Hb & Hb'). exists b. split; auto. rewrite Hb'. split.
        -- intros (c' & w' & G). exists c', w'. right; auto.
        -- intros (c' & w' & [[= -> _ _]|G]); [rewrite Nat.eqb_refl in Er; discriminate|eauto].
    + intros r' c' w' Hin; apply (He r' c' w'); right; auto.
Qed.

Lemma push_ok s l es : Inv s l -> (forall a, In a es -> good a) -> selfclosed es ->
  exists s', dpush C (map conc es) s = Ok s' /\ xs_side s' = xs_side s /\ xs_vert s' = xs_vert s /\ Inv s' (l ++ es).
Proof.
  intros (H1 & H2 & H3 & H4 & H5) Hg Hc.
  destruct (push_basis (map conc es) s H4 H5) as (s' & E & E1 & E2 & E3 & E4 & E5).
  { intros r c w Hin. apply in_map_iff in Hin. destruct Hin as ([[x y] w'] & [= <- <- <-] & Hin).
    apply (good_row x y w'), Hg, Hin. }
  exists s'. split; [exact E|]. split; [exact E1|]. split; [exact E2|]. split; [|split; [|split; [|split]]]; auto.
  - intros e. rewrite E4, H1, map_app, in_app_iff. tauto.
  - intros a Ha. apply in_app_iff in Ha. destruct Ha; auto.
  - apply selfclosed_app; auto.
Qed.

Lemma setVert_ok s l P pc : Inv s l -> vmarks (xs_vert s) P -> fst pc < np ->
  exists s', setVert s pc = Ok s' /\ Inv s' l /\ xs_side s' = xs_side s /\ vmarks (xs_vert s') (fun c => c = pc \/ P c).
Proof.
  intros HI Hm Hp. unfold setVert. destruct (vmarks_set S0 _ _ pc Hm (np0 _ Hp)) as (l' & E & Hl). rewrite E. cbn [bind].
  eexists. split; [reflexivity|]. split; [exact HI|]. split; auto.
Qed.
Lemma setSide_ok s l P ps : Inv s l -> smarks (xs_side s) P -> fst ps < np ->
  exists s', setSide s ps = Ok s' /\ Inv s' l /\ xs_vert s' = xs_vert s /\ smarks (xs_side s') (fun c => c = ps \/ P c).
Proof.
  intros HI Hm Hp. unfold setSide. destruct (smarks_set S0 _ _ ps Hm (np0 _ Hp)) as (l' & E & Hl). rewrite E. cbn [bind].
  eexists. split; [reflexivity|]. split; [exact HI|]. split; auto.
Qed.
Lemma setVerts_ok l : forall cs s P, Inv s l -> vmarks (xs_vert s) P -> (forall c, In c cs -> fst c < np) ->
  exists s', foldM setVert cs s = Ok s' /\ Inv s' l /\ xs_side s' = xs_side s /\ vmarks (xs_vert s') (fun c => P c \/ In c cs).
Proof.
  induction cs as [|c cs IH]; intros s P HI Hm Hc; cbn [foldM].
  - exists s. split; auto. split; auto. split; auto. revert Hm. apply marks_ext. intros a _. simpl. tauto.
  - destruct (setVert_ok s l P c HI Hm) as (s1 & E & HI1 & S1 & M1); [apply Hc; left; auto|]. rewrite E. cbn [bind].
    destruct (IH s1 _ HI1 M1) as (s2 & E2 & HI2 & S2 & M2); [intros; apply Hc; right; auto|].
    exists s2. split; auto. split; auto. split; [congruence|]. revert M2. apply marks_ext. intros a _. simpl. intuition.
Qed.

(** ** entries written at a vertex *)
Definition dart (c : pcorner) (d k : nat) : list aentry :=
  match dnext t (c, d) with
  | Some (c', d') => [(ridx (dpt c d k 1), dpt c d k 0, half); (ridx (dpt c d k 1), dpt c' d' k 0, half)]
  | None => []
  end.
Definition idir (c : pcorner) : nat := if ifl c 0 then 0 else 1.
Definition vks (c : pcorner) : list nat := if rc0 c then [1] else [0; 1].

Definition vent (c : pcorner) : list aentry :=
  if inner c then
    self (B c 1 1) :: map (fun c' => (ridx (B c 1 1), B c' 0 0, (1 # Pos.of_nat (valence c))%Q)) (cls c) ++ concat [dart c 0 1; dart c 1 1]
  else if valence c =? 1 then map self [dpt c 0 0 0; dpt c 0 1 0; dpt c 1 1 0; dpt c 1 1 1]
  else concat (map (fun k => self (dpt c (idir c) k 1) :: dart c (idir c) k) (vks c)).

Definition bside (e : nat) (c : pcorner) (d : nat) : list aentry :=
  match dnext t (c, d) with
  | None => [(ridx (dpt c d 1 1), dpt c d 1 0, half); (e, dpt c d 1 0, half)]
  | Some _ => []
  end.
Definition quad (c : pcorner) (d : nat) : list aentry :=
  match dnext t (c, d) with
  | Some (c', d') => flat_map (fun r => map (fun y => (r, y, half)) [dpt c d 1 0; dpt c' d' 1 0]) [ridx (dpt c d 1 1); ridx (dpt c' d' 1 1)]
  | None => []
  end.
Definition ient (l : list pcorner) (f : iface) : list aentry :=
  concat (map (fun k => if existsb (pc_eqb (fst (if1 f), k)) l then quad (fst (if1 f), k) (side_dir (snd (if1 f))) else [])
              (contained_corners (snd (if1 f)))).
Definition ifaces (l : list pcorner) : list iface :=
  flat_map (fun c => flat_map (fun sd => match getInterface t (fst c, sd) with Some f => [f] | None => [] end) (containing_sides (snd c))) l.

Definition tent (c : pcorner) : list aentry :=
  let e := ridx (B c 0 0) in
  concat (map (fun c' => concat (map (bside e c') [0; 1])) (cls c)) ++ map (fun c' => (e, B c' 0 0, quarter)) (cls c) ++
  concat (map (fun c1 => self (B c1 1 1) :: map (fun c' => (ridx (B c1 1 1), B c' 0 0, quarter)) (cls c)) (cls c)) ++
  concat (map (ient (cls c)) (ifaces (cls c))).

Lemma dart_good (c : pcorner) d k (c' : pcorner) d' : fst c < np -> d < 2 -> dnext t (c, d) = Some (c', d') -> darted c k ->
  good (self (dpt c d k 1)) /\ good (ridx (dpt c d k 1), dpt c d k 0, half) /\ good (ridx (dpt c d k 1), dpt c' d' k 0, half).
Proof.
  intros Hc Hd Hn Hk. destruct (dnext_np DI RI _ _ _ _ Hn) as [_ Hc']. pose proof (dnext_dir t _ _ _ Hn) as Hd'.
  pose proof (dnext_in_cls DI RI c d c' d' Hd Hn) as Hcl. pose proof (darted_lt DI RI _ _ Hk) as Hk2.
  assert (ifl c d = true) as F by (apply (ifl_dnext DI); eauto).
  split; [|split].
  - apply good_self; [apply (dpt_in DI RI); auto|]. apply (value_dart1 DI RI m V); auto.
  - split; [apply (dpt_in DI RI); auto|]. eexists. split; [apply (k_dart DI m c d k c' d'); auto|left; reflexivity].
  - split; [apply (dpt_in DI RI); auto|]. eexists.
    split; [apply (k_dart DI m c' d' k c d); auto; [apply (dnext_sym t Hcons); auto|apply (darted_cls DI RI c); auto]|right; left; reflexivity].
Qed.
Lemma dart1_good (c : pcorner) d a : fst c < np -> d < 2 -> In a (dart c d 1) -> good a.
Proof.
  intros Hc Hd Ha. unfold dart in Ha. destruct (dnext t (c, d)) as [[c' d']|] eqn:E; [|contradiction].
  destruct (dart_good c d 1 c' d') as (G1 & G2 & G3); auto; [left; auto|]. destruct Ha as [<-|[<-|[]]]; auto.
Qed.
Lemma idir_next (c : pcorner) : fst c < np -> 2 <= valence c -> exists c' d', dnext t (c, idir c) = Some (c', d') /\ idir c < 2.
Proof.
  intros Hv H2. unfold idir. destruct (val2_iface t Hcons c (proj2 (rvalidc c) Hv) H2) as [E|E].
  - rewrite E. apply (ifl_dnext DI) in E. destruct E as (c' & d & E). exists c', d. split; auto.
  - destruct (ifl c 0) eqn:F; [apply (ifl_dnext DI) in F; destruct F as (c' & d & F); exists c', d; split; auto|].
    apply (ifl_dnext DI) in E. destruct E as (c' & d & E). exists c', d. split; auto.
Qed.
Lemma nontri (c : pcorner) : fst c < np -> tri c = false -> inner c = true \/ (inner c = false /\ (valence c = 1 \/ valence c = 2)).
Proof.
  intros H T. pose proof (RingProofs3.valence_pos I RI c H). unfold DpProofs.tri in T. destruct (inner c); auto. right. split; auto. simpl in T. lia.
Qed.
Lemma vks_darted (c : pcorner) k : inner c = false -> valence c = 2 -> In k (vks c) -> darted c k.
Proof.
  intros Hi Hv Hk. unfold vks in Hk. destruct (rc0 c) eqn:E; [destruct Hk as [<-|[]]; left; auto|].
  destruct Hk as [<-|[<-|[]]]; [right; auto|left; auto].
Qed.

Lemma corner_value (c : pcorner) a e : fst c < np -> inner c = false -> valence c = 1 -> a < 2 -> e < 2 -> cmval m (B c a e) = 0%Z.
Proof.
  intros H Hi Hv Ha He. pose proof (va_near I m V c H a e Ha He) as G. unfold DpProofs.tri, elb in G. rewrite Hi, Hv in G. exact G.
Qed.

Lemma vent_good (c : pcorner) a : fst c < np -> tri c = false -> In a (vent c) -> good a.
Proof.
  intros Hc T Ha. pose proof (proj2 (rvalidc c) Hc) as Hv. unfold vent in Ha.
  destruct (nontri c Hc T) as [Hi|[Hi [E1|E2]]]; rewrite Hi in Ha.
  - cbn [concat] in Ha. rewrite app_nil_r in Ha. cbn [In] in Ha. rewrite !in_app_iff in Ha.
    destruct Ha as [<-|[Ha|[Ha|Ha]]]; try (apply dart1_good in Ha; auto; fail).
    + apply good_self; [apply (B_in I RI); auto|apply (value11 DI RI m V); auto].
    + apply in_map_iff in Ha. destruct Ha as (c' & <- & Hc'). pose proof (rcls_valid I RI c c' Hc Hc') as Hp'.
      split; [apply (B_in I RI); auto|]. eexists. split; [apply k_inner; auto; rewrite (inner_cls t Hcons c c'); auto|].
      rewrite (valence_cls t Hcons c c') by auto. apply in_map_iff. exists c. split; auto. apply (in_cls_sym t Hcons); auto.
  - rewrite E1 in Ha. cbn [Nat.eqb] in Ha. apply in_map_iff in Ha. destruct Ha as (x & <- & Hx).
    simpl in Hx. repeat (destruct Hx as [<-|Hx]); try contradiction; (apply good_self; [apply (B_in I RI); auto|apply corner_value; auto]).
  - rewrite E2 in Ha. cbn [Nat.eqb] in Ha. destruct (idir_next c Hc ltac:(lia)) as (c' & d' & En & Hd).
    apply in_concat in Ha. destruct Ha as (l & Hl & Ha). apply in_map_iff in Hl. destruct Hl as (k & <- & Hk).
    apply vks_darted in Hk; auto. destruct (dart_good c (idir c) k c' d' Hc Hd En Hk) as (G1 & G2 & G3).
    unfold dart in Ha. rewrite En in Ha. destruct Ha as [<-|[<-|[<-|[]]]]; auto.
Qed.

Lemma vent_selfclosed (c : pcorner) : fst c < np -> tri c = false -> selfclosed (vent c).
Proof.
  intros Hc T. pose proof (proj2 (rvalidc c) Hc) as Hv. apply selfclosed_of. intros r y w Ha. unfold vent in *.
  assert (In (B c 1 1) D) as D11 by (apply (B_in I RI); auto). pose proof (value11 DI RI m V c Hc) as V11.
  destruct (nontri c Hc T) as [Hi|[Hi [E1|E2]]]; rewrite Hi in *.
  - exists (B c 1 1). split; auto. assert (r = ridx (B c 1 1)) as Er; [|split; auto; right; split; auto; left; reflexivity].
    cbn [concat] in Ha. rewrite app_nil_r in Ha. cbn [In] in Ha. rewrite !in_app_iff in Ha.
    assert (forall d, In (r, y, w) (dart c d 1) -> r = ridx (B c 1 1)) as K.
    { intros d Hin. unfold dart in Hin. destruct (dnext t (c, d)) as [[c' d']|]; [|contradiction]. rewrite dpt11 in Hin.
      destruct Hin as [[= <- _ _]|[[= <- _ _]|[]]]; auto. }
    destruct Ha as [[= <- _ _]|[Ha|[Ha|Ha]]]; auto; try (eapply K; eauto; fail).
    apply in_map_iff in Ha. destruct Ha as (c' & [= <- _ _] & _). reflexivity.
  - rewrite E1 in *. cbn [Nat.eqb] in *. apply in_map_iff in Ha. destruct Ha as (x & [= <- <- <-] & Hx). exists x.
    assert (exists a e, a < 2 /\ e < 2 /\ x = B c a e) as (a & e & A1 & A2 & ->).
    { destruct Hx as [<-|[<-|[<-|[<-|[]]]]]; [exists 0, 0|exists 0, 1|exists 1, 0|exists 1, 1]; auto. }
    split; [apply (B_in I RI); auto|]. split; auto. right. split; [apply corner_value; auto|]. apply in_map. exact Hx.
  - rewrite E2 in *. cbn [Nat.eqb] in *. destruct (idir_next c Hc ltac:(lia)) as (c' & d' & En & Hd).
    apply in_concat in Ha. destruct Ha as (l & Hl & Ha). pose proof Hl as Hl'. apply in_map_iff in Hl. destruct Hl as (k & <- & Hk).
    pose proof (vks_darted c k Hi E2 Hk) as Dk. pose proof (darted_lt DI RI _ _ Dk).
    exists (dpt c (idir c) k 1). split; [apply (dpt_in DI RI); auto|].
    unfold dart in *. rewrite En in *. split; [destruct Ha as [[= <- _ _]|[[= <- _ _]|[[= <- _ _]|[]]]]; auto|].
    right. split; [apply (value_dart1 DI RI m V); auto; apply (ifl_dnext DI); eauto|].
    apply in_concat. eexists. split; [exact Hl'|]. left; reflexivity.
Qed.

Lemma tri_eq (c : pcorner) (c' : pcorner) : fst c < np -> tri c = true -> In c' (cls c) -> ridx (B c' 0 0) = ridx (B c 0 0).
Proof.
  intros Hc T Hc'. pose proof (rcls_valid I RI c c' Hc Hc') as Hp'. symmetry. apply ridx_group.
  - apply (value_tri DI RI m V); auto.
  - apply (va_group I m V); auto. rewrite (tri_cls I RI c c'); auto.
Qed.

Lemma quad_in (c : pcorner) d (c' : pcorner) d' r y w : dnext t (c, d) = Some (c', d') ->
  In (r, y, w) (quad c d) <-> w = half /\ (r = ridx (B c 1 1) \/ r = ridx (B c' 1 1)) /\ (y = dpt c d 1 0 \/ y = dpt c' d' 1 0).
Proof.
  intros En. unfold quad. rewrite En, !dpt11. simpl. split.
  - intros G. repeat (destruct G as [G|G]; [injection G as <- <- <-; auto|]). contradiction.
  - intros (-> & [->| ->] & [->| ->]); auto 10.
Qed.

Lemma ient_in l f a : In f (tif t) -> In a (ient l f) <-> exists c d, In c l /\ (fst c, cside (snd c) d) = if1 f /\ d < 2 /\ In a (quad c d).
Proof.
  intros Hf. unfold ient. rewrite in_concat. split.
  - intros (q & Hq & Ha). apply in_map_iff in Hq. destruct Hq as (k & <- & Hk). apply contained_corners_on in Hk.
    destruct (existsb _ l) eqn:E; [|contradiction]. apply existsb_pc in E. eexists _, _. split; [exact E|]. split; [|split; [|exact Ha]].
    + simpl. rewrite cside_of_on by exact Hk. destruct (if1 f); reflexivity.
    + apply side_dir_lt.
  - intros ([p k] & d & Hc & E & Hd & Ha). simpl in E. destruct (if1 f) as [p1 s1] eqn:E1. injection E as -> <-. simpl.
    eexists. split; [apply in_map, (proj2 (contained_corners_on (cside k d) k)), on_side_cside|].
    cbn beta. rewrite (proj2 (existsb_pc (p1, k) l) Hc). rewrite side_dir_cside by exact Hd. exact Ha.
Qed.
Lemma ifaces_in l f : In f (ifaces l) <-> exists c d, In c l /\ d < 2 /\ getInterface t (fst c, cside (snd c) d) = Some f.
Proof.
  unfold ifaces. rewrite in_flat_map. split.
  - intros (c & Hc & Hf). apply in_flat_map in Hf. destruct Hf as (sd & Hsd & Hf). exists c.
    destruct (getInterface t (fst c, sd)) as [g|] eqn:E; [|contradiction]. destruct Hf as [<-|[]].
    destruct Hsd as [<-|[<-|[]]]; [exists 0|exists 1]; auto.
  - intros (c & d & Hc & Hd & E). exists c. split; auto. apply in_flat_map. exists (cside (snd c) d). rewrite E. split; [|left; auto].
    destruct d as [|[|]]; [left; auto|right; left; auto|lia].
Qed.
Lemma iface_dnext f (c : pcorner) d : In f (tif t) -> (fst c, cside (snd c) d) = if1 f -> d < 2 ->
  exists c', dnext t (c, d) = Some (c', side_dir (snd (if2 f))) /\ imapCorner f c = Ok c' /\ fst c' = fst (if2 f) /\ cside (snd c') (side_dir (snd (if2 f))) = snd (if2 f).
Proof.
  intros Hf E Hd. destruct c as [p k]. simpl in E.
  assert (glue t (p, cside k d) = Some (if2 f, ifflip f)) as G by (apply (glue_some t Hcons); exists f; auto).
  destruct (glue_iface t Hcons _ _ _ G) as (f' & F1 & F2 & F3).
  assert (getInterface t (p, cside k d) = Some f) as F0 by (apply (getInterface_of t Hcons); auto).
  rewrite F0 in F1. injection F1 as <-.
  exists (mapc (cside k d) (if2 f) (ifflip f) k). unfold dnext. rewrite G. split; [reflexivity|]. split; [|split; [reflexivity|]].
  - apply (F3 k). apply on_side_cside.
  - unfold mapc. simpl. apply cside_of_on, on_side_corner_at.
Qed.

(** entries of a boundary vertex of valence three *)
Lemma tent_in (c : pcorner) r y w : fst c < np -> tri c = true ->
  In (r, y, w) (tent c) <->
  (exists c' d, In c' (cls c) /\ d < 2 /\ dnext t (c', d) = None /\ y = dpt c' d 1 0 /\ w = half /\ (r = ridx (B c' 1 1) \/ r = ridx (B c 0 0))) \/
  (exists c', In c' (cls c) /\ r = ridx (B c 0 0) /\ y = B c' 0 0 /\ w = quarter) \/
  (exists c1, In c1 (cls c) /\ r = ridx (B c1 1 1) /\ ((y = B c1 1 1 /\ w = 1%Q) \/ exists c', In c' (cls c) /\ y = B c' 0 0 /\ w = quarter)) \/
  (exists c1 d c' d', In c1 (cls c) /\ d < 2 /\ dnext t (c1, d) = Some (c', d') /\ y = dpt c1 d 1 0 /\ w = half /\ (r = ridx (B c1 1 1) \/ r = ridx (B c' 1 1))).
Proof.
  intros Hc T. pose proof (proj2 (rvalidc c) Hc) as Hv. unfold tent. rewrite !in_app_iff.
  assert (forall c1 d c' d', In c1 (cls c) -> d < 2 -> dnext t (c1, d) = Some (c', d') -> In c' (cls c)) as Cl.
  { intros c1 d c' d' H1 H2 H3. apply (cls_closed t Hcons c c1); auto. apply in_cn. eauto. }
  split.
  - intros [Ha|[Ha|[Ha|Ha]]].
    + left. apply in_concat in Ha. destruct Ha as (q & Hq & Ha). apply in_map_iff in Hq. destruct Hq as (c' & <- & Hc').
      apply in_concat in Ha. destruct Ha as (q & Hq & Ha). apply in_map_iff in Hq. destruct Hq as (d & <- & Hd).
      unfold bside in Ha. destruct (dnext t (c', d)) eqn:En; [contradiction|]. rewrite dpt11 in Ha.
      exists c', d. split; auto. split; [destruct Hd as [<-|[<-|[]]]; lia|]. split; auto.
      destruct Ha as [[= <- <- <-]|[[= <- <- <-]|[]]]; auto.
    + right; left. apply in_map_iff in Ha. destruct Ha as (c' & [= <- <- <-] & Hc'). eauto.
    + right; right; left. apply in_concat in Ha. destruct Ha as (q & Hq & Ha). apply in_map_iff in Hq. destruct Hq as (c1 & <- & Hc1).
      exists c1. split; auto. destruct Ha as [[= <- <- <-]|Ha]; auto. apply in_map_iff in Ha. destruct Ha as (c' & [= <- <- <-] & Hc'). eauto 6.
    + right; right; right. apply in_concat in Ha. destruct Ha as (q & Hq & Ha). apply in_map_iff in Hq. destruct Hq as (f & <- & Hf).
      apply ifaces_in in Hf. destruct Hf as (c2 & d2 & _ & _ & Hf). apply getInterface_some in Hf. destruct Hf as [Hf _].
      apply ient_in in Ha; auto. destruct Ha as (c1 & d & Hc1 & E & Hd & Ha).
      destruct (iface_dnext f c1 d Hf E Hd) as (c' & En & _). pose proof (Cl _ _ _ _ Hc1 Hd En) as Hc'.
      apply (quad_in c1 d c' _ r y w En) in Ha. destruct Ha as (-> & Hr & [->| ->]).
      * exists c1, d, c', (side_dir (snd (if2 f))). repeat (split; auto).
      * exists c', (side_dir (snd (if2 f))), c1, d. split; auto. split; [apply side_dir_lt|]. split; [apply (dnext_sym t Hcons); auto|]. tauto.
  - intros [G|[G|[G|G]]].
    + left. destruct G as (c' & d & Hc' & Hd & En & -> & -> & Hr). apply in_concat.
      eexists. split; [apply in_map; exact Hc'|]. apply in_concat. exists (bside (ridx (B c 0 0)) c' d). split.
      * apply in_map. destruct d as [|[|]]; simpl; auto; lia.
      * unfold bside. rewrite En, dpt11. destruct Hr as [->| ->]; simpl; auto.
    + right; left. destruct G as (c' & Hc' & -> & -> & ->). apply in_map_iff. eauto.
    + right; right; left. destruct G as (c1 & Hc1 & -> & G). apply in_concat. eexists. split; [apply in_map; exact Hc1|].
      destruct G as [[-> ->]|(c' & Hc' & -> & ->)]; [left; reflexivity|right]. apply in_map_iff. eauto.
    + right; right; right. destruct G as (c1 & d & c' & d' & Hc1 & Hd & En & -> & -> & Hr).
      pose proof (Cl _ _ _ _ Hc1 Hd En) as Hc'. pose proof (dnext_dir t _ _ _ En) as Hd'.
      assert (exists f, In f (tif t) /\ getInterface t (fst c1, cside (snd c1) d) = Some f) as (f & Hf & Gf).
      { assert (isInterface t (fst c1, cside (snd c1) d) = true) as F by (apply dnext_iface; eauto).
        destruct (getInterface t (fst c1, cside (snd c1) d)) as [f|] eqn:E; [|apply getInterface_none in E; congruence].
        pose proof (getInterface_some t _ _ E) as [Hf _]. eauto. }
      apply in_concat. exists (ient (cls c) f). split; [apply in_map, ifaces_in; eauto|]. apply ient_in; auto.
      destruct (getInterface_some t _ _ Gf) as [_ [E|E]].
      * exists c1, d. split; auto. split; auto. split; auto. apply (quad_in c1 d c' d'); auto.
      * exists c', d'. split; auto. split; [|split; auto].
        -- destruct c1 as [p1 k1]. apply dnext_spec in En. destruct En as (ps' & fl & G & E1 & E2 & E3 & E4 & E5). simpl in E, E3, E4, E5.
           apply (glue_some t Hcons) in G. destruct G as (g & Hg & _ & [[G1 G2]|[G1 G2]]).
           ++ exfalso. apply (iface_ends_differ t Hcons f Hf). assert (f = g) as <- by (apply (iface_unique t Hcons f g (p1, cside k1 d)); auto). congruence.
           ++ assert (f = g) as <- by (apply (iface_unique t Hcons f g (p1, cside k1 d)); auto). rewrite G2.
              destruct ps' as [p' s']. simpl in *. congruence.
        -- apply (quad_in c' d' c1 d); [apply (dnext_sym t Hcons); auto|]. tauto.
Qed.

Lemma tent_good (c : pcorner) a : fst c < np -> tri c = true -> In a (tent c) -> good a.
Proof.
  intros Hc T Ha. destruct a as [[r y] w]. apply tent_in in Ha; auto. pose proof (proj2 (rvalidc c) Hc) as Hv.
  assert (forall c', In c' (cls c) -> fst c' < np /\ tri c' = true /\ ridx (B c' 0 0) = ridx (B c 0 0) /\ Permutation (cls c) (cls c')) as K.
  { intros c' Hc'. split; [apply (rcls_valid I RI c); auto|]. split; [rewrite (tri_cls I RI c); auto|]. split; [apply tri_eq; auto|].
    apply (cls_perm t Hcons); auto. }
  destruct Ha as [G|[G|[G|G]]].
  - destruct G as (c' & d & Hc' & Hd & En & -> & -> & Hr). destruct (K c' Hc') as (K1 & K2 & K3 & K4).
    split; [apply (dpt_in DI RI); auto|]. eexists. split; [apply (k_trib DI m c' d); auto|]. rewrite K3. destruct Hr as [->| ->]; simpl; auto.
  - destruct G as (c' & Hc' & -> & -> & ->). destruct (K c' Hc') as (K1 & K2 & K3 & K4).
    split; [apply (B_in I RI); auto|]. eexists. split; [apply (k_tri0 DI m c'); auto|]. rewrite K3. left; reflexivity.
  - destruct G as (c1 & Hc1 & -> & [[-> ->]|(c' & Hc' & -> & ->)]).
    + destruct (K c1 Hc1) as (K1 & _). apply good_self; [apply (B_in I RI); auto|apply (value11 DI RI m V); auto].
    + destruct (K c' Hc') as (K1 & K2 & K3 & K4). split; [apply (B_in I RI); auto|]. eexists. split; [apply (k_tri0 DI m c'); auto|].
      right. apply in_map_iff. exists c1. split; auto. eapply Permutation_in; eauto.
  - destruct G as (c1 & d & c' & d' & Hc1 & Hd & En & -> & -> & Hr). destruct (K c1 Hc1) as (K1 & _).
    split; [apply (dpt_in DI RI); auto|]. eexists. split; [apply (k_dart DI m c1 d 1 c' d'); auto; left; auto|].
    rewrite !dpt11. destruct Hr as [->| ->]; simpl; auto.
Qed.
Lemma tent_selfclosed (c : pcorner) : fst c < np -> tri c = true -> selfclosed (tent c).
Proof.
  intros Hc T. apply selfclosed_of. intros r y w Ha. apply tent_in in Ha; auto. pose proof (proj2 (rvalidc c) Hc) as Hv.
  assert (forall c', In c' (cls c) -> r = ridx (B c' 1 1) -> exists x, In x D /\ r = ridx x /\ ((0 < cmval m x)%Z \/ cmval m x = 0%Z /\ In (self x) (tent c))) as K.
  { intros c' Hc' ->. pose proof (rcls_valid I RI c c' Hc Hc') as Hp'. exists (B c' 1 1). split; [apply (B_in I RI); auto|]. split; auto. right.
    split; [apply (value11 DI RI m V); auto|]. apply tent_in; auto. right; right; left. exists c'. auto. }
  assert (r = ridx (B c 0 0) -> exists x, In x D /\ r = ridx x /\ ((0 < cmval m x)%Z \/ cmval m x = 0%Z /\ In (self x) (tent c))) as K0.
  { intros ->. exists (B c 0 0). split; [apply (B_in I RI); auto|]. split; auto. left. apply (value_tri DI RI m V); auto. }
  destruct Ha as [G|[G|[G|G]]].
  - destruct G as (c' & d & Hc' & Hd & En & -> & -> & [Hr|Hr]); eauto.
  - destruct G as (c' & Hc' & Hr & _). auto.
  - destruct G as (c1 & Hc1 & Hr & _). eauto.
  - destruct G as (c1 & d & c' & d' & Hc1 & Hd & En & -> & -> & [Hr|Hr]); [eauto|]. apply (K c'); auto.
    apply (cls_closed t Hcons c c1); auto. apply in_cn. eauto.
Qed.

(** ** execution of the vertex handlers *)
Lemma dnext_model (c : pcorner) d (c' : pcorner) d' : dnext t (c, d) = Some (c', d') ->
  exists f ps', getInterface t (fst c, cside (snd c) d) = Some f /\
    iother f (fst c, cside (snd c) d) = Ok ps' /\ imapCorner f c = Ok c' /\ fst ps' = fst c' /\ snd ps' = cside (snd c') d'.
Proof.
  destruct c as [p c]. intros H. apply dnext_spec in H. destruct H as (ps' & fl & G & E1 & E2 & E3 & E4 & E5).
  destruct (glue_iface t Hcons _ _ _ G) as (f & F1 & F2 & F3). exists f, ps'. simpl. split; auto. split; auto. split; [|split; congruence].
  simpl in F3. rewrite F3 by apply on_side_cside. congruence.
Qed.
Lemma dnext_none_model (c : pcorner) d : dnext t (c, d) = None -> getInterface t (fst c, cside (snd c) d) = None.
Proof. intros H. apply getInterface_none. apply (dnext_none DI c d H). Qed.

Lemma finish s l P (c : pcorner) es : Inv s l -> vmarks (xs_vert s) P -> fst c < np -> tri c = false -> es = map conc (vent c) ->
  exists s', (do s <- dpush C es s; setVert s c) = Ok s' /\ Inv s' (l ++ vent c) /\
    xs_side s' = xs_side s /\ vmarks (xs_vert s') (fun x => P x \/ In x [c]).
Proof.
  intros HI Hm Hp T ->. destruct (push_ok s l (vent c) HI) as (s1 & E1 & E2 & E3 & HI1).
  { intros a Ha. apply (vent_good c); auto. } { apply vent_selfclosed; auto. }
  rewrite E1. cbn [bind]. rewrite <- E3 in Hm.
  destruct (setVert_ok s1 _ P c HI1 Hm Hp) as (s2 & F1 & F2 & F3 & F4).
  exists s2. split; auto. split; auto. split; [congruence|]. revert F4. apply marks_ext. intros a _. simpl. intuition.
Qed.

Lemma regularCorner_ok s l P (c : pcorner) : Inv s l -> vmarks (xs_vert s) P -> fst c < np -> inner c = false -> valence c = 1 ->
  exists s', dRegularCorner C s c = Ok s' /\ Inv s' (l ++ vent c) /\ xs_side s' = xs_side s /\ vmarks (xs_vert s') (fun x => P x \/ In x [c]).
Proof.
  intros HI Hm Hp Hi H1. unfold dRegularCorner. rewrite !difv_ok by (auto; lia). cbn [bind].
  set (xs := [dpt c 0 0 0; dpt c 0 1 0; dpt c 1 1 0; dpt c 1 1 1]).
  rewrite (mapM_ok _ (fun i => (ridx (fst c, i), cidx (fst c, i), 1%Q))).
  - cbn [bind]. apply finish; auto.
    + unfold DpProofs.tri. rewrite H1. apply andb_false_r.
    + unfold vent. rewrite Hi, H1. reflexivity.
  - intros i Hi'. assert (In (fst c, i) D) as Hx.
    { simpl in Hi'. repeat (destruct Hi' as [<-|Hi']; [apply (B_in I RI); auto|]). contradiction. }
    rewrite row_pi by auto. cbn [bind]. rewrite col_pi by auto. reflexivity.
Qed.

Lemma regularBoundary_ok s l P (c : pcorner) : Inv s l -> vmarks (xs_vert s) P -> fst c < np -> inner c = false -> valence c = 2 ->
  exists s', dRegularBoundary (vks c) C s c = Ok s' /\ Inv s' (l ++ vent c) /\ xs_side s' = xs_side s /\ vmarks (xs_vert s') (fun x => P x \/ In x [c]).
Proof.
  intros HI Hm Hp Hi H2. unfold dRegularBoundary. change (dtopo C) with t.
  change (isInterface t (fst c, cside (snd c) 0)) with (ifl c 0).
  assert ((if ifl c 0 then cside (snd c) 0 else cside (snd c) 1) = cside (snd c) (idir c)) as -> by (unfold idir; destruct (ifl c 0); reflexivity).
  destruct (idir_next c Hp ltac:(lia)) as (c' & d' & En & Hd).
  destruct (dnext_model _ _ _ _ En) as (f & ps' & F1 & F2 & F3 & F4 & F5). rewrite F1, F2. cbn [bind]. rewrite F3. cbn [bind].
  destruct (dnext_np DI RI _ _ _ _ En) as [_ Hp']. pose proof (dnext_dir t _ _ _ En) as Hd'.
  rewrite (mapM_ok _ (fun k => map conc (self (dpt c (idir c) k 1) :: dart c (idir c) k))).
  - cbn [bind]. apply finish; auto.
    + unfold DpProofs.tri. rewrite H2. apply andb_false_r.
    + unfold vent. rewrite Hi, H2. cbn [Nat.eqb]. rewrite concat_map, map_map. reflexivity.
  - intros k Hk. apply vks_darted in Hk; auto. pose proof (darted_lt DI RI _ _ Hk) as Hk2.
    assert (forall o, o < 2 -> In (dpt c (idir c) k o) D) as D1 by (intros; apply (dpt_in DI RI); auto).
    assert (forall o, o < 2 -> In (dpt c' d' k o) D) as D2 by (intros; apply (dpt_in DI RI); auto).
    rewrite !difv_ok by (auto; lia). cbn [bind]. rewrite F5, difv_ok by (auto; lia). cbn [bind].
    rewrite row_ok by (auto using fst_dpt). cbn [bind]. rewrite !col_ok by (rewrite ?F4; auto using fst_dpt). cbn [bind].
    unfold dart. rewrite En. reflexivity.
Qed.

Lemma interiorVertex_ok s l P (c : pcorner) : Inv s l -> vmarks (xs_vert s) P -> fst c < np -> inner c = true ->
  exists s', dInteriorVertex C s c (valence c) = Ok s' /\ Inv s' (l ++ vent c) /\ xs_side s' = xs_side s /\ vmarks (xs_vert s') (fun x => P x \/ In x [c]).
Proof.
  intros HI Hm Hp Hi. pose proof (proj2 (rvalidc c) Hp) as Hv. unfold dInteriorVertex. change (dtopo C) with t.
  assert (In (B c 1 1) D) as D11 by (apply (B_in I RI); auto).
  rewrite difv_ok by (auto; lia). cbn [bind]. rewrite dpt11. rewrite row_ok by auto. cbn [bind]. rewrite col_ok by auto. cbn [bind].
  rewrite (cornerList_cls t Hcons c Hv). cbn [bind].
  rewrite (mapM_ok _ (fun c' => conc (ridx (B c 1 1), B c' 0 0, (1 # Pos.of_nat (valence c))%Q))).
  2:{ intros c' Hc'. pose proof (rcls_valid I RI c c' Hp Hc') as Hp'. cbn [dcI C]. rewrite (rbas_get I RI) by auto. cbn [bind].
      rewrite rcorner_blk by (apply (rbas_like I RI); auto).
      change (rblk (rbas (fst c')) (snd c') 0 0) with (snd (B c' 0 0)). rewrite col_ok by (auto; apply (B_in I RI); auto). reflexivity. }
  cbn [bind]. rewrite (mapM_ok _ (fun sd => map conc (dart c (side_dir sd) 1))).
  - cbn [bind]. apply finish; auto.
    + unfold DpProofs.tri. rewrite Hi. reflexivity.
    + unfold vent. rewrite Hi. cbn [map]. f_equal. rewrite map_app, map_map. f_equal.
      unfold containing_sides. cbn [map concat]. rewrite !side_dir_cside by lia. rewrite !map_app, !app_nil_r. reflexivity.
  - intros sd Hsd. assert (exists d, d < 2 /\ sd = cside (snd c) d) as (d & Hd & ->).
    { unfold containing_sides in Hsd. destruct Hsd as [<-|[<-|[]]]; eauto. }
    rewrite side_dir_cside by auto. unfold dart.
    pose proof (inner_iface t Hcons c d Hv Hi) as Hif. apply (ifl_dnext DI) in Hif. destruct Hif as (c' & d' & En). rewrite En.
    destruct (dnext_model _ _ _ _ En) as (f & ps' & F1 & F2 & F3 & F4 & F5).
    destruct (dnext_np DI RI _ _ _ _ En) as [_ Hp']. pose proof (dnext_dir t _ _ _ En) as Hd'.
    unfold getNeighbour. rewrite F1, F2. cbn [bind]. rewrite F3. cbn [bind]. rewrite !difv_ok by (auto; lia). cbn [bind].
    rewrite F5, difv_ok by (auto; lia). cbn [bind].
    rewrite !col_ok by (rewrite ?F4; auto using fst_dpt; apply (dpt_in DI RI); auto). cbn [bind]. rewrite dpt11. reflexivity.
Qed.

Lemma lowest_in (l : list pcorner) (c : pcorner) r : l = c :: r -> exists lo, lowestCorner l = Ok lo /\ In lo l.
Proof.
  intros ->. unfold lowestCorner. eexists. split; [reflexivity|].
  assert (forall l (a : pcorner) q, In a q -> incl l q -> In (fold_left (fun lo c0 => if fst c0 <? fst lo then c0 else lo) l a) q) as K.
  { clear. induction l as [|b l IH]; simpl; intros a q Ha Hl; auto. apply IH; [|intros x Hx; apply Hl; right; auto].
    destruct (fst b <? fst a); auto. apply Hl. left; auto. }
  apply K; [left; auto|apply incl_refl].
Qed.

Lemma irregular_ok s l P (c : pcorner) : Inv s l -> vmarks (xs_vert s) P -> fst c < np -> tri c = true ->
  exists s', dIrregularBoundary C s c = Ok s' /\ Inv s' (l ++ tent c) /\ xs_side s' = xs_side s /\ vmarks (xs_vert s') (fun x => P x \/ In x (cls c)).
Proof.
  intros HI Hm Hp T. pose proof (proj2 (rvalidc c) Hp) as Hv. unfold dIrregularBoundary. change (dtopo C) with t.
  rewrite (cornerList_cls t Hcons c Hv). cbn [bind].
  assert (exists lo, lowestCorner (cls c) = Ok lo /\ In lo (cls c)) as (lo & Elo & Hlo).
  { pose proof (cls_self t Hcons c Hv) as G. destruct (cls c) as [|a r]; [contradiction|]. eapply lowest_in; eauto. }
  rewrite Elo. cbn [bind].
  assert (forall c', In c' (cls c) -> fst c' < np) as Cv by (intros c'; apply (rcls_valid I RI c); auto).
  pose proof (Cv lo Hlo) as Hplo. rewrite difv_ok by (auto; lia). cbn [bind]. rewrite dpt00.
  rewrite row_ok by (auto; apply (B_in I RI); auto). cbn [bind]. rewrite (tri_eq c lo) by auto.
  rewrite (mapM_ok _ (fun c' => (snd (B c' 0 0), snd (B c' 1 1), fst c'))).
  2:{ intros c' Hc'. pose proof (Cv c' Hc'). rewrite !difv_ok by (auto; lia). reflexivity. }
  cbn [bind].
  assert (forall c' d, In c' (cls c) -> d < 2 -> In (dpt c' d 1 0) D) as D10 by (intros; apply (dpt_in DI RI); auto).
  rewrite (mapM_ok _ (fun c' => map conc (concat (map (bside (ridx (B c 0 0)) c') [0; 1])))).
  2:{ intros c' Hc'. pose proof (Cv c' Hc') as Hp'. unfold dBoundarySides. change (dtopo C) with t.
      rewrite (mapM_ok _ (fun sd => map conc (bside (ridx (B c 0 0)) c' (side_dir sd)))).
      - cbn [bind]. unfold containing_sides. cbn [map]. rewrite !side_dir_cside by lia. f_equal. rewrite concat_map. reflexivity.
      - intros sd Hsd. assert (exists d, d < 2 /\ sd = cside (snd c') d) as (d & Hd & ->).
        { unfold containing_sides in Hsd. destruct Hsd as [<-|[<-|[]]]; eauto. }
        rewrite side_dir_cside by auto. unfold bside. destruct (dnext t (c', d)) as [[c2 d2]|] eqn:En.
        + destruct (dnext_model _ _ _ _ En) as (f & ps' & F1 & _). rewrite F1. reflexivity.
        + rewrite (dnext_none_model _ _ En). rewrite !difv_ok by (auto; lia). cbn [bind]. rewrite col_ok by (auto using fst_dpt). cbn [bind].
          rewrite row_ok by (auto using fst_dpt; apply (dpt_in DI RI); auto). reflexivity. }
  cbn [bind].
  assert (forall {A} (f : nat * nat * nat -> res A) g (q : list pcorner),
    (forall c', In c' q -> f (snd (B c' 0 0), snd (B c' 1 1), fst c') = Ok (g c')) ->
    mapM f (map (fun c' => (snd (B c' 0 0), snd (B c' 1 1), fst c')) q) = Ok (map g q)) as MM.
  { clear. induction q as [|a q IH]; intros H; [reflexivity|]. cbn [map mapM]. rewrite H by (left; auto). cbn [bind].
    rewrite IH by (intros; apply H; right; auto). reflexivity. }
  rewrite (MM _ _ (fun c' => cidx (B c' 0 0))).
  2:{ intros c' Hc'. pose proof (Cv c' Hc') as Hp'. cbn [fst snd]. change (snd (fst c', rblk (rbas (fst c')) (snd c') 0 0)) with (snd (B c' 0 0)).
      apply col_ok; auto. apply (B_in I RI); auto. }
  cbn [bind].
  rewrite (MM _ _ (fun c1 => map conc (self (B c1 1 1) :: map (fun c' => (ridx (B c1 1 1), B c' 0 0, quarter)) (cls c)))).
  2:{ intros c1 Hc1. pose proof (Cv c1 Hc1) as Hp'. cbn [fst snd].
      change (rblk (rbas (fst c1)) (snd c1) 1 1) with (snd (B c1 1 1)).
      rewrite row_ok by (auto; apply (B_in I RI); auto). cbn [bind]. rewrite col_ok by (auto; apply (B_in I RI); auto). cbn [bind map].
      rewrite !map_map. reflexivity. }
  cbn [bind]. fold (ifaces (cls c)).
  rewrite (mapM_ok _ (fun f => map conc (ient (cls c) f))).
  2:{ intros f Hf. apply ifaces_in in Hf. destruct Hf as (c2 & d2 & _ & _ & Hf). apply getInterface_some in Hf. destruct Hf as [Hf _].
      unfold dVertexInterface. rewrite (mapM_ok _ (fun k => map conc
        (if existsb (pc_eqb (fst (if1 f), k)) (cls c) then quad (fst (if1 f), k) (side_dir (snd (if1 f))) else []))).
      - cbn [bind]. unfold ient. rewrite concat_map, map_map. reflexivity.
      - intros k Hk. apply contained_corners_on in Hk. destruct (existsb _ (cls c)) eqn:Ek; [|reflexivity].
        apply existsb_pc in Ek. pose proof (Cv _ Ek) as Hp1. set (c1 := (fst (if1 f), k)) in *.
        assert ((fst c1, cside (snd c1) (side_dir (snd (if1 f)))) = if1 f) as E1.
        { simpl. rewrite cside_of_on by exact Hk. destruct (if1 f); reflexivity. }
        pose proof (side_dir_lt (snd (if1 f))) as Hd1.
        destruct (iface_dnext f c1 _ Hf E1 Hd1) as (c' & En & Em & Ef & Es). pose proof (side_dir_lt (snd (if2 f))) as Hd2.
        assert (fst c' < np) as Hp2 by (apply (dnext_np DI RI) in En; tauto).
        rewrite Em. cbn [bind]. cbn [mapM fst snd].
        assert (snd (if1 f) = cside (snd c1) (side_dir (snd (if1 f)))) as Es1 by (simpl; rewrite cside_of_on by exact Hk; reflexivity).
        rewrite Es1 at 1. rewrite difv_ok by (auto; lia). cbn [bind].
        change (fst (if1 f)) with (fst c1). rewrite row_ok by (auto using fst_dpt; apply (dpt_in DI RI); auto). cbn [bind].
        rewrite <- Es at 1. rewrite difv_ok by (auto; lia). cbn [bind]. rewrite row_ok by (auto using fst_dpt; apply (dpt_in DI RI); auto). cbn [bind].
        rewrite Es1 at 1. rewrite difv_ok by (auto; lia). cbn [bind].
        rewrite col_ok by (auto using fst_dpt; apply (dpt_in DI RI); auto). cbn [bind].
        rewrite <- Es at 1. rewrite difv_ok by (auto; lia). cbn [bind]. rewrite col_ok by (auto using fst_dpt; apply (dpt_in DI RI); auto). cbn [bind].
        unfold quad. rewrite En. reflexivity. }
  cbn [bind].
  match goal with |- context [dpush C ?X s] => assert (X = map conc (tent c)) as -> end.
  { unfold tent. rewrite !map_app, !concat_map, !map_map. reflexivity. }
  destruct (push_ok s l (tent c) HI) as (s1 & E1 & E2 & E3 & HI1).
  { intros a Ha. apply (tent_good c); auto. }
  { apply tent_selfclosed; auto. }
  rewrite E1. cbn [bind]. rewrite <- E3 in Hm.
  destruct (setVerts_ok _ (cls c) s1 P HI1 Hm Cv) as (s2 & F1 & F2 & F3 & F4).
  exists s2. split; auto. split; auto. split; [congruence|exact F4].
Qed.

Definition cent (c : pcorner) : list aentry := if tri c then tent c else vent c.
Notation dtouched := (dtouched I).

Lemma vertex_ok s l P (c : pcorner) : Inv s l -> vmarks (xs_vert s) P -> fst c < np -> ~ P c ->
  exists s', dVertex C s c = Ok s' /\ Inv s' (l ++ cent c) /\ xs_side s' = xs_side s /\ vmarks (xs_vert s') (fun x => P x \/ In x (dtouched c)).
Proof.
  intros HI Hm Hp HP. unfold dVertex. rewrite (marks_false S0 _ _ _ _ _ Hm (np0 _ Hp) HP). cbn [bind]. change (dtopo C) with t.
  rewrite (rvertexData I RI c Hp). cbn [bind fst snd dcI C]. rewrite (rc0_vget I RI c Hp). cbn [bind].
  unfold cent, DpProofs.dtouched. destruct (tri c) eqn:T.
  - destruct (tri3 DI RI Hsup c Hp T) as [Ev Ei]. rewrite Ei, Ev. cbn [negb Nat.eqb Nat.ltb Nat.leb andb].
    destruct (irregular_ok s l P c HI Hm Hp T) as (s' & G). exists s'. destruct (rc0 c); cbn [negb]; exact G.
  - destruct (nontri c Hp T) as [Hi|[Hi [E1|E2]]]; rewrite Hi; cbn [negb].
    + apply interiorVertex_ok; auto.
    + rewrite E1. cbn [Nat.eqb]. apply regularCorner_ok; auto.
    + rewrite E2. cbn [Nat.eqb andb]. pose proof (regularBoundary_ok s l P c HI Hm Hp Hi E2) as K. unfold vks in K.
      destruct (rc0 c); cbn [negb]; exact K.
Qed.

(** ** interfaces *)
Fixpoint sents (p p' : nat) (ix ox ixn : list nat) : list aentry :=
  match ix, ox, ixn with
  | i :: ix', o :: ox', j :: ixn' => self (p, o) :: (ridx (p, o), (p, i), half) :: (ridx (p, o), (p', j), half) :: sents p p' ix' ox' ixn'
  | _, _, _ => []
  end.
Lemma sents_in p p' : forall ix ox ixn a, In a (sents p p' ix ox ixn) <->
  exists k i o j, nth_error ix k = Some i /\ nth_error ox k = Some o /\ nth_error ixn k = Some j /\
    In a [self (p, o); (ridx (p, o), (p, i), half); (ridx (p, o), (p', j), half)].
Proof.
  induction ix as [|i ix IH]; intros [|o ox] [|j ixn] a; cbn [sents];
    try (split; [intros []|intros ([|k] & i' & o' & j' & H1 & H2 & H3 & _); discriminate]).
  change (In a ([self (p, o); (ridx (p, o), (p, i), half); (ridx (p, o), (p', j), half)] ++ sents p p' ix ox ixn) <-> exists k i0 o0 j0,
    nth_error (i :: ix) k = Some i0 /\ nth_error (o :: ox) k = Some o0 /\ nth_error (j :: ixn) k = Some j0 /\
    In a [self (p, o0); (ridx (p, o0), (p, i0), half); (ridx (p, o0), (p', j0), half)]).
  rewrite in_app_iff, IH. split.
  - intros [H|(k & i' & o' & j' & H)]; [exists 0, i, o, j; auto|exists (S k), i', o', j'; auto].
  - intros ([|k] & i' & o' & j' & H1 & H2 & H3 & H).
    + left. injection H1 as ->. injection H2 as ->. injection H3 as ->. exact H.
    + right. exists k, i', o', j'. auto.
Qed.

Lemma dEntries_ok p p' : forall ix ox ixn, length ox = length ix -> length ixn = length ix ->
  (forall x, In x ix -> In (p, x) D) -> (forall x, In x ox -> In (p, x) D /\ cmval m (p, x) = 0%Z) -> (forall x, In x ixn -> In (p', x) D) ->
  dEntries C p p' ix ox ixn = Ok (map conc (sents p p' ix ox ixn)).
Proof.
  induction ix as [|i ix IH]; intros [|o ox] [|j ixn] L1 L2 H1 H2 H3; try discriminate; [reflexivity|]. cbn [dEntries sents map].
  destruct (H2 o) as [Ho Zo]; [left; auto|].
  assert (cis_free (dcMod C) o p = true) as -> by (unfold cis_free; cbn [dcMod C]; rewrite Zo; reflexivity). cbn [ensure bind].
  rewrite row_pi by auto. cbn [bind].
  change (cis_free (dorig C) o p) with true. cbn [ensure bind].
  rewrite col_pi by auto. cbn [bind]. rewrite col_pi by (auto; apply H1; left; auto). cbn [bind].
  rewrite col_pi by (auto; apply H3; left; auto). cbn [bind].
  rewrite IH; [reflexivity|auto|auto|intros; apply H1; right; auto|intros; apply H2; right; auto|intros; apply H3; right; auto].
Qed.

Definition fent (f : iface) : list aentry :=
  sents (fst (if1 f)) (fst (if2 f)) (rem1 f 0) (rem1 f 1) (rem2 f 0) ++ sents (fst (if2 f)) (fst (if1 f)) (rem2 f 0) (rem2 f 1) (rem1 f 0).

Lemma fent_in f r y w : In f (tif t) -> In (r, y, w) (fent f) <->
  exists i a1 b1 a2 b2, nth_error (rem1 f 0) i = Some a1 /\ nth_error (rem1 f 1) i = Some b1 /\ nth_error (rem2 f 0) i = Some a2 /\ nth_error (rem2 f 1) i = Some b2 /\
    ((r = ridx (fst (if1 f), b1) /\ (y = (fst (if1 f), b1) /\ w = 1%Q \/ (y = (fst (if1 f), a1) \/ y = (fst (if2 f), a2)) /\ w = half)) \/
     (r = ridx (fst (if2 f), b2) /\ (y = (fst (if2 f), b2) /\ w = 1%Q \/ (y = (fst (if1 f), a1) \/ y = (fst (if2 f), a2)) /\ w = half))).
Proof.
  intros Hf. destruct (rem_length DI RI RM f Hf) as (L1 & L2 & L3). unfold fent. rewrite in_app_iff, !sents_in. split.
  - intros [(i & a1 & b1 & a2 & N1 & N2 & N3 & Ha)|(i & a2 & b2 & a1 & N3 & N4 & N1 & Ha)].
    + destruct (nth_error (rem2 f 1) i) as [b2|] eqn:N4.
      2:{ exfalso. apply nth_error_None in N4. assert (i < length (rem1 f 0)) by (apply nth_error_Some; congruence). lia. }
      exists i, a1, b1, a2, b2. split; [auto|]. split; [auto|]. split; [auto|]. split; [auto|]. left.
      destruct Ha as [[= <- <- <-]|[[= <- <- <-]|[[= <- <- <-]|[]]]]; auto.
    + destruct (nth_error (rem1 f 1) i) as [b1|] eqn:N2.
      2:{ exfalso. apply nth_error_None in N2. assert (i < length (rem1 f 0)) by (apply nth_error_Some; congruence). lia. }
      exists i, a1, b1, a2, b2. split; [auto|]. split; [auto|]. split; [auto|]. split; [auto|]. right.
      destruct Ha as [[= <- <- <-]|[[= <- <- <-]|[[= <- <- <-]|[]]]]; auto.
  - intros (i & a1 & b1 & a2 & b2 & N1 & N2 & N3 & N4 & [[-> H]|[-> H]]); [left; exists i, a1, b1, a2|right; exists i, a2, b2, a1];
      (repeat (split; [assumption|])); destruct H as [[-> ->]|[[->| ->] ->]]; simpl; auto.
Qed.

Lemma strip_D f a1 a2 : In f (tif t) -> (In a1 (rem1 f 0) -> In (fst (if1 f), a1) D) /\ (In a2 (rem2 f 0) -> In (fst (if2 f), a2) D).
Proof.
  intros Hf. destruct (iface_np DI RI f Hf) as [Q1 Q2]. split; intros H.
  - apply (strip_in I RI (if1 f)); auto. apply in_map_iff. exists a1. split; auto. apply (rem1_0 DI RI RM); auto.
  - apply (strip_in I RI (if2 f)); auto. apply in_map_iff. exists a2. split; auto. apply (rem2_0 DI RI RM); auto.
Qed.

Lemma fent_good f a : In f (tif t) -> In a (fent f) -> good a.
Proof.
  intros Hf Ha. destruct a as [[r y] w]. apply fent_in in Ha; auto.
  destruct Ha as (i & a1 & b1 & a2 & b2 & N1 & N2 & N3 & N4 & Ha).
  pose proof (nth_error_In _ _ N1) as I1. pose proof (nth_error_In _ _ N2) as I2. pose proof (nth_error_In _ _ N3) as I3. pose proof (nth_error_In _ _ N4) as I4.
  destruct (rem1_1 DI RI RM m V f b1 Hf I2) as [A1 A2], (rem2_1 DI RI RM m V f b2 Hf I4) as [A3 A4].
  destruct (strip_D f a1 a2 Hf) as [S1 S2].
  assert (y = (fst (if1 f), a1) \/ y = (fst (if2 f), a2) -> In y D) as Dy by (intros [->| ->]; auto).
  destruct Ha as [[-> [[-> ->]|[Hy ->]]]|[-> [[-> ->]|[Hy ->]]]]; try (apply good_self; auto; fail).
  - split; auto. eexists. split; [eapply (k_strip DI m f i); eauto|left; reflexivity].
  - split; auto. eexists. split; [eapply (k_strip DI m f i); eauto|right; left; reflexivity].
Qed.
Lemma fent_selfclosed f : In f (tif t) -> selfclosed (fent f).
Proof.
  intros Hf. apply selfclosed_of. intros r y w Ha. apply fent_in in Ha; auto.
  destruct Ha as (i & a1 & b1 & a2 & b2 & N1 & N2 & N3 & N4 & Ha).
  destruct (rem1_1 DI RI RM m V f b1 Hf (nth_error_In _ _ N2)) as [A1 A2], (rem2_1 DI RI RM m V f b2 Hf (nth_error_In _ _ N4)) as [A3 A4].
  destruct Ha as [[-> _]|[-> _]]; [exists (fst (if1 f), b1)|exists (fst (if2 f), b2)]; (split; [auto|]); (split; [auto|]); right; (split; [auto|]);
    apply fent_in; auto; exists i, a1, b1, a2, b2; auto 10.
Qed.

Lemma interface_ok s l P f : Inv s l -> smarks (xs_side s) P -> In f (tif t) -> ~ P (if1 f) -> ~ P (if2 f) ->
  exists s', dInterface C s f = Ok s' /\ Inv s' (l ++ fent f) /\ xs_vert s' = xs_vert s /\ smarks (xs_side s') (fun c => c = if2 f \/ c = if1 f \/ P c).
Proof.
  intros HI Hm Hf HP1 HP2. destruct (iface_np DI RI f Hf) as [Q1 Q2]. destruct (rem_length DI RI RM f Hf) as (L1 & L2 & L3).
  unfold dInterface. rewrite (marks_false S0 _ _ _ _ _ Hm (np0 _ Q1) HP1), (marks_false S0 _ _ _ _ _ Hm (np0 _ Q2) HP2). cbn [bind orb dcI C].
  rewrite !(rbas_get I RI) by auto. cbn [bind].
  destruct (RM f 0 Hf ltac:(lia)) as (l10 & l20 & E0 & _). destruct (RM f 1 Hf ltac:(lia)) as (l11 & l21 & E1 & _).
  rewrite E0, E1. cbn [bind fst snd].
  assert (without l10 (dnear (rbas (fst (if1 f))) (snd (if1 f)) 0) = rem1 f 0) as -> by (unfold DpProofs2.rem1; rewrite E0; reflexivity).
  assert (without l11 (dnear (rbas (fst (if1 f))) (snd (if1 f)) 1) = rem1 f 1) as -> by (unfold DpProofs2.rem1; rewrite E1; reflexivity).
  assert (without l20 (dnear (rbas (fst (if2 f))) (snd (if2 f)) 0) = rem2 f 0) as -> by (unfold DpProofs2.rem2; rewrite E0; reflexivity).
  assert (without l21 (dnear (rbas (fst (if2 f))) (snd (if2 f)) 1) = rem2 f 1) as -> by (unfold DpProofs2.rem2; rewrite E1; reflexivity).
  rewrite (proj2 (Nat.eqb_eq _ _) L1). cbn [ensure bind]. rewrite (proj2 (Nat.eqb_eq (length (rem1 f 1)) (length (rem2 f 1)))) by lia. cbn [ensure bind].
  rewrite dEntries_ok; try lia.
  2:{ intros x Hx. apply (strip_D f x 0 Hf); auto. } 2:{ intros x Hx. apply (rem1_1 DI RI RM m V); auto. } 2:{ intros x Hx. apply (strip_D f 0 x Hf); auto. }
  cbn [bind]. rewrite dEntries_ok; try lia.
  2:{ intros x Hx. apply (strip_D f 0 x Hf); auto. } 2:{ intros x Hx. apply (rem2_1 DI RI RM m V); auto. } 2:{ intros x Hx. apply (strip_D f x 0 Hf); auto. }
  cbn [bind]. rewrite <- map_app. fold (fent f).
  destruct (push_ok s l (fent f) HI) as (s1 & F1 & F2 & F3 & HI1).
  { intros a Ha. apply (fent_good f); auto. } { apply fent_selfclosed; auto. }
  rewrite F1. cbn [bind]. rewrite <- F2 in Hm.
  destruct (setSide_ok s1 _ P (if1 f) HI1 Hm Q1) as (s2 & G1 & G2 & G3 & G4). rewrite G1. cbn [bind].
  destruct (setSide_ok s2 _ _ (if2 f) G2 G4 Q2) as (s3 & H1 & H2 & H3 & H4).
  exists s3. split; auto. split; auto. split; [congruence|exact H4].
Qed.

(** ** boundaries *)
Definition bent (ps : pside) : list aentry := map self (strip ps).

Lemma bstrip_value ps x : In ps (tbd t) -> In x (strip ps) -> In x D /\ cmval m x = 0%Z.
Proof.
  intros Hps Hx. assert (fst ps < np) as Q by (rewrite <- Hnp; apply (sides_valid t Hcons); auto).
  pose proof (strip_in I RI ps x Q Hx) as Dx. split; auto. apply (va_other I m V).
  - intros (c & a & e & Hc & Ha & He & ->). apply in_all_corners in Hc. apply (strip_B I RI ps c a e); auto.
  - intros ps' Hps' G. apply (strip_disjoint I RI ps ps' x); auto. intros ->. apply (iface_not_bd t Hcons ps'); auto.
Qed.

Lemma boundary_ok s l P ps : Inv s l -> smarks (xs_side s) P -> In ps (tbd t) ->
  exists s', dBoundary C s ps = Ok s' /\ Inv s' (l ++ bent ps) /\ xs_vert s' = xs_vert s /\ smarks (xs_side s') (fun c => c = ps \/ P c).
Proof.
  intros HI Hm Hps. assert (fst ps < np) as Q by (rewrite <- Hnp; apply (sides_valid t Hcons); auto).
  unfold dBoundary. cbn [dcI C]. rewrite (rbas_get I RI) by auto. cbn [bind].
  change (without (roff (rbas (fst ps)) (snd ps) 0) (dnear (rbas (fst ps)) (snd ps) 0)) with (rstrip (rbas (fst ps)) (snd ps)).
  rewrite (mapM_ok _ (fun i => conc (self (fst ps, i)))).
  2:{ intros i Hi. assert (In (fst ps, i) D) as Hx by (apply (bstrip_value ps); auto; apply in_map_iff; eauto).
      rewrite row_pi by auto. cbn [bind]. rewrite col_pi by auto. reflexivity. }
  cbn [bind].
  assert (map (fun i => conc (self (fst ps, i))) (rstrip (rbas (fst ps)) (snd ps)) = map conc (bent ps)) as ->.
  { unfold bent, RingProofs2.strip. rewrite !map_map. reflexivity. }
  destruct (push_ok s l (bent ps) HI) as (s1 & E1 & E2 & E3 & HI1).
  { intros a Ha. apply in_map_iff in Ha. destruct Ha as (x & <- & Hx). apply good_self; apply (bstrip_value ps); auto. }
  { apply selfclosed_of. intros r y w Ha. pose proof Ha as Ha'. apply in_map_iff in Ha. destruct Ha as (x & [= <- <- <-] & Hx).
    exists x. destruct (bstrip_value ps x Hps Hx). auto. }
  rewrite E1. cbn [bind]. rewrite <- E2 in Hm.
  destruct (setSide_ok s1 _ P ps HI1 Hm Q) as (s2 & F1 & F2 & F3 & F4).
  exists s2. split; auto. split; auto. split; [congruence|exact F4].
Qed.

(** ** interior loop *)
Lemma interior_ok s l : Inv s l -> (forall x, In x D -> (0 < cmval m x)%Z -> exists y w, In (ridx x, y, w) l) ->
  exists s' l', dInterior C s = Ok s' /\ Inv s' (l ++ l') /\ xs_side s' = xs_side s /\ xs_vert s' = xs_vert s /\
    (forall x, In x D -> cmval m x = 0%Z -> In (self x) (l ++ l')).
Proof.
  intros HI0 Hgr. unfold dInterior. change (cdofs (dorig C)) with D.
  destruct (foldM_inv (fun pre s' => exists l', Inv s' (l ++ l') /\ xs_side s' = xs_side s /\ xs_vert s' = xs_vert s /\
     (forall x, In x pre -> cmval m x = 0%Z -> In (self x) (l ++ l')))
     (fun s (x : dof) => let '(p, b) := x in
        do r <- drow C b p;
        if negb (cis_free (dcMod C) b p) then Ok s else
        do chk <- vget (xs_basis s) r;
        if (chk : bool) then Ok s else
        do c <- dcol C b p; dpush C [(r, c, 1%Q)] s) D s) as (s' & E & l' & HI & E1 & E2 & H).
  - exists []. rewrite app_nil_r. split; auto. split; auto. split; auto. intros x [].
  - intros pre [p b] post s1 Ey (l' & HI & E1 & E2 & Hx).
    assert (In (p, b) D) as Vx by (rewrite Ey; apply in_elt). set (x := (p, b)) in *.
    assert (forall l'' s2, (Inv s2 (l ++ l'') /\ xs_side s2 = xs_side s /\ xs_vert s2 = xs_vert s) ->
       (forall a, In a (l ++ l') -> In a (l ++ l'')) -> (cmval m x = 0%Z -> In (self x) (l ++ l'')) ->
       exists l', Inv s2 (l ++ l') /\ xs_side s2 = xs_side s /\ xs_vert s2 = xs_vert s /\
     (forall x0, In x0 (pre ++ [x]) -> cmval m x0 = 0%Z -> In (self x0) (l ++ l'))) as K.
    { intros l'' s2 (A1 & A2 & A3) Hsub Hself. exists l''. split; auto. split; auto. split; auto.
      intros x0 Hin Z0. apply in_app_iff in Hin. destruct Hin as [Hin|[<-|[]]]; auto. }
    rewrite row_pi by auto. cbn [bind]. unfold cis_free. cbn [dcMod C]. fold x.
    destruct (0 <=? cmval m x)%Z eqn:Hf; cbn [negb].
    2:{ exists s1. split; auto. apply (K l'); auto. lia. }
    pose proof HI as (I1 & I2 & I3 & I4 & I5).
    destruct (I5 (ridx x) (ridx_lt sizes m ES x Vx ltac:(lia))) as (bb & Eb & Hb). rewrite Eb. cbn [bind]. destruct bb.
    + exists s1. split; auto. apply (K l'); auto. intros Zx. destruct (proj1 Hb eq_refl) as (c & w & Hin). apply I1 in Hin.
      apply in_map_iff in Hin. destruct Hin as ([[r' y'] w'] & [= Er _ _] & Hin). eapply I3; eauto.
    + assert (cmval m x = 0%Z) as Zx.
      { destruct (Z.eq_dec (cmval m x) 0) as [|N]; auto. exfalso.
        destruct (Hgr x Vx ltac:(lia)) as (y & w & Hin). assert (false = true) as F; [|discriminate]. apply Hb. exists (cidx y), w. apply I1.
        apply (in_map conc _ (ridx x, y, w)). apply in_app_iff. auto. }
      rewrite col_pi by auto. cbn [bind]. destruct (push_ok s1 (l ++ l') [self x] HI) as (s2 & F1 & F2 & F3 & HI2).
      { intros a [<-|[]]. apply good_self; auto. }
      { apply selfclosed_of. intros r y w [[= <- <- <-]|[]]. exists x. split; auto. split; auto. right. split; auto. left; reflexivity. }
      cbn [map conc self] in F1. exists s2. split; [exact F1|]. apply (K (l' ++ [self x])).
      * rewrite app_assoc. split; auto. split; congruence.
      * intros a Ha. rewrite app_assoc. apply in_app_iff. auto.
      * intros _. rewrite app_assoc. apply in_app_iff. right; left; auto.
  - exists s', l'. split; auto.
Qed.

(** ** the whole matrix *)
Definition done (l : list aentry) (c : pcorner) : Prop :=
  exists c0, fst c0 < np /\ In c (dtouched c0) /\ incl (cent c0) l.

Lemma vent_dart (c : pcorner) d k (c' : pcorner) d' : fst c < np -> d < 2 -> dnext t (c, d) = Some (c', d') -> darted c k -> tri c = false ->
  In (ridx (dpt c d k 1), dpt c d k 0, half) (vent c) /\ In (ridx (dpt c d k 1), dpt c' d' k 0, half) (vent c).
Proof.
  intros Hc Hd Hn Hk T.
  assert (ifl c d = true) as Hf by (apply (ifl_dnext DI); eauto). pose proof (proj2 (rvalidc c) Hc) as Hv.
  unfold vent. destruct (nontri c Hc T) as [Hi|[Hi [E1|E2]]]; rewrite Hi.
  - destruct Hk as [->|(_ & Hi' & _)]; [|congruence].
    assert (In (ridx (dpt c d 1 1), dpt c d 1 0, half) (concat [dart c 0 1; dart c 1 1]) /\
            In (ridx (dpt c d 1 1), dpt c' d' 1 0, half) (concat [dart c 0 1; dart c 1 1])) as [D1 D2].
    { cbn [concat]. rewrite app_nil_r. unfold dart. split; apply in_app_iff; (destruct d as [|[|]]; [left|right|lia]); rewrite Hn; simpl; auto. }
    split; right; apply in_app_iff; right; auto.
  - rewrite (val1_boundary t Hcons c d) in Hf by auto. discriminate.
  - rewrite E2. cbn [Nat.eqb].
    assert (idir c = d) as ->.
    { pose proof (val2_boundary t Hcons c Hv Hi E2) as Bd. unfold idir. destruct d as [|[|]]; [rewrite Hf; auto| |lia].
      rewrite Hf in Bd. rewrite Bd. reflexivity. }
    assert (In k (vks c)) as Kk.
    { unfold vks. destruct Hk as [->|(-> & _ & _ & Hz)]; [destruct (rc0 c); simpl; auto|rewrite Hz; simpl; auto]. }
    split; apply in_concat; (eexists; split; [apply in_map; exact Kk|]); unfold dart; rewrite Hn; simpl; auto.
Qed.

Lemma done_tri l (c : pcorner) : fst c < np -> tri c = true -> done l c -> exists c0, fst c0 < np /\ tri c0 = true /\ In c (cls c0) /\ incl (tent c0) l.
Proof.
  intros Hc T (c0 & H0 & Hin & Hl). unfold DpProofs.dtouched, cent in *. destruct (tri c0) eqn:T0; [eauto 6|].
  destruct Hin as [<-|[]]. congruence.
Qed.
Lemma done_nontri l (c : pcorner) : fst c < np -> tri c = false -> done l c -> incl (vent c) l.
Proof.
  intros Hc T (c0 & H0 & Hin & Hl). unfold DpProofs.dtouched, cent in *. destruct (tri c0) eqn:T0.
  - exfalso. rewrite <- (tri_cls I RI c0 c) in T0 by auto. congruence.
  - destruct Hin as [<-|[]]. exact Hl.
Qed.

Lemma complete l : (forall c, fst c < np -> done l c) -> (forall f, In f (tif t) -> incl (fent f) l) ->
  (forall x, In x D -> cmval m x = 0%Z -> In (self x) l) ->
  forall y P r w, In y D -> kid y P -> In (r, w) P -> In (r, y, w) l.
Proof.
  intros Hdone Hif Hself y P r w Hy K Hin.
  destruct K as [y Hz|f i a1 b1 a2 b2 y Hf N1 N2 N3 N4 Hy'|c Hc Hi|c d k c' d' Hc Hd Hn Hk|c Hc T|c d Hc Hd T Hn].
  - destruct Hin as [[= <- <-]|[]]. apply Hself; auto.
  - apply (Hif f Hf), fent_in; auto. exists i, a1, b1, a2, b2. repeat (split; [assumption|]).
    destruct Hin as [[= <- <-]|[[= <- <-]|[]]]; auto.
  - apply in_map_iff in Hin. destruct Hin as (c' & [= <- <-] & Hc'). pose proof (proj2 (rvalidc c) Hc) as Hv.
    pose proof (rcls_valid I RI c c' Hc Hc') as Hp'.
    assert (inner c' = true) as Hi' by (rewrite (inner_cls t Hcons c c'); auto).
    assert (tri c' = false) as T' by (unfold DpProofs.tri; rewrite Hi'; reflexivity).
    apply (done_nontri l c' Hp' T' (Hdone c' Hp')). unfold vent. rewrite Hi'. right. apply in_app_iff. left.
    rewrite (valence_cls t Hcons c c') by auto. apply in_map_iff. exists c. split; auto. apply (in_cls_sym t Hcons); auto.
  - pose proof (dnext_dir t _ _ _ Hn) as Hd'. destruct (dnext_np DI RI _ _ _ _ Hn) as [_ Hp'].
    pose proof (dnext_in_cls DI RI c d c' d' Hd Hn) as Hcl. pose proof (dnext_sym t Hcons _ _ _ _ Hd Hn) as Hn'.
    destruct (tri c) eqn:T.
    + assert (k = 1) as ->.
      { destruct Hk as [?|(_ & _ & Ev & _)]; auto. exfalso. unfold DpProofs.tri in T. rewrite Ev, andb_false_r in T. discriminate. }
      destruct (done_tri l c Hc T (Hdone c Hc)) as (c0 & H0 & T0 & Hc0 & Hl). apply Hl, tent_in; auto. right; right; right.
      exists c, d, c', d'. rewrite !dpt11 in Hin. destruct Hin as [[= <- <-]|[[= <- <-]|[]]]; auto 10.
    + assert (tri c' = false) as T' by (rewrite (tri_cls I RI c c'); auto).
      destruct Hin as [[= <- <-]|[[= <- <-]|[]]].
      * apply (done_nontri l c Hc T (Hdone c Hc)). apply (vent_dart c d k c' d'); auto.
      * apply (done_nontri l c' Hp' T' (Hdone c' Hp')). apply (vent_dart c' d' k c d); auto. apply (darted_cls DI RI c); auto.
  - destruct (done_tri l c Hc T (Hdone c Hc)) as (c0 & H0 & T0 & Hc0 & Hl). apply Hl, tent_in; auto.
    pose proof (proj2 (rvalidc c0) H0) as Hv0.
    destruct Hin as [[= <- <-]|Hin].
    + right; left. exists c. split; auto. split; auto. apply tri_eq; auto.
    + apply in_map_iff in Hin. destruct Hin as (c' & [= <- <-] & Hc'). right; right; left. exists c'.
      split; [eapply Permutation_in; [symmetry; apply (cls_perm t Hcons c0 c); auto|exact Hc']|]. split; auto. right. eauto.
  - destruct (done_tri l c Hc T (Hdone c Hc)) as (c0 & H0 & T0 & Hc0 & Hl). apply Hl, tent_in; auto. left. exists c, d.
    rewrite <- (tri_eq c0 c) by auto. destruct Hin as [[= <- <-]|[[= <- <-]|[]]]; auto 10.
Qed.

Lemma loops_ok : exists s l, dLoops C = Ok s /\ Inv s l /\
   smarks (xs_side s) (fun _ => True) /\ vmarks (xs_vert s) (fun _ => True) /\
   (forall y P r w, In y D -> kid y P -> In (r, w) P -> In (r, y, w) l) /\
   (forall x, In x D -> cmval m x = 0%Z -> In (self x) l).
Proof.
  unfold dLoops. change (dtopo C) with t. cbn [dcI C dcRows].
  set (s0 := mkXS (repeat false (2 * length (tif t) + length (tbd t))) (repeat false (4 * np)) (repeat false (cfreeSize m)) []).
  assert (Inv s0 []) as HI0.
  { split; [|split; [|split; [|split]]].
    - intros e. reflexivity.
    - intros a [].
    - intros r y w x [].
    - apply repeat_length.
    - intros r Hr. exists false. split; [apply vget_repeat; exact Hr|]. split; [discriminate|]. intros (c & w & []). }
  destruct (foldM_inv (fun pre s => exists l L, Inv s l /\ xs_side s = xs_side s0 /\ vmarks (xs_vert s) (fun c => In c L) /\ incl pre L /\
      (forall c, In c L -> done l c)) (dVertex C) (all_corners np) s0)
    as (s1 & E1 & l1 & L & HI1 & S1 & M1 & P1 & V1).
  { exists [], []. split; auto. split; auto. split; [|split; [intros c []|intros c []]].
    pose proof (vmarks_init S0) as M. unfold nVerts in M. rewrite shadow_np in M. exact M. }
  { intros pre pc post s E (l & L & HI & HS & HM & HP & HV).
    assert (fst pc < np) as Hp by (apply in_all_corners; rewrite E; apply in_elt).
    destruct (proj2 HM pc (np0 _ Hp)) as (b & Eb & Hb). destruct b.
    - exists s. split; [unfold dVertex; rewrite Eb; reflexivity|]. exists l, L. split; auto. split; auto. split; auto. split; auto.
      intros x Hx. apply in_app_iff in Hx. destruct Hx as [Hx|[<-|[]]]; auto. apply Hb. reflexivity.
    - assert (~ In pc L) as Hn by (intros G; apply Hb in G; discriminate).
      destruct (vertex_ok s l _ pc HI HM Hp Hn) as (s' & E' & HI' & HS' & HM').
      exists s'. split; auto. exists (l ++ cent pc), (L ++ dtouched pc). split; auto. split; [congruence|]. split; [|split].
      + revert HM'. apply marks_ext. intros a _. rewrite in_app_iff. tauto.
      + intros x Hx. apply in_app_iff. apply in_app_iff in Hx. destruct Hx as [Hx|[<-|[]]]; auto. right. unfold DpProofs.dtouched.
        destruct (tri pc); [|left; auto]. apply (cls_self t Hcons), rvalidc; auto.
      + intros c Hc. apply in_app_iff in Hc. destruct Hc as [Hc|Hc].
        * destruct (HV c Hc) as (c0 & A1 & A2 & A3). exists c0. split; auto. split; auto. intros a Ha. apply in_app_iff. auto.
        * exists pc. split; auto. split; auto. intros a Ha. apply in_app_iff. auto. }
  rewrite E1. cbn [bind].
  destruct (foldM_inv (fun pre s => exists l, Inv s l /\ xs_vert s = xs_vert s1 /\ smarks (xs_side s) (fun c => In c (isides pre)) /\
      incl l1 l /\ (forall f, In f pre -> incl (fent f) l)) (dInterface C) (tif t) s1)
    as (s2 & E2 & l2 & HI2 & S2 & M2 & L2 & V2).
  { exists l1. split; auto. split; auto. split; [rewrite S1; exact (smarks_init S0 W0)|]. split; [apply incl_refl|]. intros f []. }
  { intros pre f post s E (l & HI & HS & HM & HL & HV).
    assert (In f (tif t)) as Hf by (rewrite E; apply in_elt).
    destruct (isides_nodup S0 W0 pre f post E) as (N1 & N2 & N3).
    destruct (interface_ok s l _ f HI HM Hf N1 N2) as (s' & E' & HI' & HS' & HM').
    exists s'. split; auto. exists (l ++ fent f). split; auto. split; [congruence|]. split; [|split].
    - revert HM'. apply marks_ext. intros a _. unfold isides. rewrite flat_map_app, in_app_iff. simpl. intuition.
    - intros a Ha. apply in_app_iff. auto.
    - intros g Hg a Ha. apply in_app_iff. apply in_app_iff in Hg. destruct Hg as [Hg|[<-|[]]]; [left; apply (HV g); auto|auto]. }
  rewrite E2. cbn [bind].
  destruct (foldM_inv (fun pre s => exists l, Inv s l /\ xs_vert s = xs_vert s1 /\
      smarks (xs_side s) (fun c => In c (iface_sides t) \/ In c pre) /\ incl l2 l) (dBoundary C) (tbd t) s2)
    as (s3 & E3 & l3 & HI3 & S3 & M3 & L3).
  { exists l2. split; auto. split; auto. split; [|apply incl_refl]. revert M2. apply marks_ext. intros a _. simpl. unfold isides, iface_sides. tauto. }
  { intros pre ps post s E (l & HI & HS & HM & HL).
    destruct (boundary_ok s l _ ps HI HM) as (s' & E' & HI' & HS' & HM'). { rewrite E; apply in_elt. }
    exists s'. split; auto. exists (l ++ bent ps). split; auto. split; [congruence|]. split.
    - revert HM'. apply marks_ext. intros a _. rewrite in_app_iff. simpl. intuition.
    - intros a Ha. apply in_app_iff. auto. }
  rewrite E3. cbn [bind].
  assert (forall c, fst c < np -> done l3 c) as Hdone.
  { intros c Hc. destruct (V1 c) as (c0 & A1 & A2 & A3); [apply P1, in_all_corners; auto|]. exists c0. split; auto. split; auto.
    intros a Ha. auto. }
  destruct (interior_ok s3 l3 HI3) as (s4 & l4 & E4 & HI4 & S4 & V4 & H4).
  { intros x Hx Px.
    assert (exists c, fst c < np /\ tri c = true /\ x = B c 0 0) as (c & Hc & T & ->).
    { destruct (kid_total DI RI RM m V Hsup x Hx) as (P & K). destruct K as [y Hz|f i a1 b1 a2 b2 y Hf N1 N2 N3 N4 Hy'|c Hc Hi|c d k c' d' Hc Hd Hn Hk|c Hc T|c d Hc Hd T Hn].
      - lia.
      - destruct (strip_value DI RI RM f i a1 a2 y Hf N1 N3 Hy') as (ps & Hps & Hin & _). pose proof (va_strip I m V ps y Hps Hin). lia.
      - pose proof (value_inner DI RI m V c Hc Hi). lia.
      - assert (ifl c d = true) as F by (apply (ifl_dnext DI); eauto). pose proof (value_dart0 DI RI m V c d k Hc Hd F Hk). lia.
      - eauto.
      - pose proof (value_trib DI RI m V c d Hc Hd T). lia. }
    destruct (done_tri l3 c Hc T (Hdone c Hc)) as (c0 & H0 & T0 & Hc0 & Hl). exists (B c 0 0), quarter. apply Hl, tent_in; auto.
    right; left. exists c. split; auto. split; auto. apply tri_eq; auto. }
  exists s4, (l3 ++ l4). split; auto. split; auto. split; [|split; [|split]]; auto.
  - rewrite S4. revert M3. apply marks_ext. intros a Ha. rewrite shadow_np in Ha. rewrite <- Hnp in Ha. apply (sides_valid t Hcons) in Ha. tauto.
  - rewrite V4, S3. revert M1. apply marks_ext. intros a Ha. rewrite shadow_np in Ha. split; auto. intros _. apply P1, in_all_corners, Ha.
  - apply complete; auto.
    + intros c Hc. destruct (Hdone c Hc) as (c0 & A1 & A2 & A3). exists c0. split; auto. split; auto. intros a Ha. apply in_app_iff. auto.
    + intros f Hf a Ha. apply in_app_iff. left. apply L3. apply (V2 f Hf a Ha).
Qed.

Lemma matrix_ok : exists s, dLoops C = Ok s /\ performChecks s = Ok tt /\
  (forall y P r w, In y D -> kid y P -> In (r, w) P -> mget (xs_mat s) r (cidx y) = w) /\
  (forall y P r, In y D -> kid y P -> (forall w, ~ In (r, w) P) -> mget (xs_mat s) r (cidx y) = 0%Q).
Proof.
  destruct loops_ok as (s & l & E & (I1 & I2 & I3 & I4 & I5) & MS & MV & Hc & Hself).
  exists s. split; auto. split.
  { unfold performChecks. destruct MS as [LS MS]. destruct MV as [LV MV].
    rewrite !forallb_vget; [reflexivity| | |].
    - intros r Hr. rewrite I4 in Hr. destruct (I5 r Hr) as (b & Hb & Hb'). rewrite Hb. f_equal. apply Hb'.
      destruct (ridx_onto sizes m ES r Hr) as (x & Vx & Fx & <-).
      destruct (kid_total DI RI RM m V Hsup x Vx) as (P & K).
      assert (exists w, In (ridx x, w) P) as (w & Hw).
      { destruct (Z.eq_dec (cmval m x) 0) as [Zx|Zx].
        - assert (P = [(ridx x, 1%Q)]) as -> by (eapply (kid_fun DI RI RM m V); [exact K|apply k_own; auto]). exists 1%Q. left; auto.
        - destruct K as [y Hz|f i a1 b1 a2 b2 y Hf N1 N2 N3 N4 Hy'|c Hc' Hi|c d k c' d' Hc' Hd Hn Hk|c Hc' T|c d Hc' Hd T Hn].
          + lia.
          + destruct (strip_value DI RI RM f i a1 a2 y Hf N1 N3 Hy') as (ps & Hps & Hin & _). pose proof (va_strip I m V ps y Hps Hin). lia.
          + pose proof (value_inner DI RI m V c Hc' Hi). lia.
          + assert (ifl c d = true) as F by (apply (ifl_dnext DI); eauto). pose proof (value_dart0 DI RI m V c d k Hc' Hd F Hk). lia.
          + exists quarter. left; auto.
          + pose proof (value_trib DI RI m V c d Hc' Hd T). lia. }
      exists (cidx x), w. apply I1. apply (in_map conc _ (ridx x, x, w)). eauto.
    - intros i Hi. rewrite LV, shadow_np in Hi. destruct (vertIndex_onto np i Hi) as (pc & Hp & <-).
      destruct (MV pc (np0 _ Hp)) as (b & Hb & Hb'). rewrite Hb. f_equal. apply Hb'. exact Logic.I.
    - intros i Hi. rewrite LS, shadow_np in Hi. destruct (sideIndex_onto np i Hi) as (pc & Hp & <-).
      destruct (MS pc (np0 _ Hp)) as (b & Hb & Hb'). rewrite Hb. f_equal. apply Hb'. exact Logic.I. }
  assert (forall y P r w, In y D -> kid y P -> In (r, cidx y, w) (xs_mat s) -> In (r, w) P) as K.
  { intros y P r w Hy Ky Hin. apply I1 in Hin. apply in_map_iff in Hin. destruct Hin as ([[r' y'] w'] & [= Er Ec Ew] & Hin).
    destruct (I2 _ Hin) as (A1 & P' & A2 & A3). apply cidx_inj in Ec; auto. subst.
    rewrite (kid_fun DI RI RM m V y P P'); auto. }
  split.
  - intros y P r w Hy Ky Hin. apply mget_in.
    + apply I1. apply (in_map conc _ (r, y, w)). eauto.
    + intros w' Hin'. apply (nodup_fst_fun P r); auto; [apply (kid_nodup DI RI RM m V y P); auto|eauto].
  - intros y P r Hy Ky Hn. apply mget_notin. intros w Hin. apply (Hn w). eauto.
Qed.
End H.
