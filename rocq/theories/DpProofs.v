(** Numbering of a finalized mapper and the values of the mapper of gsDPatch. *)
From Verif Require Import Common TopoModel BaseModel BaseModel2 IndexSpec TopoSpec SmoothSpec SmoothSpec2 RingModel RingSpec DpModel
  IndexProofs IndexTopoProofs ListLemmas TopoProofs PointProofs MapperProofs CountProofs MatrixProofs RingProofs RingProofs2 RingProofs3.
From Coq Require Import ZifyBool.

Lemma posZ_nth z l : In z l -> nth_error l (posZ z l) = Some z.
Proof.
  induction l as [|a l IH]; intros H; [contradiction|]. simpl. destruct (z =? a)%Z eqn:E.
  - apply Z.eqb_eq in E. subst. reflexivity.
  - simpl. apply IH. destruct H as [->|H]; auto. rewrite Z.eqb_refl in E. discriminate.
Qed.
Lemma posZ_lt z l : In z l -> posZ z l < length l.
Proof. intros H. apply nth_error_Some. rewrite (posZ_nth z l H). discriminate. Qed.
Lemma posZ_inj x y l : In x l -> In y l -> posZ x l = posZ y l -> x = y.
Proof. intros Hx Hy E. apply posZ_nth in Hx, Hy. congruence. Qed.
Lemma posZ_onto r l : r < length l -> NoDup l -> exists x, In x l /\ posZ x l = r.
Proof.
  revert r. induction l as [|a l IH]; intros r H Hnd; simpl in H; [lia|].
  apply NoDup_cons_iff in Hnd. destruct Hnd as [Ha Hnd]. destruct r as [|r].
  - exists a. split; [left; auto|]. simpl. rewrite Z.eqb_refl. reflexivity.
  - destruct (IH r) as (x & Hx & E); try lia; auto. exists x. split; [right; auto|]. simpl.
    destruct (x =? a)%Z eqn:F; [|congruence]. apply Z.eqb_eq in F. subst. contradiction.
Qed.
Lemma firsts_in z l : In z (firsts l) <-> In z l.
Proof. unfold firsts. rewrite <- in_rev, nodup_In, <- in_rev. tauto. Qed.
Lemma firsts_nodup l : NoDup (firsts l).
Proof. unfold firsts. apply NoDup_rev, NoDup_nodup. Qed.
Lemma firsts_length l : length (firsts l) = length (nodup Z.eq_dec l).
Proof.
  unfold firsts. rewrite rev_length. apply nodup_length_eq. intros x. rewrite <- in_rev. tauto.
Qed.

Section N.
Variable sizes : list nat.
Variable m : cmap.
Hypothesis ES : cmsizes m = sizes.
Notation D := (dofs_from 0 sizes).

Definition ridx (x : dof) : nat :=
  let z := cmval m x in
  if (z =? 0)%Z then pos_in x (czeros m)
  else if (0 <? z)%Z then length (czeros m) + posZ z (cgroups m)
  else length (czeros m) + length (cgroups m) + posZ z (celims m).

Lemma cdofs_D : cdofs m = D.
Proof. unfold cdofs. rewrite ES. reflexivity. Qed.
Lemma cfree_split : cfreeSize m = length (czeros m) + length (cgroups m).
Proof. unfold cfreeSize, czeros, cgroups. rewrite firsts_length. reflexivity. Qed.
Lemma in_czeros x : In x (czeros m) <-> In x D /\ cmval m x = 0%Z.
Proof. unfold czeros. rewrite filter_In, cdofs_D. rewrite Z.eqb_eq. tauto. Qed.
Lemma in_cgroups z : In z (cgroups m) <-> (0 < z)%Z /\ exists x, In x D /\ cmval m x = z.
Proof.
  unfold cgroups. rewrite firsts_in, filter_In, in_map_iff, cdofs_D. split.
  - intros ((x & E & Hx) & Hz). split; [lia|eauto].
  - intros (Hz & x & Hx & E). split; [eauto|lia].
Qed.
Lemma czeros_nodup : NoDup (czeros m).
Proof. apply NoDup_filter. rewrite cdofs_D. apply D_nodup. Qed.

Lemma cindex_ok x : In x D -> cindex m (snd x) (fst x) = Ok (ridx x).
Proof.
  intros Hx. unfold cindex. replace (fst x, snd x) with x by (destruct x; reflexivity).
  rewrite (proj2 (cvalid_in sizes m x ES) Hx). reflexivity.
Qed.
Lemma ridx_lt x : In x D -> (0 <= cmval m x)%Z -> ridx x < cfreeSize m.
Proof.
  intros Hx H. rewrite cfree_split. unfold ridx. destruct (cmval m x =? 0)%Z eqn:E.
  - assert (In x (czeros m)) as G by (apply in_czeros; split; auto; lia). apply pos_in_lt in G. lia.
  - destruct (0 <? cmval m x)%Z eqn:F; [|lia].
    assert (In (cmval m x) (cgroups m)) as G by (apply in_cgroups; split; [lia|eauto]). apply posZ_lt in G. lia.
Qed.
Lemma ridx_inj x y : In x D -> In y D -> (0 <= cmval m x)%Z -> (0 <= cmval m y)%Z -> ridx x = ridx y ->
  x = y \/ ((0 < cmval m x)%Z /\ cmval m x = cmval m y).
Proof.
  intros Hx Hy H1 H2 E. unfold ridx in E.
  destruct (cmval m x =? 0)%Z eqn:Ex; destruct (cmval m y =? 0)%Z eqn:Ey.
  - left. apply pos_in_inj in E; auto; apply in_czeros; split; auto; lia.
  - assert (In x (czeros m)) as G by (apply in_czeros; split; auto; lia). apply pos_in_lt in G.
    destruct (0 <? cmval m y)%Z eqn:F; lia.
  - assert (In y (czeros m)) as G by (apply in_czeros; split; auto; lia). apply pos_in_lt in G.
    destruct (0 <? cmval m x)%Z eqn:F; lia.
  - destruct (0 <? cmval m x)%Z eqn:Fx; [|lia]. destruct (0 <? cmval m y)%Z eqn:Fy; [|lia].
    right. split; [lia|]. apply (posZ_inj _ _ (cgroups m)); [| |lia]; apply in_cgroups; (split; [lia|eauto]).
Qed.
Lemma ridx_group x y : (0 < cmval m x)%Z -> cmval m x = cmval m y -> ridx x = ridx y.
Proof.
  intros H E. unfold ridx. rewrite <- E. destruct (cmval m x =? 0)%Z eqn:E0; [lia|reflexivity].
Qed.
Lemma ridx_onto r : r < cfreeSize m -> exists x, In x D /\ (0 <= cmval m x)%Z /\ ridx x = r.
Proof.
  rewrite cfree_split. intros H. destruct (lt_dec r (length (czeros m))) as [L|L].
  - destruct (pos_in_onto r (czeros m) L czeros_nodup) as (x & Hx & E). apply in_czeros in Hx.
    exists x. split; [tauto|]. destruct Hx as [Hx H0]. split; [lia|]. unfold ridx. rewrite H0. exact E.
  - destruct (posZ_onto (r - length (czeros m)) (cgroups m)) as (z & Hz & E); [lia|apply firsts_nodup|].
    apply in_cgroups in Hz. destruct Hz as (Hz & x & Hx & Ex). exists x. split; [exact Hx|]. split; [lia|].
    unfold ridx. rewrite Ex. destruct (z =? 0)%Z eqn:E0; [lia|]. destruct (0 <? z)%Z eqn:E1; lia.
Qed.
End N.

(** m_mapOriginal *)
Section O.
Variable sizes : list nat.
Notation D := (dofs_from 0 sizes).
Definition cidx (x : dof) : nat := pos_in x D.
Lemma ridx_orig x : ridx (cmap_of sizes) x = cidx x.
Proof.
  unfold ridx, cidx. cbn [cmval cmap_of Z.eqb]. unfold czeros, cdofs. cbn [cmsizes cmap_of cmval].
  rewrite filter_all; [reflexivity|]. intros. reflexivity.
Qed.
Lemma cindex_orig x : In x D -> cindex (cmap_of sizes) (snd x) (fst x) = Ok (cidx x).
Proof. intros H. rewrite (cindex_ok sizes) by auto. rewrite ridx_orig. reflexivity. Qed.
Lemma cidx_lt x : In x D -> cidx x < cfreeSize (cmap_of sizes).
Proof. intros H. rewrite <- ridx_orig. apply (ridx_lt sizes); auto. simpl. lia. Qed.
Lemma cidx_inj x y : In x D -> In y D -> cidx x = cidx y -> x = y.
Proof. apply pos_in_inj. Qed.
Lemma cidx_onto c : c < cfreeSize (cmap_of sizes) -> exists x, In x D /\ cidx x = c.
Proof.
  intros H. destruct (ridx_onto sizes (cmap_of sizes) eq_refl c H) as (x & Hx & _ & E).
  exists x. split; auto. rewrite <- ridx_orig. exact E.
Qed.
End O.

(* ------------------------------------------------------------------ *)
(** * Values of the mapper *)
Section V.
Variable I : rinput.
Hypothesis RI : ring_input I.
Notation t := (ritopo I).
Notation np := (length (ribases I)).
Notation S0 := (shadow I).
Let W0 := shadow_wf I RI.
Let Hcons : consistent t := ri_topo I RI.
Let Hnp : tnp t = np := ri_np I RI.
Notation cls := (cls t).
Notation valence := (valence t).
Notation inner := (inner t).
Notation ifl := (ifl t).
Notation rc0 := (rc0 I).
Notation sizes := (sizes I).
Notation D := (dofs_from 0 sizes).
Notation cok := (cok sizes).
Notation B := (B I).
Notation zeros := (zeros I).
Notation vmarks := (marks S0 vertIndex (@fst nat corner)).
Notation smarks := (marks S0 sideIndex (@fst nat side)).
Let rvalidc := rvalidc I RI.
Let np0 := np0 I.

(** boundary vertices of valence three *)
Definition tri (c : pcorner) : bool := negb (inner c) && (2 <? valence c).
(** eliminated functions near a corner *)
Definition elb (c : pcorner) (a e : nat) : bool :=
  if inner c then (a =? 0) || (e =? 0)
  else if valence c =? 1 then false
  else if valence c =? 2 then
    (ifl c 0 && (a =? 0) && ((e =? 1) || negb (rc0 c))) || (ifl c 1 && (e =? 0) && ((a =? 1) || negb (rc0 c)))
  else (a =? 0) && (e =? 1) || (a =? 1) && (e =? 0).

(** the values near corner [c] *)
Definition valued (m : cmap) (c : pcorner) : Prop := forall a e, a < 2 -> e < 2 ->
  if tri c && (a =? 0) && (e =? 0) then (0 < cmval m (B c a e))%Z
  else if elb c a e then (cmval m (B c a e) < 0)%Z
  else cmval m (B c a e) = 0%Z.

Definition isB (T : list pcorner) (x : dof) : Prop := exists c a e, In c T /\ a < 2 /\ e < 2 /\ x = B c a e.

(** what a vertex rule does *)
Definition veffect (m m' : cmap) (pc : pcorner) (T : list pcorner) : Prop :=
  cok m' /\ (forall c, In c T -> valued m' c) /\ (forall x, ~ isB T x -> cmval m' x = cmval m x) /\
  (tri pc = true -> exists z, (forall c, In c T -> cmval m' (B c 0 0) = z) /\ forall x, (cmval m x < z)%Z).

Lemma elim_veffect pc l m : fst pc < np -> cok m -> zeros m pc -> tri pc = false ->
  (forall x, In x l <-> exists a e, a < 2 /\ e < 2 /\ elb pc a e = true /\ x = B pc a e) ->
  exists m', celimAll l m = Ok m' /\ veffect m m' pc [pc].
Proof.
  intros Hp Hok Hz Ht Hl.
  destruct (celimAll_ok sizes l (nodup dof_dec l) m Hok) as (m' & E & Hok' & F & N & U).
  - intros x Hx. apply Hl in Hx. destruct Hx as (a & e & Ha & He & _ & ->). apply (B_in I RI); auto.
  - intros x Hx. apply Hl in Hx. destruct Hx as (a & e & Ha & He & _ & ->). rewrite Hz by auto. lia.
  - apply NoDup_nodup.
  - intros x. rewrite nodup_In. split; [|tauto]. intros Hx. split; auto.
    apply Hl in Hx. destruct Hx as (a & e & Ha & He & _ & ->). apply Hz; auto.
  - exists m'. split; [exact E|]. split; [exact Hok'|]. split; [|split].
    + intros c [<-|[]] a e Ha He. rewrite Ht. cbn [andb]. destruct (elb pc a e) eqn:Eb.
      * apply N, Hl. eauto 6.
      * rewrite U; [apply Hz; auto|]. intros G. apply Hl in G. destruct G as (a' & e' & Ha' & He' & Eb' & EB).
        apply (B_inj I RI) in EB; auto. destruct EB as (_ & -> & ->). congruence.
    + intros x Hx. apply U. intros G. apply Hl in G. destruct G as (a & e & Ha & He & _ & ->).
      apply Hx. exists pc, a, e. simpl; auto.
    + congruence.
Qed.

Lemma two_cases n : n < 2 -> n = 0 \/ n = 1. Proof. lia. Qed.

Ltac listB :=
  let x := fresh "x" in let a := fresh "a" in let e := fresh "e" in
  intros x; split;
  [ simpl; intros G; repeat (destruct G as [<-|G]; [|]); try contradiction; eauto 8
  | intros (a & e & Ha & He & Hb & ->);
    destruct (two_cases a Ha) as [-> | ->]; destruct (two_cases e He) as [-> | ->]; simpl in Hb |- *; auto; try discriminate ].

Lemma interior_val pc m : fst pc < np -> cok m -> zeros m pc -> inner pc = true ->
  exists m', rInterior I pc m = Ok m' /\ veffect m m' pc [pc].
Proof.
  intros Hp Hok Hz Hi. unfold rInterior. rewrite (along_ok I RI) by (auto; simpl; lia). cbn [bind map app].
  apply elim_veffect; auto.
  - unfold tri. rewrite Hi. reflexivity.
  - intros x. split.
    + simpl. intros G. repeat (destruct G as [<-|G]); try contradiction.
      * exists 0, 0. unfold elb. rewrite Hi. auto.
      * exists 0, 1. unfold elb. rewrite Hi. auto.
      * exists 0, 0. unfold elb. rewrite Hi. auto.
      * exists 1, 0. unfold elb. rewrite Hi. auto.
    + intros (a & e & Ha & He & Hb & ->). unfold elb in Hb. rewrite Hi in Hb.
      destruct (two_cases a Ha) as [-> | ->]; destruct (two_cases e He) as [-> | ->]; simpl; auto; discriminate.
Qed.

Lemma regular_val pc m (c0 : bool) : fst pc < np -> cok m -> zeros m pc -> inner pc = false -> valence pc = 2 -> rc0 pc = c0 ->
  exists m', (if c0 then rNonSmooth I pc m else rRegularSmooth I pc m) = Ok m' /\ veffect m m' pc [pc].
Proof.
  intros Hp Hok Hz Hi Hv Hc. pose proof (val2_boundary t Hcons pc (proj2 (rvalidc pc) Hp) Hi Hv) as EB.
  assert (forall a e, elb pc a e = (ifl pc 0 && (a =? 0) && ((e =? 1) || negb c0)) || (ifl pc 1 && (e =? 0) && ((a =? 1) || negb c0))) as Eb.
  { intros a e. unfold elb. rewrite Hi, Hv, Hc. reflexivity. }
  assert (tri pc = false) as Ht by (unfold tri; rewrite Hi, Hv; reflexivity).
  destruct c0; unfold rNonSmooth, rRegularSmooth; rewrite (along_ok I RI) by (auto; simpl; lia); cbn [bind];
    rewrite !rIface_ifl; apply elim_veffect; auto.
  - intros x. rewrite EB in *. destruct (ifl pc 1); cbn [negb] in *; simpl map; simpl app; split.
    + intros [<-|[]]. exists 1, 0. rewrite Eb. auto.
    + intros (a & e & Ha & He & Hb & ->). rewrite Eb in Hb.
      destruct (two_cases a Ha) as [-> | ->]; destruct (two_cases e He) as [-> | ->]; simpl in *; auto; discriminate.
    + intros [<-|[]]. exists 0, 1. rewrite Eb. auto.
    + intros (a & e & Ha & He & Hb & ->). rewrite Eb in Hb.
      destruct (two_cases a Ha) as [-> | ->]; destruct (two_cases e He) as [-> | ->]; simpl in *; auto; discriminate.
  - intros x. rewrite EB in *. destruct (ifl pc 1); cbn [negb] in *; simpl map; simpl app; split.
    + intros [<-|[<-|[]]]; [exists 0, 0|exists 1, 0]; rewrite Eb; auto.
    + intros (a & e & Ha & He & Hb & ->). rewrite Eb in Hb.
      destruct (two_cases a Ha) as [-> | ->]; destruct (two_cases e He) as [-> | ->]; simpl in *; auto; discriminate.
    + intros [<-|[<-|[]]]; [exists 0, 0|exists 0, 1]; rewrite Eb; auto.
    + intros (a & e & Ha & He & Hb & ->). rewrite Eb in Hb.
      destruct (two_cases a Ha) as [-> | ->]; destruct (two_cases e He) as [-> | ->]; simpl in *; auto; discriminate.
Qed.

Lemma corner_val pc m : fst pc < np -> cok m -> zeros m pc -> inner pc = false -> valence pc = 1 -> veffect m m pc [pc].
Proof.
  intros Hp Hok Hz Hi Hv. assert (tri pc = false) as Ht by (unfold tri; rewrite Hi, Hv; reflexivity).
  split; [exact Hok|]. split; [|split].
  - intros c [<-|[]] a e Ha He. rewrite Ht. unfold elb. rewrite Hi, Hv. simpl. apply Hz; auto.
  - auto.
  - congruence.
Qed.

Lemma next_val m pc : fst pc < np -> cok m -> zeros m pc ->
  exists m', (do m <- celiminate m (rifv (rbas I (fst pc)) 1 (snd pc) (cside (snd pc) 0) 0) (fst pc);
              celiminate m (rifv (rbas I (fst pc)) 1 (snd pc) (cside (snd pc) 1) 0) (fst pc)) = Ok m' /\ cok m' /\
    (cmval m' (B pc 0 1) < 0)%Z /\ (cmval m' (B pc 1 0) < 0)%Z /\
    (forall x, x <> B pc 0 1 -> x <> B pc 1 0 -> cmval m' x = cmval m x).
Proof.
  intros Hp Hok Hz. rewrite rifv_blk0, rifv_blk1 by (try apply rbas_like; auto).
  destruct (eliminate_zero sizes m (B pc 0 1) Hok) as (m1 & E1 & Hok1 & _ & V1 & U1);
    [apply (B_in I RI); auto; lia|apply Hz; lia|].
  change (celiminate m (rblk (rbas I (fst pc)) (snd pc) 0 1) (fst pc)) with (celiminate m (snd (B pc 0 1)) (fst (B pc 0 1))).
  rewrite E1. cbn [bind].
  assert (B pc 1 0 <> B pc 0 1) as NB by (apply (BB_neq I RI); auto; congruence).
  destruct (eliminate_zero sizes m1 (B pc 1 0) Hok1) as (m2 & E2 & Hok2 & _ & V2 & U2);
    [apply (B_in I RI); auto; lia|rewrite U1 by auto; apply Hz; lia|].
  change (celiminate m1 (rblk (rbas I (fst pc)) (snd pc) 1 0) (fst pc)) with (celiminate m1 (snd (B pc 1 0)) (fst (B pc 1 0))).
  exists m2. split; [exact E2|]. split; [exact Hok2|]. split; [rewrite U2 by auto; exact V1|]. split; [exact V2|].
  intros x X1 X2. rewrite U2, U1 by auto. reflexivity.
Qed.

Lemma BBneq c a e c' a' e' : fst c < np -> a < 2 -> e < 2 -> a' < 2 -> e' < 2 -> (c <> c' \/ a <> a' \/ e <> e') -> B c a e <> B c' a' e'.
Proof. intros H Ha He Ha' He' N E. apply (B_inj I RI) in E; auto. destruct E as (-> & -> & ->). intuition. Qed.

Lemma v3_val pc m vc P : fst pc < np -> cok m -> (forall c, In c (cls pc) -> zeros m c) -> vmarks vc P ->
  inner pc = false -> valence pc = 3 ->
  exists m' vc', dpBoundary_v3 I pc m vc = Ok (m', vc') /\ veffect m m' pc (cls pc) /\ vmarks vc' (fun c => P c \/ In c (cls pc)).
Proof.
  intros H Hok Hz Hm Hi Hv. unfold dpBoundary_v3. rewrite (cornerList_cls t Hcons pc) by (apply rvalidc; exact H).
  assert (forall c, In c (cls pc) -> tri c = true /\ forall a e, elb c a e = (a =? 0) && (e =? 1) || (a =? 1) && (e =? 0)) as Htri.
  { intros c Hc. unfold tri, elb.
    rewrite (inner_cls t Hcons pc c), (valence_cls t Hcons pc c) by (auto; apply rvalidc; auto). rewrite Hi, Hv. auto. }
  cbn [bind]. unfold TopoProofs.valence in Hv. pose proof (rcls_valid I RI pc) as V.
  pose proof (cls_nodup t Hcons pc (proj2 (rvalidc pc) H)) as N. specialize (fun c => V c H).
  destruct (cls pc) as [|c1 [|c2 [|c3 [|]]]]; try discriminate. clear Hv.
  assert (c1 <> c2 /\ c1 <> c3 /\ c2 <> c3) as (N12 & N13 & N23).
  { inversion N as [|? ? A1 A2]; subst. inversion A2 as [|? ? A3 A4]; subst. simpl in *. intuition. }
  assert (fst c1 < np) as P1 by (apply V; simpl; auto).
  assert (fst c2 < np) as P2 by (apply V; simpl; auto).
  assert (fst c3 < np) as P3 by (apply V; simpl; auto).
  assert (zeros m c1) as Z1 by (apply Hz; simpl; auto).
  assert (zeros m c2) as Z2 by (apply Hz; simpl; auto).
  assert (zeros m c3) as Z3 by (apply Hz; simpl; auto).
  cbn [bind]. rewrite (rbas_get I RI (fst c1)) by exact P1. cbn [bind length seq combine foldM fst snd Nat.eqb].
  rewrite (rbas_get I RI (fst c1)), (rbas_get I RI (fst c2)), (rbas_get I RI (fst c3)) by assumption. cbn [bind].
  (* first corner *)
  destruct (next_val m c1 P1 Hok Z1) as (m1 & E1 & Hok1 & A1 & A2 & U1).
  destruct (celiminate m (rifv (rbas I (fst c1)) 1 (snd c1) (cside (snd c1) 0) 0) (fst c1)) as [x1|]; [|discriminate].
  cbn [bind] in E1 |- *. rewrite E1. cbn [bind].
  destruct (vmarks_set S0 vc P c1 Hm (np0 _ P1)) as (v1 & -> & M1). cbn [bind].
  (* second corner *)
  destruct (next_val m1 c2 P2 Hok1) as (m2 & E2 & Hok2 & A3 & A4 & U2).
  { intros a e Ha He. rewrite U1 by (apply BBneq; auto). auto. }
  destruct (celiminate m1 (rifv (rbas I (fst c2)) 1 (snd c2) (cside (snd c2) 0) 0) (fst c2)) as [x2|]; [|discriminate].
  cbn [bind] in E2 |- *. rewrite E2. cbn [bind].
  rewrite !rcorner_blk by (apply rbas_like; auto).
  destruct (match_zero sizes m2 (B c1 0 0) (B c2 0 0) Hok2) as (m2' & E2' & Hok2' & _ & V2' & V2'' & U2').
  { apply (B_in I RI); auto; lia. } { apply (B_in I RI); auto; lia. }
  { apply BBneq; auto. }
  { rewrite U2, U1 by (apply BBneq; auto). auto. } { rewrite U2, U1 by (apply BBneq; auto). auto. }
  unfold RingProofs2.B in E2' at 1 2 3 4. cbn [fst snd] in E2'. rewrite E2'. cbn [bind].
  destruct (vmarks_set S0 v1 _ c2 M1 (np0 _ P2)) as (v2 & -> & M2). cbn [bind].
  (* third corner *)
  destruct (next_val m2' c3 P3 Hok2') as (m3 & E3 & Hok3 & A5 & A6 & U3).
  { intros a e Ha He. rewrite U2', U2, U1 by (apply BBneq; auto). auto. }
  destruct (celiminate m2' (rifv (rbas I (fst c3)) 1 (snd c3) (cside (snd c3) 0) 0) (fst c3)) as [x3|]; [|discriminate].
  cbn [bind] in E3 |- *. rewrite E3. cbn [bind].
  assert (cmval m3 (B c1 0 0) = cmcouple m2) as V31 by (rewrite U3 by (apply BBneq; auto); exact V2').
  assert (0 < cmcouple m2)%Z as Cpos by (destruct Hok2 as (_ & C & _); lia).
  destruct (match_group sizes m3 (B c1 0 0) (B c3 0 0) Hok3) as (m3' & E3' & Hok3' & _ & V3' & U3').
  { apply (B_in I RI); auto; lia. } { apply (B_in I RI); auto; lia. } { lia. }
  { rewrite U3, U2', U2, U1 by (apply BBneq; auto). auto. }
  unfold RingProofs2.B in E3' at 1 2 3 4. cbn [fst snd] in E3'. rewrite E3'. cbn [bind].
  destruct (vmarks_set S0 v2 _ c3 M2 (np0 _ P3)) as (v3 & -> & M3). cbn [bind].
  assert (cmval m3' (B c1 0 0) = cmcouple m2) as R1 by (rewrite U3' by (apply BBneq; auto); exact V31).
  assert (cmval m3' (B c2 0 0) = cmcouple m2) as R2 by (rewrite U3', U3 by (apply BBneq; auto); exact V2'').
  assert (cmval m3' (B c3 0 0) = cmcouple m2) as R3 by (rewrite V3'; exact V31).
  exists m3', v3. split; [reflexivity|]. split; [split; [exact Hok3'|split; [|split]]|].
  - assert (forall a e, a < 2 -> e < 2 -> a = 1 /\ e = 1 \/ a = 0 /\ e = 1 \/ a = 1 /\ e = 0 \/ a = 0 /\ e = 0) as K by lia.
    intros c Hc a e Ha He. destruct (Htri c Hc) as [-> ->].
    destruct Hc as [<-|[<-|[<-|[]]]]; destruct (K a e Ha He) as [[-> ->]|[[-> ->]|[[-> ->]|[-> ->]]]]; cbn [Nat.eqb andb orb].
    + rewrite U3', U3, U2', U2, U1 by (apply BBneq; auto). auto.
    + rewrite U3', U3, U2', U2 by (apply BBneq; auto). auto.
    + rewrite U3', U3, U2', U2 by (apply BBneq; auto). auto.
    + lia.
    + rewrite U3', U3, U2', U2, U1 by (apply BBneq; auto). auto.
    + rewrite U3', U3, U2' by (apply BBneq; auto). auto.
    + rewrite U3', U3, U2' by (apply BBneq; auto). auto.
    + lia.
    + rewrite U3', U3, U2', U2, U1 by (apply BBneq; auto). auto.
    + rewrite U3' by (apply BBneq; auto). auto.
    + rewrite U3' by (apply BBneq; auto). auto.
    + lia.
  - intros x Hx.
    assert (forall c a e, In c [c1; c2; c3] -> a < 2 -> e < 2 -> x <> B c a e) as K.
    { intros c a e Hc Ha He ->. apply Hx. exists c, a, e. auto. }
    rewrite U3', U3, U2', U2, U1; auto; apply K; simpl; auto.
  - intros _. exists (cmcouple m2). split.
    + intros c [<-|[<-|[<-|[]]]]; auto.
    + intros x. destruct Hok2 as (_ & C1 & _ & C3).
      assert (forall c a e, In c [c1; c2; c3] -> a < 2 -> e < 2 -> cmval m (B c a e) = 0%Z) as ZZ.
      { intros c a e Hc Ha He. apply (Hz c Hc); auto. }
      destruct (dof_dec x (B c1 0 1)) as [->|X1]; [rewrite ZZ by (simpl; auto); lia|].
      destruct (dof_dec x (B c1 1 0)) as [->|X2]; [rewrite ZZ by (simpl; auto); lia|].
      destruct (dof_dec x (B c2 0 1)) as [->|X3]; [rewrite ZZ by (simpl; auto); lia|].
      destruct (dof_dec x (B c2 1 0)) as [->|X4]; [rewrite ZZ by (simpl; auto); lia|].
      rewrite <- (U1 x), <- (U2 x) by auto. apply C3.
  - revert M3. apply marks_ext. intros c _. simpl. intuition.
Qed.

Definition dtouched (pc : pcorner) : list pcorner := if tri pc then cls pc else [pc].
Definition dsup (pc : pcorner) : bool := inner pc || (valence pc <=? 3).

Lemma rule_val pc m vc P : fst pc < np -> dsup pc = true -> cok m ->
  (forall c, In c (dtouched pc) -> zeros m c) -> vmarks vc P ->
  exists m' vc', rVertexRule SchemeDPatch I pc (valence pc) (inner pc) (rc0 pc) m vc = Ok (m', vc') /\
    veffect m m' pc (dtouched pc) /\
    exists Q, vmarks vc' Q /\ (forall c, (c = pc \/ Q c) <-> (P c \/ In c (dtouched pc))).
Proof.
  intros H Hs Hok Hz Hm. pose proof (RingProofs3.valence_pos I RI pc H) as V1.
  assert (Hself : In pc (cls pc)) by (apply (cls_self t Hcons), rvalidc; exact H).
  unfold dsup in Hs. unfold dtouched in *. unfold rVertexRule.
  assert (forall m' : cmap, veffect m m' pc [pc] -> tri pc = false ->
    exists m'' vc', Ok (m', vc) = Ok (m'', vc') /\ veffect m m'' pc (if tri pc then cls pc else [pc]) /\
    exists Q, vmarks vc' Q /\ (forall c, (c = pc \/ Q c) <-> (P c \/ In c (if tri pc then cls pc else [pc])))) as K.
  { intros m' F Et. rewrite Et. exists m', vc. split; [reflexivity|]. split; [exact F|]. exists P. split; [exact Hm|]. intros c. simpl. intuition. }
  destruct (inner pc) eqn:Hi; cbn [negb andb orb] in *.
  - assert (tri pc = false) as Et by (unfold tri; rewrite Hi; reflexivity).
    assert (zeros m pc) as Z0 by (apply Hz; rewrite Et; left; auto).
    destruct (interior_val pc m H Hok Z0 Hi) as (m' & -> & F). cbn [bind]. apply K; auto.
  - destruct (valence pc =? 1) eqn:E1; [|destruct (valence pc =? 2) eqn:E2].
    + assert (tri pc = false) as Et by (unfold tri; rewrite Hi; simpl; lia).
      assert (zeros m pc) as Z0 by (apply Hz; rewrite Et; left; auto).
      apply K; auto. apply corner_val; auto. lia.
    + assert (tri pc = false) as Et by (unfold tri; rewrite Hi; simpl; lia).
      assert (zeros m pc) as Z0 by (apply Hz; rewrite Et; left; auto).
      destruct (regular_val pc m (rc0 pc) H Hok Z0 Hi ltac:(lia) eq_refl) as (m' & E & F).
      destruct (rc0 pc); cbn [andb negb]; rewrite E; cbn [bind]; apply K; auto.
    + assert (valence pc =? 3 = true) as E3 by lia. rewrite E3. cbn [andb].
      assert (tri pc = true) as Et by (unfold tri; rewrite Hi; simpl; lia). rewrite Et in *.
      destruct (v3_val pc m vc P H Hok Hz Hm Hi) as (m' & vc' & -> & F & M); [lia|].
      exists m', vc'. split; [reflexivity|]. split; [exact F|]. eexists. split; [exact M|].
      intros c. split; [intros [->|?]|]; auto.
Qed.

Lemma tri_cls pc c : fst pc < np -> In c (cls pc) -> tri c = tri pc.
Proof.
  intros H Hc. unfold tri. rewrite (inner_cls t Hcons pc c), (valence_cls t Hcons pc c) by (auto; apply rvalidc; auto). reflexivity.
Qed.

Definition vloop (m0 : cmap) (pre : list pcorner) (s : rstate) (L : list pcorner) : Prop :=
  vmarks (rs_vert s) (fun c => In c L) /\ incl pre L /\ (forall c, In c L -> fst c < np) /\
  (forall c, In c L -> tri c = true -> incl (cls c) L) /\
  cok (rs_map s) /\ (forall c, In c L -> valued (rs_map s) c) /\
  (forall x, ~ isB L x -> cmval (rs_map s) x = cmval m0 x) /\
  (forall c c', In c L -> In c' L -> tri c = true -> tri c' = true ->
     (cmval (rs_map s) (B c 0 0) = cmval (rs_map s) (B c' 0 0) <-> In c' (cls c))).

Lemma isB_app T T' x : isB (T ++ T') x <-> isB T x \/ isB T' x.
Proof.
  unfold isB. split.
  - intros (c & a & e & Hc & G). apply in_app_iff in Hc. destruct Hc; [left|right]; eauto 8.
  - intros [(c & a & e & Hc & G)|(c & a & e & Hc & G)]; exists c, a, e; rewrite in_app_iff; tauto.
Qed.
Lemma isB_B T c a e : (forall c, In c T -> fst c < np) -> fst c < np -> a < 2 -> e < 2 -> isB T (B c a e) <-> In c T.
Proof.
  intros HT Hc Ha He. split.
  - intros (c' & a' & e' & Hc' & Ha' & He' & E). apply (B_inj I RI) in E; auto. destruct E as (-> & _). exact Hc'.
  - intros G. exists c, a, e. auto.
Qed.

Lemma vertex_loop_val m0 l s0 : (forall c, In c l -> fst c < np) -> (forall c, In c l -> dsup c = true) ->
  (forall c, fst c < np -> zeros m0 c) ->
  vloop m0 [] s0 [] -> exists s L, foldM (rVertex SchemeDPatch I) l s0 = Ok s /\ vloop m0 l s L.
Proof.
  intros Hl Hs HZ Hv0.
  destruct (foldM_inv (fun pre s => exists L, vloop m0 pre s L) (rVertex SchemeDPatch I) l s0) as (s & E & L & HL); eauto.
  intros pre pc post s E (L & H1 & H2 & H3 & H4 & H5 & H6 & H7 & H8).
  assert (In pc l) as Hin by (rewrite E; apply in_elt). pose proof (Hl pc Hin) as Hp. pose proof (Hs pc Hin) as Hsp.
  unfold rVertex. destruct (proj2 H1 pc (np0 _ Hp)) as (b & Eb & Hb). rewrite Eb. cbn [bind]. destruct b.
  - exists s. split; [reflexivity|]. exists L. unfold vloop. split; [exact H1|]. split.
    + intros x Hx. apply in_app_iff in Hx. destruct Hx as [Hx|[<-|[]]]; [auto|]. apply Hb; auto.
    + auto 10.
  - assert (~ In pc L) as Hn by (intros G; apply Hb in G; discriminate).
    rewrite (rc0_vget I RI pc Hp). cbn [bind]. rewrite (rvertexData I RI pc Hp). cbn [bind fst snd].
    assert (forall c, In c (dtouched pc) -> In c (cls pc)) as Hcl.
    { intros c. unfold dtouched. destruct (tri pc); [auto|]. intros [<-|[]]. apply (cls_self t Hcons), rvalidc; exact Hp. }
    assert (forall c, In c (dtouched pc) -> fst c < np) as Hcv by (intros c Hc; apply (rcls_valid I RI pc); auto).
    assert (forall c, In c (dtouched pc) -> ~ In c L) as Hdis.
    { intros c. unfold dtouched. destruct (tri pc) eqn:Et; [|intros [<-|[]]; exact Hn]. intros Hc G. apply Hn.
      apply (H4 c G); [rewrite (tri_cls pc c); auto|]. apply (in_cls_sym t Hcons); auto. apply rvalidc; exact Hp. }
    destruct (rule_val pc (rs_map s) (rs_vert s) (fun c => In c L) Hp Hsp H5) as (m' & vc' & -> & (F1 & F2 & F3 & F4) & Q & HQ & HQ').
    { intros c Hc a e Ha He. rewrite H7; [apply HZ; auto|]. rewrite isB_B by auto. apply Hdis; auto. }
    { exact H1. }
    cbn [bind fst snd]. destruct (vmarks_set S0 vc' Q pc HQ (np0 _ Hp)) as (vc2 & -> & M2). cbn [bind].
    eexists. split; [reflexivity|]. exists (L ++ dtouched pc). unfold vloop. cbn [rs_map rs_vert].
    assert (forall c a e, In c L -> a < 2 -> e < 2 -> cmval m' (B c a e) = cmval (rs_map s) (B c a e)) as Keep.
    { intros c a e Hc Ha He. apply F3. rewrite isB_B by auto. intros G. apply (Hdis c G Hc). }
    split; [|split; [|split; [|split; [|split; [|split; [|split]]]]]].
    + revert M2. apply marks_ext. intros a _. rewrite in_app_iff. apply HQ'.
    + intros x Hx. apply in_app_iff. apply in_app_iff in Hx. destruct Hx as [Hx|[<-|[]]]; [left; auto|].
      right. unfold dtouched. destruct (tri pc); [|left; auto]. apply (cls_self t Hcons), rvalidc; exact Hp.
    + intros c Hc. apply in_app_iff in Hc. destruct Hc; auto.
    + intros c Hc Es x Hx. apply in_app_iff. apply in_app_iff in Hc. destruct Hc as [Hc|Hc]; [left; eapply H4; eauto|].
      right. pose proof (Hcl c Hc) as Hc'. rewrite (tri_cls pc c) in Es by auto. unfold dtouched. rewrite Es.
      apply (Permutation_in _ (Permutation_sym (cls_perm t Hcons pc c (proj2 (rvalidc pc) Hp) Hc'))). exact Hx.
    + exact F1.
    + intros c Hc. apply in_app_iff in Hc. destruct Hc as [Hc|Hc]; [|auto].
      intros a e Ha He. rewrite Keep by auto. apply (H6 c Hc a e Ha He).
    + intros x Hx. rewrite isB_app in Hx. rewrite F3 by tauto. apply H7. tauto.
    + intros c c' Hc Hc' Tc Tc'. apply in_app_iff in Hc, Hc'.
      assert (forall c, In c (dtouched pc) -> tri c = true -> tri pc = true) as Tp.
      { intros q Hq Tq. rewrite <- (tri_cls pc q); auto. }
      assert (forall c c', In c L -> tri c = true -> In c' (dtouched pc) -> ~ In c' (cls c)) as Sep.
      { intros q q' Hq Tq Hq' G. apply (Hdis q' Hq'). apply (H4 q Hq Tq). exact G. }
      destruct Hc as [Hc|Hc], Hc' as [Hc'|Hc'].
      * rewrite !Keep by auto. apply H8; auto.
      * destruct (F4 (Tp _ Hc' Tc')) as (z & Z1 & Z2). rewrite Keep, (Z1 c') by auto. split.
        -- intros G. pose proof (Z2 (B c 0 0)). lia.
        -- intros G. exfalso. apply (Sep c c'); auto.
      * destruct (F4 (Tp _ Hc Tc)) as (z & Z1 & Z2). rewrite (Keep c'), (Z1 c) by auto. split.
        -- intros G. pose proof (Z2 (B c' 0 0)). lia.
        -- intros G. exfalso. apply (Sep c' c); auto. apply (in_cls_sym t Hcons); auto. apply rvalidc; auto.
      * destruct (F4 (Tp _ Hc Tc)) as (z & Z1 & Z2). rewrite !Z1 by auto. split; [|reflexivity]. intros _.
        apply (Permutation_in _ (cls_perm t Hcons pc c (proj2 (rvalidc pc) Hp) (Hcl c Hc))). apply Hcl; auto.
Qed.

(** ** the interface loop: the strips are eliminated *)
Lemma interfaceSide_val s ps P : smarks (rs_side s) P -> fst ps < np -> ~ P ps -> cok (rs_map s) ->
  (forall x, In x (strip I ps) -> cmval (rs_map s) x = 0%Z) ->
  exists s', rInterfaceSide I s ps = Ok s' /\ smarks (rs_side s') (fun x => x = ps \/ P x) /\ rs_vert s' = rs_vert s /\
    cok (rs_map s') /\ (forall x, In x (strip I ps) -> (cmval (rs_map s') x < 0)%Z) /\
    (forall x, ~ In x (strip I ps) -> cmval (rs_map s') x = cmval (rs_map s) x).
Proof.
  intros Hm Hp HP Hok Hz. unfold rInterfaceSide.
  rewrite (marks_false S0 _ _ _ _ _ Hm (np0 _ Hp) HP). cbn [bind]. rewrite (rbas_get I RI) by exact Hp. cbn [bind].
  change (without _ _) with (rstrip (rbas I (fst ps)) (snd ps)). rewrite cmarkBoundary_all.
  change (map _ _) with (strip I ps).
  destruct (celimAll_ok sizes (strip I ps) (strip I ps) (rs_map s)) as (m' & E & Hok' & F & N & U); auto.
  - intros x Hx. eapply (RingProofs2.strip_in I RI); eauto.
  - intros x Hx. rewrite Hz by exact Hx. lia.
  - apply (strip_nodup I RI); auto.
  - intros x. split; [intros G; split; auto|tauto].
  - rewrite E. cbn [bind]. destruct (smarks_set S0 _ _ ps Hm (np0 _ Hp)) as (sc & -> & Hsc). cbn [bind].
    eexists. split; [reflexivity|]. cbn [rs_map rs_side rs_vert]. auto 10.
Qed.

Lemma interface_loop_val s0 : smarks (rs_side s0) (fun _ => False) -> cok (rs_map s0) ->
  (forall x, cmval (rs_map s0) x = 0%Z) ->
  exists s, foldM (rInterface I) (tif t) s0 = Ok s /\
    smarks (rs_side s) (fun ps => In ps (iface_sides t)) /\ rs_vert s = rs_vert s0 /\ cok (rs_map s) /\
    (forall ps x, In ps (iface_sides t) -> In x (strip I ps) -> (cmval (rs_map s) x < 0)%Z) /\
    (forall x, (forall ps, In ps (iface_sides t) -> ~ In x (strip I ps)) -> cmval (rs_map s) x = 0%Z).
Proof.
  intros Hm0 Hs0 Hz0.
  destruct (foldM_inv (fun pre s => smarks (rs_side s) (fun ps => In ps (isides pre)) /\ rs_vert s = rs_vert s0 /\
    cok (rs_map s) /\ (forall ps x, In ps (isides pre) -> In x (strip I ps) -> (cmval (rs_map s) x < 0)%Z) /\
    (forall x, (forall ps, In ps (isides pre) -> ~ In x (strip I ps)) -> cmval (rs_map s) x = 0%Z))
    (rInterface I) (tif t) s0) as (s & E & H1 & H2 & H3 & H4 & H5).
  - split; [exact Hm0|]. split; [reflexivity|]. split; [exact Hs0|]. split; [intros ps x []|]. auto.
  - intros pre f post s E (Hm & Hv & Hok & Hf & Hz).
    assert (In f (tif t)) as Hin by (rewrite E; apply in_elt).
    destruct (iface_ends_np S0 W0 f Hin) as [P1 P2]. rewrite shadow_np in P1, P2.
    destruct (isides_nodup S0 W0 pre f post E) as (N1 & N2 & N3).
    unfold rInterface. rewrite (marks_false S0 _ _ _ _ _ Hm (np0 _ P2) N2). cbn [bind foldM].
    destruct (interfaceSide_val s (if1 f) _ Hm P1 N1 Hok) as (s1 & E1 & Hm1 & Hv1 & Hok1 & Hf1 & U1).
    { intros x Hx. apply Hz. intros ps Hps Hx'. apply (strip_disjoint I RI (if1 f) ps x P1); auto. congruence. }
    rewrite E1. cbn [bind].
    destruct (interfaceSide_val s1 (if2 f) _ Hm1 P2) as (s2 & E2 & Hm2 & Hv2 & Hok2 & Hf2 & U2); auto.
    { intros [G|G]; [congruence|contradiction]. }
    { intros x Hx. rewrite U1.
      - apply Hz. intros ps Hps Hx'. apply (strip_disjoint I RI (if2 f) ps x P2); auto. congruence.
      - intros Hx'. apply (strip_disjoint I RI (if2 f) (if1 f) x P2); auto. }
    rewrite E2. cbn [bind]. exists s2. split; [reflexivity|].
    assert (isides (pre ++ [f]) = isides pre ++ [if1 f; if2 f]) as EI by (unfold isides; rewrite flat_map_app; reflexivity).
    rewrite EI. split; [|split; [congruence|split; [exact Hok2|split]]].
    + revert Hm2. apply marks_ext. intros a _. rewrite in_app_iff. simpl.
      split; [intros [->|[->|?]]|intros [?|[<-|[<-|[]]]]]; auto.
    + intros ps x Hps Hx. destruct (in_dec dof_dec x (strip I (if2 f))) as [X2|X2]; [auto|]. rewrite U2 by exact X2.
      destruct (in_dec dof_dec x (strip I (if1 f))) as [X1|X1]; [auto|]. rewrite U1 by exact X1.
      apply in_app_iff in Hps. destruct Hps as [Hps|[<-|[<-|[]]]]; [eauto|contradiction|contradiction].
    + intros x Hx. rewrite U2, U1.
      * apply Hz. intros ps Hps. apply Hx, in_app_iff. auto.
      * apply Hx, in_app_iff. simpl; auto.
      * apply Hx, in_app_iff. simpl; auto.
  - exists s. split; [exact E|]. change (isides (tif t)) with (iface_sides t) in *. auto.
Qed.

(** ** all values *)
Record vals (m : cmap) : Prop := {
  va_sizes : cmsizes m = sizes;
  va_strip : forall ps x, In ps (iface_sides t) -> In x (strip I ps) -> (cmval m x < 0)%Z;
  va_near : forall c, fst c < np -> valued m c;
  va_group : forall c c', fst c < np -> fst c' < np -> tri c = true -> tri c' = true ->
     (cmval m (B c 0 0) = cmval m (B c' 0 0) <-> In c' (cls c));
  va_other : forall x, ~ isB (all_corners np) x -> (forall ps, In ps (iface_sides t) -> ~ In x (strip I ps)) -> cmval m x = 0%Z }.

Lemma rMapper_val : (forall c, fst c < np -> dsup c = true) ->
  exists m, rMapper SchemeDPatch I = Ok m /\ vals m.
Proof.
  intros Hs.
  destruct (interface_loop_val (mkRS (cmap_of sizes) (repeat false (2 * length (tif t) + length (tbd t))) (repeat false (4 * np))))
    as (s1 & E1 & M1 & V1 & K1 & F & Z).
  { cbn [rs_side]. pose proof (smarks_init S0 W0) as M. exact M. }
  { apply cmap_of_ok. }
  { reflexivity. }
  destruct (rboundary_loop I RI s1 _ M1) as (s2 & E2 & Em & Ev).
  assert (forall c, fst c < np -> zeros (rs_map s2) c) as HZ.
  { intros c Hc a e Ha He. rewrite Em. apply Z. intros ps _. apply (strip_B I RI); auto. }
  destruct (vertex_loop_val (rs_map s2) (all_corners np) s2) as (s3 & L & E3 & H1 & H2 & H3 & H4 & H5 & H6 & H7 & H8).
  - intros c. apply in_all_corners.
  - intros c Hc. apply Hs, in_all_corners, Hc.
  - exact HZ.
  - unfold vloop. split; [|split; [intros c []|split; [intros c []|split; [intros c []|]]]].
    + rewrite Ev, V1. cbn [rs_vert]. pose proof (vmarks_init S0) as M. unfold nVerts in M. rewrite shadow_np in M. exact M.
    + rewrite Em. split; [exact K1|]. split; [intros c []|]. split; [auto|]. intros c c' [].
  - assert (forall c, In c L <-> fst c < np) as HL.
    { intros c. split; [apply H3|]. intros Hc. apply H2, in_all_corners, Hc. }
    exists (rs_map s3). split.
    + unfold rMapper. change (map rsize (ribases I)) with sizes. rewrite E1. cbn [bind]. rewrite E2. cbn [bind]. rewrite E3. reflexivity.
    + constructor.
      * apply H5.
      * intros ps x Hps Hx. rewrite H7, Em; [apply (F ps); auto|].
        intros (c & a & e & Hc & Ha & He & ->). apply (strip_B I RI ps c a e); auto.
      * intros c Hc. apply H6, HL, Hc.
      * intros c c' Hc Hc' Tc Tc'. apply H8; auto; apply HL; auto.
      * intros x Hx Hs'. rewrite H7, Em; [apply Z; auto|].
        intros (c & a & e & Hc & G). apply Hx. exists c, a, e. rewrite in_all_corners. split; [apply HL; auto|exact G].
Qed.
End V.
