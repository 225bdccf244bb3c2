(** The handlers of gsAlmostC1 write the intended rows of every column. *)
From Verif Require Import Common TopoModel BaseModel BaseModel2 IndexSpec TopoSpec SmoothSpec SmoothSpec2 RingModel RingSpec DpModel DpSpec
  IndexProofs IndexTopoProofs ListLemmas TopoProofs PointProofs MapperProofs CountProofs MatrixProofs HandlerProofs RingProofs RingProofs2 RingProofs3
  DpProofs DpProofs2 DpProofs3 AcModel AcProofs AcProofs2.
From Coq Require Import ZifyBool.
Open Scope nat_scope.

Section H.
Variable DI : dinput.
Notation I := (dring DI).
Hypothesis RI : ring_input I.
Hypothesis RM : rows_match DI.
Variable m : cmap.
Hypothesis V : avals I m.
Notation t := (ritopo I).
Notation np := (length (ribases I)).
Notation S0 := (shadow I).
Let W0 := shadow_wf I RI.
Let Hcons : consistent t := ri_topo I RI.
Let Hnp : tnp t = np := ri_np I RI.
Notation cls := (cls t).
Notation valence := (valence t).
Notation inner := (inner t).
Notation ifl := (ifl t).
Notation rc0 := (rc0 I).
Notation sizes := (sizes I).
Notation D := (dofs_from 0 sizes).
Notation B := (B I).
Notation i1 := (i1 I).
Notation rbas := (rbas I).
Notation strip := (strip I).
Notation half0 := (half0 I).
Notation flat2 := (flat2 I).
Notation sharp2 := (sharp2 I).
Notation avg := (avg I).
Notation ridx := (ridx m).
Notation cidx := (cidx sizes).
Notation dpt := (dpt DI).
Notation own := (own DI m).
Notation keptd := (keptd DI m).
Notation akid := (akid DI m).
Notation adart := (adart DI).
Notation rem1 := (rem1 DI).
Notation rem2 := (rem2 DI).
Notation smarks := (marks S0 sideIndex (@fst nat side)).
Notation vmarks := (marks S0 vertIndex (@fst nat corner)).
Notation C := (C DI m).
Notation aentry := (nat * dof * Q)%type.
Notation conc := (conc DI).
Notation self := (self m).
Notation dart := (dart DI m).
Notation idir := (idir DI).
Notation sents := (sents m).
Notation fent := (fent DI m).
Notation bent := (bent DI m).
Let rvalidc := rvalidc I RI.
Let np0 := np0 I.
Let ES : cmsizes m = sizes := av_sizes I m V.

Lemma arow_ok x p : In x D -> p = fst x -> drow C (snd x) p = Ok (ridx x).
Proof. intros H ->. apply (cindex_ok sizes m ES x H). Qed.
Lemma acol_ok x p : In x D -> p = fst x -> dcol C (snd x) p = Ok (cidx x).
Proof. intros H ->. apply (cindex_orig sizes x H). Qed.
Lemma arow_pi p i : In (p, i) D -> drow C i p = Ok (ridx (p, i)).
Proof. intros H. apply (arow_ok (p, i) p); auto. Qed.
Lemma acol_pi p i : In (p, i) D -> dcol C i p = Ok (cidx (p, i)).
Proof. intros H. apply (acol_ok (p, i) p); auto. Qed.

(** ** invariant *)
Definition agood (a : aentry) : Prop := let '(r, y, w) := a in In y D /\ exists P, akid y P /\ In (r, w) P.
Definition aclosed (l : list aentry) : Prop :=
  forall r y w x, In (r, y, w) l -> In x D -> own x -> ridx x = r -> In (self x) l.

Definition checked (s : xstate) (zs : list nat) : Prop :=
  length (xs_basis s) = dcRows C /\
  (forall r, r < dcRows C -> exists b, vget (xs_basis s) r = Ok b /\
     (b = true <-> (exists c w, In (r, c, w) (xs_mat s)) \/ In r zs)).
Definition AInv (s : xstate) (l : list aentry) (zs : list nat) : Prop :=
  (forall e, In e (xs_mat s) <-> In e (map conc l)) /\
  (forall a, In a l -> agood a) /\ aclosed l /\ (forall r, In r zs -> exists x, In x D /\ keptd x /\ r = ridx x) /\
  checked s zs.

Lemma agood_self x : In x D -> own x -> agood (self x).
Proof. intros H E. split; [exact H|]. eexists. split; [apply ak_own; exact E|left; reflexivity]. Qed.
Lemma agood_row r y w : agood (r, y, w) -> r < dcRows C /\ cidx y < dcCols C.
Proof.
  intros (Hy & P & K & Hin). split; [|apply cidx_lt; exact Hy].
  destruct (akid_rows DI RI RM m V y P r w K Hy Hin) as (x & Hx & (Hz & _) & ->). apply (ridx_lt sizes m ES); auto. lia.
Qed.

(** rows of functions that are written themselves *)
Lemma aclosed_of l : (forall r y w, In (r, y, w) l -> exists x, In x D /\ r = ridx x /\ own x /\ In (self x) l) -> aclosed l.
Proof.
  intros H r y w x Hin Hx [Zx _] Er. destruct (H r y w Hin) as (x0 & H0 & -> & [G _] & Hs).
  apply (aridx_neq DI RI m V) in Er; auto. subst x0. exact Hs.
Qed.
Lemma aclosed_app l l' : aclosed l -> aclosed l' -> aclosed (l ++ l').
Proof.
  intros H1 H2 r y w x Ha Hx Zx Er. apply in_app_iff in Ha. apply in_app_iff. destruct Ha as [Ha|Ha]; [left|right]; eauto.
Qed.

Lemma apush_basis es s zs : checked s zs ->
  (forall r c w, In (r, c, w) es -> r < dcRows C /\ c < dcCols C) ->
  exists s', dpush C es s = Ok s' /\ xs_side s' = xs_side s /\ xs_vert s' = xs_vert s /\
    (forall e, In e (xs_mat s') <-> In e (xs_mat s) \/ In e es) /\ checked s' zs.
Proof.
  revert s. induction es as [|[[r c] w] es IH]; intros s [HL HB] He.
  - exists s. split; [reflexivity|]. split; auto. split; auto. split; [|split; auto]. intros e. simpl. tauto.
  - unfold dpush. cbn [foldM]. destruct (He r c w) as [Hr Hc]; [left; auto|].
    rewrite (proj2 (Nat.ltb_lt _ _) Hr), (proj2 (Nat.ltb_lt _ _) Hc). cbn [andb ensure bind].
    rewrite vset_ok by (rewrite HL; exact Hr). cbn [bind].
    edestruct IH as (s' & E & E1 & E2 & E3 & E4).
    3:{ exists s'. split; [exact E|]. rewrite E1, E2. cbn [xs_side xs_vert]. split; auto. split; auto. split; [|exact E4].
        intros e. rewrite E3. cbn [xs_mat In]. tauto. }
    + split; cbn [xs_basis xs_mat]; [rewrite upd_length; exact HL|]. intros r' Hr'. rewrite vget_upd by (rewrite HL; exact Hr).
      destruct (r =? r') eqn:Er.
      * apply Nat.eqb_eq in Er. subst r'. exists true. split; auto. split; auto. intros _. left. exists c, w. left; auto.
      * destruct (HB r' Hr') as (b & Hb & Hb'). exists b. split; auto. rewrite Hb'. split.
        -- intros [(c' & w' & G)|G]; [left; exists c', w'; right; auto|auto].
        -- intros [(c' & w' & [[= -> _ _]|G])|G]; [rewrite Nat.eqb_refl in Er; discriminate|eauto|auto].
    + intros r' c' w' Hin; apply (He r' c' w'); right; auto.
Qed.

Lemma apush_ok s l zs es : AInv s l zs -> (forall a, In a es -> agood a) -> aclosed es ->
  exists s', dpush C (map conc es) s = Ok s' /\ xs_side s' = xs_side s /\ xs_vert s' = xs_vert s /\ AInv s' (l ++ es) zs.
Proof.
  intros (H1 & H2 & H3 & HZ & H4) Hg Hc.
  destruct (apush_basis (map conc es) s zs H4) as (s' & E & E1 & E2 & E3 & E4).
  { intros r c w Hin. apply in_map_iff in Hin. destruct Hin as ([[x y] w'] & [= <- <- <-] & Hin).
    apply (agood_row x y w'), Hg, Hin. }
  exists s'. split; [exact E|]. split; [exact E1|]. split; [exact E2|]. split; [|split; [|split; [|split]]]; auto.
  - intros e. rewrite E3, H1, map_app, in_app_iff. tauto.
  - intros a Ha. apply in_app_iff in Ha. destruct Ha; auto.
  - apply aclosed_app; auto.
Qed.

Lemma asetVert_ok s l zs P pc : AInv s l zs -> vmarks (xs_vert s) P -> fst pc < np ->
  exists s', setVert s pc = Ok s' /\ AInv s' l zs /\ xs_side s' = xs_side s /\ vmarks (xs_vert s') (fun c => c = pc \/ P c).
Proof.
  intros HI Hm Hp. unfold setVert. destruct (vmarks_set S0 _ _ pc Hm (np0 _ Hp)) as (l' & E & Hl). rewrite E. cbn [bind].
  eexists. split; [reflexivity|]. split; [exact HI|]. split; auto.
Qed.
Lemma asetSide_ok s l zs P ps : AInv s l zs -> smarks (xs_side s) P -> fst ps < np ->
  exists s', setSide s ps = Ok s' /\ AInv s' l zs /\ xs_vert s' = xs_vert s /\ smarks (xs_side s') (fun c => c = ps \/ P c).
Proof.
  intros HI Hm Hp. unfold setSide. destruct (smarks_set S0 _ _ ps Hm (np0 _ Hp)) as (l' & E & Hl). rewrite E. cbn [bind].
  eexists. split; [reflexivity|]. split; [exact HI|]. split; auto.
Qed.

(** ** marks without entries *)
Lemma check_ok s l zs r : AInv s l zs -> r < dcRows C -> (exists x, In x D /\ keptd x /\ r = ridx x) ->
  exists s', acCheck C s r = Ok s' /\ xs_side s' = xs_side s /\ xs_vert s' = xs_vert s /\ AInv s' l (zs ++ [r]).
Proof.
  intros (H1 & H2 & H3 & HZ & HL & HB) Hr Hx. unfold acCheck. rewrite vset_ok by (rewrite HL; exact Hr). cbn [bind].
  eexists. split; [reflexivity|]. split; auto. split; auto. split; [exact H1|]. split; auto. split; auto. split.
  - intros r' G. apply in_app_iff in G. destruct G as [G|[<-|[]]]; auto.
  - split; cbn [xs_basis xs_mat]; [rewrite upd_length; exact HL|]. intros r' Hr'. rewrite vget_upd by (rewrite HL; exact Hr).
    destruct (r =? r') eqn:Er.
    + apply Nat.eqb_eq in Er. subst r'. exists true. split; auto. split; auto. intros _. right. apply in_app_iff. right; left; auto.
    + destruct (HB r' Hr') as (b & Hb & Hb'). exists b. split; auto. rewrite Hb', in_app_iff. simpl. split; [tauto|].
      intros [G|[G|[->|[]]]]; auto. rewrite Nat.eqb_refl in Er. discriminate.
Qed.
(** a mark that is already there *)
Lemma recheck_ok s l zs r : AInv s l zs -> r < dcRows C -> (exists c w, In (r, c, w) (xs_mat s)) \/ In r zs ->
  exists s', acCheck C s r = Ok s' /\ xs_side s' = xs_side s /\ xs_vert s' = xs_vert s /\ AInv s' l zs.
Proof.
  intros (H1 & H2 & H3 & HZ & HL & HB) Hr Hx. unfold acCheck. rewrite vset_ok by (rewrite HL; exact Hr). cbn [bind].
  eexists. split; [reflexivity|]. split; auto. split; auto. split; [exact H1|]. split; auto. split; auto. split; auto.
  split; cbn [xs_basis xs_mat]; [rewrite upd_length; exact HL|]. intros r' Hr'. rewrite vget_upd by (rewrite HL; exact Hr).
  destruct (r =? r') eqn:Er; [|apply HB; auto]. apply Nat.eqb_eq in Er. subst r'. exists true. split; auto. split; auto.
Qed.

Definition free (x : dof) : bool := (0 <=? cmval m x)%Z.
Definition zrows (lx : list dof) : list nat := map ridx (filter free lx).

Lemma mark_ok2 s l zs r0 lx : AInv s l zs -> (forall x, In x lx -> In x D) -> (forall x, In x lx -> free x = true -> keptd x) ->
  exists s' r, acMark C s r0 lx = Ok (s', r) /\ xs_side s' = xs_side s /\ xs_vert s' = xs_vert s /\ xs_mat s' = xs_mat s /\
    AInv s' l (zs ++ zrows lx) /\ (r = r0 \/ In r (zrows lx)).
Proof.
  intros HI HD HK.
  destruct (foldM_inv (fun pre st => xs_side (fst st) = xs_side s /\ xs_vert (fst st) = xs_vert s /\ xs_mat (fst st) = xs_mat s /\
      AInv (fst st) l (zs ++ zrows pre) /\ (snd st = r0 \/ In (snd st) (zrows pre)))
    (fun (st : xstate * nat) (x : dof) =>
      if cis_free (dcMod C) (snd x) (fst x) then
        do r <- drow C (snd x) (fst x);
        do s <- acCheck C (fst st) r;
        Ok (s, r)
      else Ok st) lx (s, r0)) as ([s' r] & E & H).
  - unfold zrows. cbn [fst snd filter map]. rewrite app_nil_r. auto 10.
  - intros pre x post [s1 r1] El (E1 & E2 & E3 & HI1 & Hr). cbn [fst snd] in *.
    assert (In x lx) as Hx by (rewrite El; apply in_elt).
    assert (zrows (pre ++ [x]) = zrows pre ++ (if free x then [ridx x] else [])) as Ez.
    { unfold zrows. rewrite filter_app, map_app. cbn [filter]. destruct (free x); reflexivity. }
    unfold cis_free. replace (fst x, snd x) with x by (destruct x; reflexivity). fold (free x). cbn [dcMod DpProofs3.C]. fold (free x).
    destruct (free x) eqn:Ef.
    + rewrite arow_ok by auto. cbn [bind].
      destruct (check_ok s1 l (zs ++ zrows pre) (ridx x) HI1) as (s2 & F1 & F2 & F3 & F4).
      { apply (ridx_lt sizes m ES); auto. unfold free in Ef. lia. } { exists x. auto. }
      rewrite F1. cbn [bind]. eexists. split; [reflexivity|]. cbn [fst snd]. rewrite Ez, app_assoc. split; [congruence|]. split; [congruence|].
      split; [|split; [exact F4|right; apply in_app_iff; right; left; reflexivity]].
      unfold acCheck in F1. destruct (vset (xs_basis s1) (ridx x) true); [|discriminate]. injection F1 as <-. exact E3.
    + eexists. split; [reflexivity|]. cbn [fst snd]. rewrite Ez, app_nil_r. auto.
  - exists s', r. split; [exact E|]. exact H.
Qed.

(** ** entries written at a vertex *)
Definition nside (c : pcorner) (d : nat) : list aentry :=
  match dnext t (c, d) with Some _ => dart c d 1 | None => [self (dpt c d 1 0)] end.
Definition bdofs (c : pcorner) : list dof :=
  concat (map (fun d => match dnext t (c, d) with Some _ => [] | None => [dpt c d 1 0] end) [0; 1]).
Definition hents (c : pcorner) : list aentry :=
  match bdofs c with [x] => map (fun c' => (ridx x, B c' 0 0, half)) (cls c) | _ => [] end.

Definition avent (c : pcorner) : list aentry :=
  if inner c then
    self (B c 1 1) :: map (fun c' => (ridx (B c 1 1), B c' 0 0, (1 # Pos.of_nat (valence c))%Q)) (cls c) ++ concat [dart c 0 1; dart c 1 1]
  else if valence c =? 1 then map self [dpt c 0 0 0; dpt c 0 1 0; dpt c 1 1 0; dpt c 1 1 1]
  else if rc0 c then self (B c 1 1) :: concat [nside c 0; nside c 1] ++ [self (B c 0 0)]
  else if valence c =? 2 then concat (map (fun k => self (dpt c (idir c) k 1) :: dart c (idir c) k) [0; 1])
  else self (B c 1 1) :: concat [dart c 0 1; dart c 1 1] ++ map self (bdofs c) ++ hents c.

(** ... and rows marked without entries *)
Definition amk (c : pcorner) : list dof :=
  if inner c || half0 c then [B c 0 0] else if negb (valence c =? 1) && rc0 c then i1 c else [].

(** the five kinds of vertices *)
Inductive akind (c : pcorner) : Prop :=
| vk_inner : inner c = true -> akind c
| vk_one : inner c = false -> valence c = 1 -> akind c
| vk_sharp : inner c = false -> 2 <= valence c -> rc0 c = true -> akind c
| vk_flat : inner c = false -> valence c = 2 -> rc0 c = false -> akind c
| vk_half : inner c = false -> 3 <= valence c -> rc0 c = false -> half0 c = true -> akind c.
Lemma akind_of (c : pcorner) : fst c < np -> akind c.
Proof.
  intros H. pose proof (RingProofs3.valence_pos I RI c H). destruct (inner c) eqn:Hi; [apply vk_inner; auto|].
  destruct (Nat.eq_dec (valence c) 1); [apply vk_one; auto|]. destruct (rc0 c) eqn:Hc; [apply vk_sharp; auto; lia|].
  destruct (Nat.eq_dec (valence c) 2); [apply vk_flat; auto|]. apply vk_half; auto; [lia|]. unfold AcProofs.half0. rewrite Hi, Hc.
  assert (2 <? valence c = true) as -> by lia. reflexivity.
Qed.

Lemma adart_good (c : pcorner) d k (c' : pcorner) d' : fst c < np -> dnext t (c, d) = Some (c', d') -> adart c d k ->
  In (dpt c d k 1) D /\ own (dpt c d k 1) /\ agood (ridx (dpt c d k 1), dpt c d k 0, half) /\ agood (ridx (dpt c d k 1), dpt c' d' k 0, half).
Proof.
  intros Hc Hn Hk. destruct (dnext_np DI RI _ _ _ _ Hn) as [_ Hc']. pose proof (dnext_dir t _ _ _ Hn) as Hd'. pose proof (proj1 Hk) as Hd.
  pose proof (adart_lt DI RI c d k Hk) as Hk2. pose proof (adart_cls DI RI c d c' d' k Hc Hn Hk) as Hk'.
  assert (ifl c d = true) as F by (apply (ifl_dnext DI); eauto).
  assert (dnext t (c', d') = Some (c, d)) as Hn' by (apply (dnext_sym t Hcons); auto).
  assert (ifl c' d' = true) as F' by (apply (ifl_dnext DI); eauto).
  split; [apply (dpt_in DI RI); auto|]. split; [apply (dart_own DI RI m V); auto|]. split.
  - split; [apply (dpt_in DI RI); auto|]. destruct (dart_avg DI RI m c d k Hk F) as (a & e & Ha & He & EB & Hav & EP).
    exists (nearP DI m c a e). split; [rewrite EB; apply ak_near; auto|]. rewrite EP by auto. unfold dartP. rewrite Hn. left; auto.
  - split; [apply (dpt_in DI RI); auto|]. destruct (dart_avg DI RI m c' d' k Hk' F') as (a & e & Ha & He & EB & Hav & EP).
    exists (nearP DI m c' a e). split; [rewrite EB; apply ak_near; auto|]. rewrite EP by auto. unfold dartP. rewrite Hn'. right; left; auto.
Qed.
Lemma adart1_good (c : pcorner) d a : fst c < np -> d < 2 -> In a (dart c d 1) -> agood a.
Proof.
  intros Hc Hd Ha. unfold DpProofs3.dart in Ha. destruct (dnext t (c, d)) as [[c' d']|] eqn:E; [|contradiction].
  destruct (adart_good c d 1 c' d') as (G0 & G1 & G2 & G3); auto; [split; auto|]. destruct Ha as [<-|[<-|[]]]; auto.
Qed.
Lemma dart1_row (c : pcorner) d r y w : In (r, y, w) (dart c d 1) -> r = ridx (B c 1 1).
Proof.
  unfold DpProofs3.dart. destruct (dnext t (c, d)) as [[c' d']|]; [|intros []]. rewrite dpt11. intros [[= <- _ _]|[[= <- _ _]|[]]]; auto.
Qed.
Lemma bdofs_in (c : pcorner) x : In x (bdofs c) <-> exists d, d < 2 /\ dnext t (c, d) = None /\ x = dpt c d 1 0.
Proof.
  unfold bdofs. cbn [map concat]. rewrite app_nil_r, in_app_iff. split.
  - intros [G|G]; [exists 0|exists 1]; (split; [lia|]); destruct (dnext t (c, _)); try contradiction; destruct G as [<-|[]]; auto.
  - intros (d & Hd & Hn & ->). destruct d as [|[|]]; [left|right|lia]; rewrite Hn; left; auto.
Qed.
Lemma bdofs_own (c : pcorner) x : fst c < np -> In x (bdofs c) -> In x D /\ own x.
Proof.
  intros Hc Hx. apply bdofs_in in Hx. destruct Hx as (d & Hd & Hn & ->). split; [apply (dpt_in DI RI); auto|apply (boundary_own DI RI m V); auto].
Qed.
Lemma bdofs_one (c : pcorner) d : fst c < np -> 2 <= valence c -> d < 2 -> dnext t (c, d) = None -> bdofs c = [dpt c d 1 0].
Proof.
  intros Hc Hv Hd Hn. destruct (val2_iface t Hcons c (proj2 (rvalidc c) Hc) Hv) as [F|F]; apply (ifl_dnext DI) in F; destruct F as (c' & d' & F);
    unfold bdofs; cbn [map concat]; (destruct d as [|[|]]; [| |lia]); try congruence; rewrite F, Hn; reflexivity.
Qed.
Lemma bdofs_len (c : pcorner) : fst c < np -> 2 <= valence c -> length (bdofs c) < 2.
Proof.
  intros Hc Hv. destruct (val2_iface t Hcons c (proj2 (rvalidc c) Hc) Hv) as [F|F]; apply (ifl_dnext DI) in F; destruct F as (c' & d' & F);
    unfold bdofs; cbn [map concat]; rewrite F; [destruct (dnext t (c, 1))|destruct (dnext t (c, 0))]; cbn [app length]; lia.
Qed.
Lemma corner_own (c : pcorner) a e : fst c < np -> inner c = false -> valence c = 1 -> a < 2 -> e < 2 -> own (B c a e).
Proof.
  intros H Hi Hv Ha He. apply (own_near DI RI m V); auto. unfold AcProofs.avg, AcProofs.half0, AcProofs.flat2. rewrite Hi, Hv.
  rewrite !(val1_boundary t Hcons c _ (proj2 (rvalidc c) H)) by auto. rewrite !andb_false_r. destruct ((a =? 0) && (e =? 0)); reflexivity.
Qed.
Lemma sharp_own (c : pcorner) : fst c < np -> inner c = false -> rc0 c = true -> own (B c 0 0).
Proof.
  intros H Hi Hc. apply (own_near DI RI m V); auto. unfold AcProofs.avg, AcProofs.half0, AcProofs.flat2. rewrite Hi, Hc. rewrite !andb_false_r. reflexivity.
Qed.
Lemma nside_good (c : pcorner) d r y w : fst c < np -> d < 2 -> In (r, y, w) (nside c d) ->
  agood (r, y, w) /\ (r = ridx (B c 1 1) \/ exists x, (r, y, w) = self x /\ In x D /\ own x).
Proof.
  intros Hc Hd Ha. unfold nside in Ha. destruct (dnext t (c, d)) eqn:En.
  - split; [apply (adart1_good c d); auto|left; eapply dart1_row; eauto].
  - destruct Ha as [<-|[]]. assert (In (dpt c d 1 0) D) as Dx by (apply (dpt_in DI RI); auto).
    pose proof (boundary_own DI RI m V c d Hc Hd En) as Ox. split; [apply agood_self; auto|]. right. eauto.
Qed.
Lemma hents_in (c : pcorner) r y w : In (r, y, w) (hents c) -> exists x c', bdofs c = [x] /\ In c' (cls c) /\ r = ridx x /\ y = B c' 0 0 /\ w = half.
Proof.
  unfold hents. destruct (bdofs c) as [|x [|]] eqn:E; try (intros []; fail). intros G. apply in_map_iff in G.
  destruct G as (c' & [= <- <- <-] & Hc'). exists x, c'. auto.
Qed.

Lemma avent_good (c : pcorner) a : fst c < np -> In a (avent c) -> agood a.
Proof.
  intros Hc Ha. pose proof (proj2 (rvalidc c) Hc) as Hv. unfold avent in Ha. destruct a as [[r y] w].
  assert (agood (self (B c 1 1))) as G11 by (apply agood_self; [apply (B_in I RI); auto|apply (own11 DI RI m V); auto]).
  destruct (akind_of c Hc) as [Hi|Hi E1|Hi E2 Hz|Hi E2 Hz|Hi E2 Hz Hh]; rewrite Hi in Ha.
  - cbn [concat] in Ha. rewrite app_nil_r in Ha. cbn [In] in Ha. rewrite !in_app_iff in Ha.
    destruct Ha as [<-|[Ha|[Ha|Ha]]]; try (apply adart1_good in Ha; auto; fail); [exact G11|].
    apply in_map_iff in Ha. destruct Ha as (c' & [= <- <- <-] & Hc'). pose proof (rcls_valid I RI c c' Hc Hc') as Hp'.
    assert (inner c' = true) as Hi' by (rewrite (inner_cls t Hcons c c'); auto).
    split; [apply (B_in I RI); auto|]. exists (nearP DI m c' 0 0). split; [apply ak_near; auto; unfold AcProofs.avg; rewrite Hi'; reflexivity|].
    unfold nearP. rewrite Hi'. cbn [Nat.eqb andb].
    rewrite (valence_cls t Hcons c c') by auto. apply in_map_iff. exists c. split; auto. apply (in_cls_sym t Hcons); auto.
  - rewrite E1 in Ha. cbn [Nat.eqb] in Ha. apply in_map_iff in Ha. destruct Ha as (x & <- & Hx).
    simpl in Hx. repeat (destruct Hx as [<-|Hx]); try contradiction; (apply agood_self; [apply (B_in I RI); auto|apply corner_own; auto]).
  - assert (valence c =? 1 = false) as E by lia. rewrite E, Hz in Ha. cbn [concat] in Ha. rewrite app_nil_r in Ha. cbn [In] in Ha. rewrite !in_app_iff in Ha.
    destruct Ha as [<-|[[Ha|Ha]|[<-|[]]]]; [exact G11|apply nside_good in Ha; auto; tauto|apply nside_good in Ha; auto; tauto|].
    apply agood_self; [apply (B_in I RI); auto|apply sharp_own; auto].
  - rewrite E2, Hz in Ha. cbn [Nat.eqb] in Ha. destruct (idir_next DI RI c Hc ltac:(lia)) as (c' & d' & En & Hd).
    apply in_concat in Ha. destruct Ha as (l & Hl & Ha). apply in_map_iff in Hl. destruct Hl as (k & <- & Hk).
    assert (adart c (idir c) k) as Ka.
    { split; auto. destruct Hk as [<-|[<-|[]]]; [right; split; auto; apply (flat2_iff DI RI); auto|left; auto]. }
    destruct (adart_good c (idir c) k c' d' Hc En Ka) as (G0 & G1 & G2 & G3).
    unfold DpProofs3.dart in Ha. rewrite En in Ha. destruct Ha as [<-|[<-|[<-|[]]]]; auto. apply agood_self; auto.
  - assert (valence c =? 1 = false) as E by lia. assert (valence c =? 2 = false) as E' by lia. rewrite E, E', Hz in Ha.
    cbn [concat] in Ha. rewrite app_nil_r in Ha. cbn [In] in Ha. rewrite !in_app_iff in Ha.
    destruct Ha as [<-|[[Ha|Ha]|[Ha|Ha]]]; [exact G11|apply adart1_good in Ha; auto|apply adart1_good in Ha; auto| |].
    + apply in_map_iff in Ha. destruct Ha as (x & <- & Hx). destruct (bdofs_own c x Hc Hx). apply agood_self; auto.
    + apply hents_in in Ha. destruct Ha as (x & c' & Eb & Hc' & -> & -> & ->). pose proof (rcls_valid I RI c c' Hc Hc') as Hp'.
      destruct (half0_cls I RI c c' Hc Hc') as (Eh & _). rewrite Hh in Eh.
      split; [apply (B_in I RI); auto|]. exists (nearP DI m c' 0 0).
      split; [apply ak_near; auto; unfold AcProofs.avg; rewrite Eh; cbn [Nat.eqb andb]; rewrite orb_true_r; reflexivity|].
      unfold nearP. rewrite Eh, (half_not_inner DI c' Eh). cbn [Nat.eqb andb].
      assert (In x (bdofs c)) as Hx by (rewrite Eb; left; auto). apply bdofs_in in Hx. destruct Hx as (d & Hd & Hn & ->).
      apply in_map_iff. exists (c, d). split; auto. apply in_bdarts. split; [apply (in_cls_sym t Hcons); auto|auto].
Qed.

Lemma avent_closed (c : pcorner) : fst c < np -> aclosed (avent c).
Proof.
  intros Hc. pose proof (proj2 (rvalidc c) Hc) as Hv. apply aclosed_of. intros r y w Ha. unfold avent in *.
  assert (In (B c 1 1) D) as D11 by (apply (B_in I RI); auto). pose proof (own11 DI RI m V c Hc) as O11.
  destruct (akind_of c Hc) as [Hi|Hi E1|Hi E2 Hz|Hi E2 Hz|Hi E2 Hz Hh]; rewrite Hi in *.
  - exists (B c 1 1). split; auto. assert (r = ridx (B c 1 1)) as Er; [|split; auto; split; auto; left; reflexivity].
    cbn [concat] in Ha. rewrite app_nil_r in Ha. cbn [In] in Ha. rewrite !in_app_iff in Ha.
    destruct Ha as [[= <- _ _]|[Ha|[Ha|Ha]]]; auto; try (eapply dart1_row; eauto; fail).
    apply in_map_iff in Ha. destruct Ha as (c' & [= <- _ _] & _). reflexivity.
  - rewrite E1 in *. cbn [Nat.eqb] in *. apply in_map_iff in Ha. destruct Ha as (x & [= <- <- <-] & Hx). exists x.
    assert (exists a e, a < 2 /\ e < 2 /\ x = B c a e) as (a & e & A1 & A2 & ->).
    { destruct Hx as [<-|[<-|[<-|[<-|[]]]]]; [exists 0, 0|exists 0, 1|exists 1, 0|exists 1, 1]; auto. }
    split; [apply (B_in I RI); auto|]. split; auto. split; [apply corner_own; auto|]. apply in_map. exact Hx.
  - assert (valence c =? 1 = false) as E by lia. rewrite E, Hz in *. pose proof Ha as Ha0. cbn [concat] in Ha. rewrite app_nil_r in Ha. cbn [In] in Ha. rewrite !in_app_iff in Ha.
    assert (r = ridx (B c 1 1) \/ exists x, (r, y, w) = self x /\ In x D /\ own x) as [->|(x & Ex & Dx & Ox)].
    { destruct Ha as [[= <- _ _]|[[Ha|Ha]|[Ha|[]]]]; [left; auto|apply nside_good in Ha; auto; tauto|apply nside_good in Ha; auto; tauto|].
      right. exists (B c 0 0). split; auto. split; [apply (B_in I RI); auto|apply sharp_own; auto]. }
    + exists (B c 1 1). split; auto. split; auto. split; auto. left; reflexivity.
    + exists x. split; auto. rewrite Ex in Ha0. injection Ex as -> -> ->. auto.
  - rewrite E2, Hz in *. cbn [Nat.eqb] in *. destruct (idir_next DI RI c Hc ltac:(lia)) as (c' & d' & En & Hd).
    apply in_concat in Ha. destruct Ha as (l & Hl & Ha). pose proof Hl as Hl'. apply in_map_iff in Hl. destruct Hl as (k & <- & Hk).
    assert (adart c (idir c) k) as Ka.
    { split; auto. destruct Hk as [<-|[<-|[]]]; [right; split; auto; apply (flat2_iff DI RI); auto|left; auto]. }
    destruct (adart_good c (idir c) k c' d' Hc En Ka) as (G0 & G1 & _).
    exists (dpt c (idir c) k 1). split; auto.
    unfold DpProofs3.dart in *. rewrite En in *. split; [destruct Ha as [[= <- _ _]|[[= <- _ _]|[[= <- _ _]|[]]]]; auto|].
    split; auto. apply in_concat. eexists. split; [exact Hl'|]. left; reflexivity.
  - assert (valence c =? 1 = false) as E by lia. assert (valence c =? 2 = false) as E' by lia. rewrite E, E', Hz in *.
    cbn [concat] in *. rewrite app_nil_r in *. cbn [In] in *. rewrite !in_app_iff in *.
    assert (r = ridx (B c 1 1) \/ exists x, In x (bdofs c) /\ r = ridx x) as [->|(x & Hx & ->)].
    { destruct Ha as [[= <- _ _]|[[Ha|Ha]|[Ha|Ha]]]; [auto|left; eapply dart1_row; eauto|left; eapply dart1_row; eauto| |].
      - apply in_map_iff in Ha. destruct Ha as (x & [= <- _ _] & Hx). eauto.
      - apply hents_in in Ha. destruct Ha as (x & c' & Eb & _ & -> & _). right. exists x. rewrite Eb. split; auto. left; auto. }
    + exists (B c 1 1). auto 10.
    + destruct (bdofs_own c x Hc Hx). exists x. split; auto. split; auto. split; auto. right. apply in_app_iff. right. apply in_app_iff. left. apply in_map. exact Hx.
Qed.

Lemma amk_D (c : pcorner) x : fst c < np -> In x (amk c) -> In x D /\ exists a e, a < 2 /\ e < 2 /\ x = B c a e /\ avg c a e = true.
Proof.
  intros Hc Hx. unfold amk in Hx. destruct (inner c || half0 c) eqn:E.
  - destruct Hx as [<-|[]]. split; [apply (B_in I RI); auto|]. exists 0, 0. split; auto. split; auto. split; auto. unfold AcProofs.avg. simpl. rewrite E. reflexivity.
  - destruct (negb (valence c =? 1) && rc0 c); [|contradiction]. apply (in_i1_iff I RI) in Hx. destruct Hx as (a & e & Ha & He & -> & E1 & E2).
    split; [apply (B_in I RI); auto|]. exists a, e. split; auto. split; auto. split; auto. unfold AcProofs.avg. rewrite E1. exact E2.
Qed.
Lemma amk_kept (c : pcorner) x : fst c < np -> In x (amk c) -> free x = true -> keptd x.
Proof.
  intros Hc Hx Hf. destruct (amk_D c x Hc Hx) as (Dx & a & e & Ha & He & -> & Hav). pose proof (near_le DI RI m V c a e Hc Ha He) as L.
  unfold free in Hf. split; [lia|]. exists c, a, e. auto 6.
Qed.
Lemma kept_amk x : keptd x -> exists c, fst c < np /\ In x (amk c) /\ free x = true.
Proof.
  intros (Z0 & c & a & e & Hc & Ha & He & -> & Hav). exists c. split; auto. split; [|unfold free; lia].
  pose proof (av_near I m V c Hc a e Ha He) as G. unfold aelb in G. rewrite Hav in G. cbn [andb] in G.
  destruct (kept I c a e) eqn:K; cbn [negb] in G; [|lia]. unfold AcProofs.avg in Hav. unfold kept in K. unfold amk.
  destruct ((a =? 0) && (e =? 0)) eqn:Eae.
  - assert (a = 0) as -> by lia. assert (e = 0) as -> by lia. apply andb_prop in K. destruct K as [K _].
    assert (inner c || half0 c = true) as ->; [|left; auto]. destruct (inner c); auto.
  - apply andb_prop in K. destruct K as [K _]. unfold AcProofs.sharp2 in K. unfold AcProofs.half0. destruct (inner c); [discriminate|]. cbn [negb andb orb] in *.
    destruct (rc0 c) eqn:Hz; [|rewrite andb_false_r in K; discriminate]. rewrite andb_false_r.
    assert (valence c =? 1 = false) as -> by lia. cbn [negb andb]. apply (in_i1_iff I RI). exists a, e. auto 6.
Qed.

(** ** handlers of vertices *)
Notation dnext_model := (dnext_model DI RI).
Lemma afinish s l zs P (c : pcorner) es : AInv s l zs -> vmarks (xs_vert s) P -> fst c < np -> es = map conc (avent c) ->
  exists s', (do s <- dpush C es s; setVert s c) = Ok s' /\ AInv s' (l ++ avent c) zs /\
    xs_side s' = xs_side s /\ vmarks (xs_vert s') (fun x => P x \/ In x [c]).
Proof.
  intros HI Hm Hp ->. destruct (apush_ok s l zs (avent c) HI) as (s1 & E1 & E2 & E3 & HI1).
  { intros a Ha. apply (avent_good c); auto. } { apply avent_closed; auto. }
  rewrite E1. cbn [bind]. rewrite <- E3 in Hm.
  destruct (asetVert_ok s1 _ _ P c HI1 Hm Hp) as (s2 & F1 & F2 & F3 & F4).
  exists s2. split; auto. split; auto. split; [congruence|]. revert F4. apply marks_ext. intros a _. simpl. intuition.
Qed.

Definition vdone (s : xstate) (l : list aentry) (zs : list nat) (P : pcorner -> Prop) (c : pcorner) (r : res xstate) : Prop :=
  exists s', r = Ok s' /\ AInv s' (l ++ avent c) (zs ++ zrows (amk c)) /\ xs_side s' = xs_side s /\ vmarks (xs_vert s') (fun x => P x \/ In x [c]).
Lemma vdone_nomark s l zs P c r : amk c = [] ->
  (exists s', r = Ok s' /\ AInv s' (l ++ avent c) zs /\ xs_side s' = xs_side s /\ vmarks (xs_vert s') (fun x => P x \/ In x [c])) -> vdone s l zs P c r.
Proof. intros E H. unfold vdone. rewrite E. cbn [zrows filter map]. rewrite app_nil_r. exact H. Qed.
Lemma vdone_mark s l zs P (c : pcorner) r0 lx s1 : fst c < np -> lx = amk c ->
  AInv s1 (l ++ avent c) zs -> xs_side s1 = xs_side s -> vmarks (xs_vert s1) (fun x => P x \/ In x [c]) ->
  vdone s l zs P c (do st <- acMark C s1 r0 lx; Ok (fst st)).
Proof.
  intros Hp -> HI E1 HM. destruct (mark_ok2 s1 _ zs r0 (amk c) HI) as (s' & r & F1 & F2 & F3 & F4 & F5 & F6).
  { intros x Hx. apply (amk_D c x Hp Hx). } { intros x Hx. apply (amk_kept c); auto. }
  rewrite F1. cbn [bind fst]. exists s'. split; auto. split; auto. split; [congruence|]. rewrite F3. exact HM.
Qed.

Lemma acorner_ok s l zs P (c : pcorner) : AInv s l zs -> vmarks (xs_vert s) P -> fst c < np -> inner c = false -> valence c = 1 ->
  vdone s l zs P c (dRegularCorner C s c).
Proof.
  intros HI Hm Hp Hi H1. apply vdone_nomark.
  { unfold amk, AcProofs.half0. rewrite Hi, H1. reflexivity. }
  unfold dRegularCorner. rewrite !(difv_ok DI RI m) by (auto; lia). cbn [bind].
  rewrite (mapM_ok _ (fun i => (ridx (fst c, i), cidx (fst c, i), 1%Q))).
  - cbn [bind]. apply afinish; auto. unfold avent. rewrite Hi, H1. reflexivity.
  - intros i Hi'. assert (In (fst c, i) D) as Hx.
    { simpl in Hi'. repeat (destruct Hi' as [<-|Hi']; [apply (B_in I RI); auto|]). contradiction. }
    rewrite arow_pi by auto. cbn [bind]. rewrite acol_pi by auto. reflexivity.
Qed.

Lemma aflat_ok s l zs P (c : pcorner) : AInv s l zs -> vmarks (xs_vert s) P -> fst c < np -> inner c = false -> valence c = 2 -> rc0 c = false ->
  vdone s l zs P c (dRegularBoundary [0; 1] C s c).
Proof.
  intros HI Hm Hp Hi H2 Hz. apply vdone_nomark.
  { unfold amk, AcProofs.half0. rewrite Hi, H2, Hz. reflexivity. }
  unfold dRegularBoundary. change (dtopo C) with t.
  change (isInterface t (fst c, cside (snd c) 0)) with (ifl c 0).
  assert ((if ifl c 0 then cside (snd c) 0 else cside (snd c) 1) = cside (snd c) (idir c)) as -> by (unfold DpProofs3.idir; destruct (ifl c 0); reflexivity).
  destruct (idir_next DI RI c Hp ltac:(lia)) as (c' & d' & En & Hd).
  destruct (dnext_model _ _ _ _ En) as (f & ps' & F1 & F2 & F3 & F4 & F5). rewrite F1, F2. cbn [bind]. rewrite F3. cbn [bind].
  destruct (dnext_np DI RI _ _ _ _ En) as [_ Hp']. pose proof (dnext_dir t _ _ _ En) as Hd'.
  rewrite (mapM_ok _ (fun k => map conc (self (dpt c (idir c) k 1) :: dart c (idir c) k))).
  - cbn [bind]. apply afinish; auto. unfold avent. rewrite Hi, H2, Hz. cbn [Nat.eqb]. rewrite concat_map, map_map. reflexivity.
  - intros k Hk. assert (k < 2) as Hk2 by (destruct Hk as [<-|[<-|[]]]; lia).
    assert (forall o, o < 2 -> In (dpt c (idir c) k o) D) as D1 by (intros; apply (dpt_in DI RI); auto).
    assert (forall o, o < 2 -> In (dpt c' d' k o) D) as D2 by (intros; apply (dpt_in DI RI); auto).
    rewrite !(difv_ok DI RI m) by (auto; lia). cbn [bind]. rewrite F5, (difv_ok DI RI m) by (auto; lia). cbn [bind].
    rewrite arow_ok by (auto; apply fst_dpt). cbn [bind]. rewrite !acol_ok by (rewrite ?F4; auto; apply fst_dpt). cbn [bind].
    unfold DpProofs3.dart. rewrite En. reflexivity.
Qed.

Lemma halves_ok (c : pcorner) d (c' : pcorner) d' : fst c < np -> d < 2 -> dnext t (c, d) = Some (c', d') ->
  acHalves C c (ridx (B c 1 1)) (cside (snd c) d) = Ok (map conc (dart c d 1)).
Proof.
  intros Hp Hd En. unfold acHalves. change (dtopo C) with t.
  destruct (dnext_model _ _ _ _ En) as (f & ps' & F1 & F2 & F3 & F4 & F5).
  destruct (dnext_np DI RI _ _ _ _ En) as [_ Hp']. pose proof (dnext_dir t _ _ _ En) as Hd'.
  unfold getNeighbour. rewrite F1, F2. cbn [bind]. rewrite F3. cbn [bind]. rewrite !(difv_ok DI RI m) by (auto; lia). cbn [bind].
  rewrite F5, (difv_ok DI RI m) by (auto; lia). cbn [bind].
  rewrite !acol_ok by (rewrite ?F4; auto; try apply fst_dpt; apply (dpt_in DI RI); auto). cbn [bind].
  unfold DpProofs3.dart. rewrite En, dpt11. reflexivity.
Qed.

Lemma ainner_ok s l zs P (c : pcorner) : AInv s l zs -> vmarks (xs_vert s) P -> fst c < np -> inner c = true ->
  vdone s l zs P c (acInteriorVertex C s c (valence c)).
Proof.
  intros HI Hm Hp Hi. pose proof (proj2 (rvalidc c) Hp) as Hv. unfold acInteriorVertex.
  assert (In (B c 1 1) D) as D11 by (apply (B_in I RI); auto).
  assert (exists s', dInteriorVertex C s c (valence c) = Ok s' /\ AInv s' (l ++ avent c) zs /\ xs_side s' = xs_side s /\ vmarks (xs_vert s') (fun x => P x \/ In x [c])) as (s1 & -> & HI1 & HS1 & HM1).
  { unfold dInteriorVertex. change (dtopo C) with t.
    rewrite (difv_ok DI RI m) by (auto; lia). cbn [bind]. rewrite dpt11. rewrite arow_ok by auto. cbn [bind]. rewrite acol_ok by auto. cbn [bind].
    rewrite (cornerList_cls t Hcons c Hv). cbn [bind].
    rewrite (mapM_ok _ (fun c' => conc (ridx (B c 1 1), B c' 0 0, (1 # Pos.of_nat (valence c))%Q))).
    2:{ intros c' Hc'. pose proof (rcls_valid I RI c c' Hp Hc') as Hp'. cbn [dcI DpProofs3.C]. rewrite (rbas_get I RI) by auto. cbn [bind].
        rewrite rcorner_blk by (apply (rbas_like I RI); auto).
        change (rblk (rbas (fst c')) (snd c') 0 0) with (snd (B c' 0 0)). rewrite acol_ok by (auto; apply (B_in I RI); auto). reflexivity. }
    cbn [bind]. rewrite (mapM_ok _ (fun sd => map conc (dart c (side_dir sd) 1))).
    - cbn [bind]. apply afinish; auto. unfold avent. rewrite Hi. cbn [map]. f_equal. rewrite map_app, map_map. f_equal.
      unfold containing_sides. cbn [map concat]. rewrite !side_dir_cside by lia. rewrite !map_app, !app_nil_r. reflexivity.
    - intros sd Hsd. assert (exists d, d < 2 /\ sd = cside (snd c) d) as (d & Hd & ->).
      { unfold containing_sides in Hsd. destruct Hsd as [<-|[<-|[]]]; eauto. }
      rewrite side_dir_cside by auto.
      pose proof (inner_iface t Hcons c d Hv Hi) as Hif. apply (ifl_dnext DI) in Hif. destruct Hif as (c' & d' & En).
      pose proof (halves_ok c d c' d' Hp Hd En) as HH. unfold acHalves in HH. change (dtopo C) with t in HH.
      destruct (dnext_model _ _ _ _ En) as (f & ps' & F1 & _). rewrite F1 in *. exact HH. }
  cbn [bind dcI DpProofs3.C]. unfold rInterfaceIndices. rewrite (rbas_get I RI) by auto. cbn [bind Nat.eqb]. rewrite rcorner_blk by (apply (rbas_like I RI); auto).
  apply (vdone_mark s l zs P c 0 _ s1); auto. unfold amk. rewrite Hi. reflexivity.
Qed.

Lemma i1_ok (c : pcorner) : fst c < np -> rInterfaceIndices I c 1 = Ok (i1 c).
Proof.
  intros Hp. unfold rInterfaceIndices. rewrite (rbas_get I RI) by exact Hp.
  cbn [bind Nat.eqb containing_sides flat_map]. rewrite !(isBoundary_ifl I RI) by exact Hp. rewrite app_nil_r. unfold RingProofs2.i1.
  rewrite (rifv_blk1 (rbas (fst c)) (rbas_like I RI _ Hp) (snd c) 1 0) by lia.
  f_equal. destruct (ifl c 0), (ifl c 1); reflexivity.
Qed.

Lemma asharp_ok s l zs P (c : pcorner) : AInv s l zs -> vmarks (xs_vert s) P -> fst c < np -> inner c = false -> 2 <= valence c -> rc0 c = true ->
  vdone s l zs P c (acNonSmooth C s c).
Proof.
  intros HI Hm Hp Hi H2 Hz. unfold acNonSmooth.
  assert (In (B c 1 1) D) as D11 by (apply (B_in I RI); auto). assert (In (B c 0 0) D) as D00 by (apply (B_in I RI); auto).
  assert (exists s', bNonSmooth C s c = Ok s' /\ AInv s' (l ++ avent c) zs /\ xs_side s' = xs_side s /\ vmarks (xs_vert s') (fun x => P x \/ In x [c])) as (s1 & -> & HI1 & HS1 & HM1).
  { unfold bNonSmooth. rewrite (difv_ok DI RI m) by (auto; lia). cbn [bind]. rewrite dpt11. rewrite arow_ok by auto. cbn [bind]. rewrite acol_ok by auto. cbn [bind].
    rewrite (mapM_ok _ (fun sd => map conc (nside c (side_dir sd)))).
    - cbn [bind]. rewrite (difv_ok DI RI m) by (auto; lia). cbn [bind]. rewrite dpt00, arow_ok by auto. cbn [bind]. rewrite acol_ok by auto. cbn [bind].
      apply afinish; auto. unfold avent. assert (valence c =? 1 = false) as -> by lia. rewrite Hi, Hz. cbn [map]. f_equal. rewrite map_app. f_equal.
      unfold containing_sides. cbn [map concat]. rewrite !side_dir_cside by lia. rewrite !map_app, !app_nil_r. reflexivity.
    - intros sd Hsd. assert (exists d, d < 2 /\ sd = cside (snd c) d) as (d & Hd & ->).
      { unfold containing_sides in Hsd. destruct Hsd as [<-|[<-|[]]]; eauto. }
      rewrite side_dir_cside by auto. change (dtopo C) with t. unfold nside. destruct (dnext t (c, d)) as [[c' d']|] eqn:En.
      + destruct (dnext_model _ _ _ _ En) as (f & ps' & F1 & _). rewrite F1. apply (halves_ok c d c' d'); auto.
      + rewrite (dnext_none_model DI c d En). rewrite (difv_ok DI RI m) by (auto; lia). cbn [bind].
        rewrite arow_ok by (auto; try apply fst_dpt; apply (dpt_in DI RI); auto). cbn [bind].
        rewrite acol_ok by (auto; try apply fst_dpt; apply (dpt_in DI RI); auto). reflexivity. }
  cbn [bind dcI DpProofs3.C]. rewrite (i1_ok c Hp). cbn [bind].
  apply (vdone_mark s l zs P c 0 _ s1); auto. unfold amk, AcProofs.half0. assert (valence c =? 1 = false) as -> by lia. rewrite Hi, Hz, andb_false_r. reflexivity.
Qed.

Lemma ahalf_ok s l zs P (c : pcorner) : AInv s l zs -> vmarks (xs_vert s) P -> fst c < np -> inner c = false -> 3 <= valence c -> rc0 c = false -> half0 c = true ->
  vdone s l zs P c (acSmooth C s c).
Proof.
  intros HI Hm Hp Hi H3 Hz Hh. pose proof (proj2 (rvalidc c) Hp) as Hv. unfold acSmooth. change (dtopo C) with t.
  assert (In (B c 1 1) D) as D11 by (apply (B_in I RI); auto). rewrite (cornerList_cls t Hcons c Hv). cbn [bind].
  rewrite (difv_ok DI RI m) by (auto; lia). cbn [bind]. rewrite dpt11. rewrite arow_ok by auto. cbn [bind]. rewrite acol_ok by auto. cbn [bind].
  assert (forall sd, In sd (containing_sides (snd c)) -> exists d, d < 2 /\ sd = cside (snd c) d) as Hsides.
  { intros sd Hsd. unfold containing_sides in Hsd. destruct Hsd as [<-|[<-|[]]]; eauto. }
  rewrite (mapM_ok _ (fun sd => map conc (dart c (side_dir sd) 1))).
  2:{ intros sd Hsd. destruct (Hsides sd Hsd) as (d & Hd & ->). rewrite side_dir_cside by auto.
      change (isInterface t (fst c, cside (snd c) d)) with (ifl c d).
      destruct (dnext t (c, d)) as [[c' d']|] eqn:En.
      - assert (ifl c d = true) as -> by (apply (ifl_dnext DI); eauto). apply (halves_ok c d c' d'); auto.
      - destruct (ifl c d) eqn:F; [apply (ifl_dnext DI) in F; destruct F as (? & ? & F); congruence|]. unfold DpProofs3.dart. rewrite En. reflexivity. }
  cbn [bind]. rewrite (mapM_ok _ (fun c' => (snd (B c' 0 0), fst c'))).
  2:{ intros c' Hc'. pose proof (rcls_valid I RI c c' Hp Hc') as Hp'. cbn [dcI DpProofs3.C]. rewrite (rbas_get I RI) by auto. cbn [bind].
      rewrite rcorner_blk by (apply (rbas_like I RI); auto). reflexivity. }
  cbn [bind]. rewrite (mapM_ok _ (fun sd => map (fun x => (ridx x, cidx x)) (match dnext t (c, side_dir sd) with Some _ => [] | None => [dpt c (side_dir sd) 1 0] end))).
  2:{ intros sd Hsd. destruct (Hsides sd Hsd) as (d & Hd & ->). rewrite side_dir_cside by auto. destruct (dnext t (c, d)) as [[c' d']|] eqn:En.
      - destruct (dnext_model _ _ _ _ En) as (f & ps' & F1 & _). rewrite F1. reflexivity.
      - rewrite (dnext_none_model DI c d En). rewrite (difv_ok DI RI m) by (auto; lia). cbn [bind].
        rewrite arow_ok by (auto; try apply fst_dpt; apply (dpt_in DI RI); auto). cbn [bind].
        rewrite acol_ok by (auto; try apply fst_dpt; apply (dpt_in DI RI); auto). reflexivity. }
  cbn [bind].
  match goal with |- context [concat (map ?g (containing_sides (snd c)))] =>
    match g with fun sd => map (fun x => (_, _)) _ => assert (concat (map g (containing_sides (snd c))) = map (fun x => (ridx x, cidx x)) (bdofs c)) as Erows end end.
  { unfold containing_sides, bdofs. cbn [map concat]. rewrite !side_dir_cside by lia. rewrite !map_app, !app_nil_r. reflexivity. }
  rewrite Erows. clear Erows. rewrite map_length. pose proof (bdofs_len c Hp ltac:(lia)) as Lb.
  assert (length (bdofs c) <? 2 = true) as -> by lia. cbn [ensure bind].
  assert ((match map (fun x => (ridx x, cidx x)) (bdofs c) with
           | [(ri, _)] => mapM (fun x => do c0 <- dcol C (fst x) (snd x); Ok (ri, c0, half)) (map (fun c' => (snd (B c' 0 0), fst c')) (cls c))
           | _ => Ok [] end) = Ok (map conc (hents c))) as ->.
  { unfold hents. destruct (bdofs c) as [|x [|]]; [reflexivity| |cbn [length] in Lb; lia]. cbn [map].
    rewrite (mapM_ok _ (fun x0 => (ridx x, cidx (snd x0, fst x0), half))).
    - f_equal. rewrite !map_map. reflexivity.
    - intros x0 Hx0. apply in_map_iff in Hx0. destruct Hx0 as (c' & <- & Hc'). pose proof (rcls_valid I RI c c' Hp Hc') as Hp'. cbn [fst snd].
      rewrite acol_ok by (auto; apply (B_in I RI); auto). reflexivity. }
  cbn [bind].
  match goal with |- context [dpush C ?es s] => assert (es = map conc (avent c)) as -> end.
  { unfold avent. assert (valence c =? 1 = false) as -> by lia. assert (valence c =? 2 = false) as -> by lia. rewrite Hi, Hz. cbn [map]. f_equal.
    rewrite !map_app, !map_map. f_equal. unfold containing_sides. cbn [map concat]. rewrite !side_dir_cside by lia. rewrite !map_app, !app_nil_r. reflexivity. }
  destruct (apush_ok s l zs (avent c) HI) as (s1 & E1 & E2 & E3 & HI1).
  { intros a Ha. apply (avent_good c); auto. } { apply avent_closed; auto. }
  rewrite E1. cbn [bind]. cbn [dcI DpProofs3.C]. unfold rInterfaceIndices. rewrite (rbas_get I RI) by auto. cbn [bind Nat.eqb]. rewrite rcorner_blk by (apply (rbas_like I RI); auto).
  set (r0 := match map (fun x => (ridx x, cidx x)) (bdofs c) with [(ri, _)] => ri | _ => ridx (B c 1 1) end).
  assert (exists x, In (self x) (avent c) /\ r0 = ridx x) as (x0 & Hx0 & Er0).
  { unfold r0, avent. assert (valence c =? 1 = false) as -> by lia. assert (valence c =? 2 = false) as -> by lia. rewrite Hi, Hz.
    destruct (bdofs c) as [|x [|]] eqn:Eb; [|exists x|cbn [length] in Lb; lia].
    - exists (B c 1 1). split; auto. left; reflexivity.
    - split; auto. right. apply in_app_iff. right. apply in_app_iff. left. left; reflexivity. }
  change [(fst c, rblk (rbas (fst c)) (snd c) 0 0)] with [B c 0 0].
  assert ([B c 0 0] = amk c) as -> by (unfold amk; rewrite Hh, orb_true_r; reflexivity).
  destruct (mark_ok2 s1 _ zs r0 (amk c) HI1) as (s2 & r & F1 & F2 & F3 & F4 & F5 & F6).
  { intros x Hx. apply (amk_D c x Hp Hx). } { intros x Hx. apply (amk_kept c); auto. }
  rewrite F1. cbn [bind fst snd].
  assert ((exists c0 w, In (r, c0, w) (xs_mat s2)) \/ In r (zs ++ zrows (amk c))) as Hr.
  { destruct F6 as [->|F6]; [left|right; apply in_app_iff; auto]. exists (cidx x0), 1%Q. apply F5. rewrite Er0.
    apply (in_map conc _ (self x0)). apply in_app_iff. auto. }
  destruct (recheck_ok s2 _ _ r F5) as (s3 & G1 & G2 & G3 & G4); auto.
  { destruct Hr as [(c0 & w & Hin)|Hin].
    - apply F5 in Hin. apply in_map_iff in Hin. destruct Hin as ([[r' y'] w'] & [= -> _ _] & Hin). apply (agood_row r y' w'). apply F5. exact Hin.
    - destruct F5 as (_ & _ & _ & HZ & _). destruct (HZ r Hin) as (x & Dx & (Zx & _) & ->). apply (ridx_lt sizes m ES); auto. lia. }
  rewrite G1. cbn [bind]. assert (vmarks (xs_vert s3) P) as HM3 by (rewrite G3, F3, E3; exact Hm).
  destruct (asetVert_ok s3 _ _ P c G4 HM3 Hp) as (s4 & K1 & K2 & K3 & K4).
  exists s4. split; auto. split; auto. split; [congruence|]. revert K4. apply marks_ext. intros a _. simpl. intuition.
Qed.

Lemma avertex_ok s l zs P (c : pcorner) : AInv s l zs -> vmarks (xs_vert s) P -> fst c < np -> ~ P c -> vdone s l zs P c (acVertex C s c).
Proof.
  intros HI Hm Hp HP. unfold acVertex. rewrite (marks_false S0 _ _ _ _ _ Hm (np0 _ Hp) HP). cbn [bind]. change (dtopo C) with t.
  rewrite (rvertexData I RI c Hp). cbn [bind fst snd dcI DpProofs3.C]. rewrite (rc0_vget I RI c Hp). cbn [bind].
  destruct (akind_of c Hp) as [Hi|Hi E1|Hi E2 Hz|Hi E2 Hz|Hi E2 Hz Hh]; rewrite Hi; cbn [negb].
  - apply ainner_ok; auto.
  - rewrite E1. cbn [Nat.eqb]. apply acorner_ok; auto.
  - rewrite Hz. assert (valence c =? 1 = false) as -> by lia. cbn [negb]. rewrite !andb_false_r, !andb_true_r.
    destruct (valence c =? 2) eqn:E; [apply asharp_ok; auto|]. assert (2 <? valence c = true) as -> by lia. apply asharp_ok; auto.
  - rewrite E2, Hz. cbn [Nat.eqb andb negb]. apply aflat_ok; auto.
  - rewrite Hz. assert (valence c =? 1 = false) as -> by lia. assert (valence c =? 2 = false) as -> by lia. cbn [negb andb].
    assert (2 <? valence c = true) as -> by lia. cbn [andb]. apply ahalf_ok; auto.
Qed.

(** ** interfaces *)
Lemma aEntries_ok p p' : forall ix ox ixn, length ox = length ix -> length ixn = length ix ->
  (forall x, In x ix -> In (p, x) D) -> (forall x, In x ox -> In (p, x) D /\ own (p, x)) -> (forall x, In x ixn -> In (p', x) D) ->
  dEntries C p p' ix ox ixn = Ok (map conc (sents p p' ix ox ixn)).
Proof.
  induction ix as [|i ix IH]; intros [|o ox] [|j ixn] L1 L2 H1 H2 H3; try discriminate; [reflexivity|]. cbn [dEntries DpProofs3.sents map].
  destruct (H2 o) as [Ho [Zo _]]; [left; auto|].
  assert (cis_free (dcMod C) o p = true) as -> by (unfold cis_free; cbn [dcMod DpProofs3.C]; rewrite Zo; reflexivity). cbn [ensure bind].
  rewrite arow_pi by auto. cbn [bind].
  change (cis_free (dorig C) o p) with true. cbn [ensure bind].
  rewrite acol_pi by auto. cbn [bind]. rewrite acol_pi by (auto; apply H1; left; auto). cbn [bind].
  rewrite acol_pi by (auto; apply H3; left; auto). cbn [bind].
  rewrite IH; [reflexivity|auto|auto|intros; apply H1; right; auto|intros; apply H2; right; auto|intros; apply H3; right; auto].
Qed.

Lemma afent_good f a : In f (tif t) -> In a (fent f) -> agood a.
Proof.
  intros Hf Ha. destruct a as [[r y] w]. apply (fent_in DI RI RM m) in Ha; auto.
  destruct Ha as (i & a1 & b1 & a2 & b2 & N1 & N2 & N3 & N4 & Ha).
  pose proof (nth_error_In _ _ N1) as I1. pose proof (nth_error_In _ _ N2) as I2. pose proof (nth_error_In _ _ N3) as I3. pose proof (nth_error_In _ _ N4) as I4.
  destruct (arem1_1 DI RI RM m V f b1 Hf I2) as [A1 A2], (arem2_1 DI RI RM m V f b2 Hf I4) as [A3 A4].
  destruct (strip_D DI RI RM f a1 a2 Hf) as [S1 S2].
  assert (y = (fst (if1 f), a1) \/ y = (fst (if2 f), a2) -> In y D) as Dy by (intros [->| ->]; auto).
  destruct Ha as [[-> [[-> ->]|[Hy ->]]]|[-> [[-> ->]|[Hy ->]]]]; try (apply agood_self; auto; fail).
  - split; auto. eexists. split; [eapply (ak_strip DI m f i); eauto|left; reflexivity].
  - split; auto. eexists. split; [eapply (ak_strip DI m f i); eauto|right; left; reflexivity].
Qed.
Lemma afent_closed f : In f (tif t) -> aclosed (fent f).
Proof.
  intros Hf. apply aclosed_of. intros r y w Ha. apply (fent_in DI RI RM m) in Ha; auto.
  destruct Ha as (i & a1 & b1 & a2 & b2 & N1 & N2 & N3 & N4 & Ha).
  destruct (arem1_1 DI RI RM m V f b1 Hf (nth_error_In _ _ N2)) as [A1 A2], (arem2_1 DI RI RM m V f b2 Hf (nth_error_In _ _ N4)) as [A3 A4].
  destruct Ha as [[-> _]|[-> _]]; [exists (fst (if1 f), b1)|exists (fst (if2 f), b2)]; (split; [auto|]); (split; [auto|]); (split; [auto|]);
    apply (fent_in DI RI RM m); auto; exists i, a1, b1, a2, b2; auto 10.
Qed.

Lemma ainterface_ok s l zs P f : AInv s l zs -> smarks (xs_side s) P -> In f (tif t) -> ~ P (if1 f) -> ~ P (if2 f) ->
  exists s', dInterface C s f = Ok s' /\ AInv s' (l ++ fent f) zs /\ xs_vert s' = xs_vert s /\ smarks (xs_side s') (fun c => c = if2 f \/ c = if1 f \/ P c).
Proof.
  intros HI Hm Hf HP1 HP2. destruct (iface_np DI RI f Hf) as [Q1 Q2]. destruct (rem_length DI RI RM f Hf) as (L1 & L2 & L3).
  unfold dInterface. rewrite (marks_false S0 _ _ _ _ _ Hm (np0 _ Q1) HP1), (marks_false S0 _ _ _ _ _ Hm (np0 _ Q2) HP2). cbn [bind orb dcI DpProofs3.C].
  rewrite !(rbas_get I RI) by auto. cbn [bind].
  destruct (RM f 0 Hf ltac:(lia)) as (l10 & l20 & E0 & _). destruct (RM f 1 Hf ltac:(lia)) as (l11 & l21 & E1 & _).
  rewrite E0, E1. cbn [bind fst snd].
  assert (without l10 (dnear (rbas (fst (if1 f))) (snd (if1 f)) 0) = rem1 f 0) as -> by (unfold DpProofs2.rem1; rewrite E0; reflexivity).
  assert (without l11 (dnear (rbas (fst (if1 f))) (snd (if1 f)) 1) = rem1 f 1) as -> by (unfold DpProofs2.rem1; rewrite E1; reflexivity).
  assert (without l20 (dnear (rbas (fst (if2 f))) (snd (if2 f)) 0) = rem2 f 0) as -> by (unfold DpProofs2.rem2; rewrite E0; reflexivity).
  assert (without l21 (dnear (rbas (fst (if2 f))) (snd (if2 f)) 1) = rem2 f 1) as -> by (unfold DpProofs2.rem2; rewrite E1; reflexivity).
  rewrite (proj2 (Nat.eqb_eq _ _) L1). cbn [ensure bind]. rewrite (proj2 (Nat.eqb_eq (length (rem1 f 1)) (length (rem2 f 1)))) by lia. cbn [ensure bind].
  pose proof (aEntries_ok (fst (if1 f)) (fst (if2 f)) (rem1 f 0) (rem1 f 1) (rem2 f 0)) as G1.
  pose proof (aEntries_ok (fst (if2 f)) (fst (if1 f)) (rem2 f 0) (rem2 f 1) (rem1 f 0)) as G2.
  change (mkDC DI m (cfreeSize m) (cfreeSize (cmap_of sizes))) with C.
  rewrite G1; try lia.
  2:{ intros x Hx. apply (strip_D DI RI RM f x 0 Hf); auto. } 2:{ intros x Hx. apply (arem1_1 DI RI RM m V); auto. } 2:{ intros x Hx. apply (strip_D DI RI RM f 0 x Hf); auto. }
  cbn [bind]. rewrite G2; try lia.
  2:{ intros x Hx. apply (strip_D DI RI RM f 0 x Hf); auto. } 2:{ intros x Hx. apply (arem2_1 DI RI RM m V); auto. } 2:{ intros x Hx. apply (strip_D DI RI RM f x 0 Hf); auto. }
  cbn [bind]. rewrite <- map_app. clear G1 G2.
  change (sents (fst (if1 f)) (fst (if2 f)) (rem1 f 0) (rem1 f 1) (rem2 f 0) ++ sents (fst (if2 f)) (fst (if1 f)) (rem2 f 0) (rem2 f 1) (rem1 f 0)) with (fent f).
  destruct (apush_ok s l zs (fent f) HI) as (s1 & F1 & F2 & F3 & HI1).
  { intros a Ha. apply (afent_good f); auto. } { apply afent_closed; auto. }
  rewrite F1. cbn [bind]. rewrite <- F2 in Hm.
  destruct (asetSide_ok s1 _ _ P (if1 f) HI1 Hm Q1) as (s2 & G1 & G2 & G3 & G4). rewrite G1. cbn [bind].
  destruct (asetSide_ok s2 _ _ _ (if2 f) G2 G4 Q2) as (s3 & H1 & H2 & H3 & H4).
  exists s3. split; auto. split; auto. split; [congruence|exact H4].
Qed.

(** ** boundaries *)
Lemma abstrip_own ps x : In ps (tbd t) -> In x (strip ps) -> In x D /\ own x.
Proof.
  intros Hps Hx. assert (fst ps < np) as Q by (rewrite <- Hnp; apply (sides_valid t Hcons); auto).
  pose proof (strip_in I RI ps x Q Hx) as Dx. split; auto.
  assert (forall c a e, fst c < np -> a < 2 -> e < 2 -> x <> B c a e) as N by (intros; apply (strip_near DI RI ps); auto).
  split.
  - apply (av_other I m V).
    + intros (c & a & e & Hc & Ha & He & E). apply in_all_corners in Hc. apply (N c a e Hc Ha He E).
    + intros ps' Hps' G. apply (strip_disjoint I RI ps ps' x); auto. intros ->. apply (iface_not_bd t Hcons ps'); auto.
  - intros c a e Hc Ha He E. exfalso. apply (N c a e); auto.
Qed.

Lemma aboundary_ok s l zs P ps : AInv s l zs -> smarks (xs_side s) P -> In ps (tbd t) ->
  exists s', dBoundary C s ps = Ok s' /\ AInv s' (l ++ bent ps) zs /\ xs_vert s' = xs_vert s /\ smarks (xs_side s') (fun c => c = ps \/ P c).
Proof.
  intros HI Hm Hps. assert (fst ps < np) as Q by (rewrite <- Hnp; apply (sides_valid t Hcons); auto).
  unfold dBoundary. cbn [dcI DpProofs3.C]. rewrite (rbas_get I RI) by auto. cbn [bind].
  change (without (roff (rbas (fst ps)) (snd ps) 0) (dnear (rbas (fst ps)) (snd ps) 0)) with (rstrip (rbas (fst ps)) (snd ps)).
  change (mkDC DI m (cfreeSize m) (cfreeSize (cmap_of sizes))) with C.
  rewrite (mapM_ok _ (fun i => conc (self (fst ps, i)))).
  2:{ intros i Hi. assert (In (fst ps, i) D) as Hx by (apply (abstrip_own ps); auto; apply in_map_iff; eauto).
      rewrite arow_pi by auto. cbn [bind]. rewrite acol_pi by auto. reflexivity. }
  cbn [bind].
  assert (map (fun i => conc (self (fst ps, i))) (rstrip (rbas (fst ps)) (snd ps)) = map conc (bent ps)) as ->.
  { unfold DpProofs3.bent, RingProofs2.strip. rewrite !map_map. reflexivity. }
  destruct (apush_ok s l zs (bent ps) HI) as (s1 & E1 & E2 & E3 & HI1).
  { intros a Ha. apply in_map_iff in Ha. destruct Ha as (x & <- & Hx). apply agood_self; apply (abstrip_own ps); auto. }
  { apply aclosed_of. intros r y w Ha. pose proof Ha as Ha'. apply in_map_iff in Ha. destruct Ha as (x & [= <- <- <-] & Hx).
    exists x. destruct (abstrip_own ps x Hps Hx). auto. }
  rewrite E1. cbn [bind]. rewrite <- E2 in Hm.
  destruct (asetSide_ok s1 _ _ P ps HI1 Hm Q) as (s2 & F1 & F2 & F3 & F4).
  exists s2. split; auto. split; auto. split; [congruence|exact F4].
Qed.

(** ** interior loop *)
Lemma ainterior_ok s l zs : AInv s l zs -> (forall x, In x D -> keptd x -> In (ridx x) zs) ->
  exists s' l', dInterior C s = Ok s' /\ AInv s' (l ++ l') zs /\ xs_side s' = xs_side s /\ xs_vert s' = xs_vert s /\
    (forall x, In x D -> own x -> In (self x) (l ++ l')).
Proof.
  intros HI0 Hkept. unfold dInterior. change (cdofs (dorig C)) with D.
  destruct (foldM_inv (fun pre s' => exists l', AInv s' (l ++ l') zs /\ xs_side s' = xs_side s /\ xs_vert s' = xs_vert s /\
     (forall x, In x pre -> own x -> In (self x) (l ++ l')))
     (fun s (x : dof) => let '(p, b) := x in
        do r <- drow C b p;
        if negb (cis_free (dcMod C) b p) then Ok s else
        do chk <- vget (xs_basis s) r;
        if (chk : bool) then Ok s else
        do c <- dcol C b p; dpush C [(r, c, 1%Q)] s) D s) as (s' & E & l' & HI & E1 & E2 & H).
  - exists []. rewrite app_nil_r. split; auto. split; auto. split; auto. intros x [].
  - intros pre [p b] post s1 Ey (l' & HI & E1 & E2 & Hx).
    assert (In (p, b) D) as Vx by (rewrite Ey; apply in_elt). set (x := (p, b)) in *.
    assert (forall l'' s2, (AInv s2 (l ++ l'') zs /\ xs_side s2 = xs_side s /\ xs_vert s2 = xs_vert s) ->
       (forall a, In a (l ++ l') -> In a (l ++ l'')) -> (own x -> In (self x) (l ++ l'')) ->
       exists l', AInv s2 (l ++ l') zs /\ xs_side s2 = xs_side s /\ xs_vert s2 = xs_vert s /\
     (forall x0, In x0 (pre ++ [x]) -> own x0 -> In (self x0) (l ++ l'))) as K.
    { intros l'' s2 (A1 & A2 & A3) Hsub Hself. exists l''. split; auto. split; auto. split; auto.
      intros x0 Hin Z0. apply in_app_iff in Hin. destruct Hin as [Hin|[<-|[]]]; auto. }
    rewrite arow_pi by auto. cbn [bind]. unfold cis_free. cbn [dcMod DpProofs3.C]. fold x.
    destruct (0 <=? cmval m x)%Z eqn:Hf; cbn [negb].
    2:{ exists s1. split; auto. apply (K l'); auto. intros [Z0 _]. lia. }
    pose proof (val_le DI RI m V x Vx) as Le. assert (cmval m x = 0%Z) as Zx by lia.
    pose proof HI as (I1 & I2 & I3 & IZ & I4 & I5).
    destruct (I5 (ridx x) (ridx_lt sizes m ES x Vx ltac:(lia))) as (bb & Eb & Hb). rewrite Eb. cbn [bind]. destruct bb.
    + exists s1. split; auto. apply (K l'); auto. intros Ox. destruct (proj1 Hb eq_refl) as [(c & w & Hin)|Hin].
      * apply I1 in Hin. apply in_map_iff in Hin. destruct Hin as ([[r' y'] w'] & [= Er _ _] & Hin). eapply I3; eauto.
      * exfalso. destruct (IZ _ Hin) as (x' & Dx' & Kx' & Er). apply (aridx_neq DI RI m V) in Er; auto; [|apply Kx'].
        subst x'. apply (own_kept DI m x); auto.
    + assert (own x) as Ox.
      { destruct (zero_cases DI RI m V x Zx) as [|Kx]; auto. exfalso. assert (false = true) as F; [|discriminate]. apply Hb. right. auto. }
      rewrite acol_pi by auto. cbn [bind]. destruct (apush_ok s1 (l ++ l') zs [self x] HI) as (s2 & F1 & F2 & F3 & HI2).
      { intros a [<-|[]]. apply agood_self; auto. }
      { apply aclosed_of. intros r y w [[= <- <- <-]|[]]. exists x. split; auto. split; auto. split; auto. left; reflexivity. }
      cbn [map DpProofs3.conc DpProofs3.self] in F1. exists s2. split; [exact F1|]. apply (K (l' ++ [self x])).
      * rewrite app_assoc. split; auto. split; congruence.
      * intros a Ha. rewrite app_assoc. apply in_app_iff. auto.
      * intros _. rewrite app_assoc. apply in_app_iff. right; left; auto.
  - exists s', l'. split; auto.
Qed.

(** ** the whole matrix *)
Lemma avent_dart (c : pcorner) d k (c' : pcorner) d' : fst c < np -> dnext t (c, d) = Some (c', d') -> adart c d k ->
  In (ridx (dpt c d k 1), dpt c d k 0, half) (avent c) /\ In (ridx (dpt c d k 1), dpt c' d' k 0, half) (avent c).
Proof.
  intros Hc Hn Hk. pose proof (proj1 Hk) as Hd.
  assert (ifl c d = true) as Hf by (apply (ifl_dnext DI); eauto). pose proof (proj2 (rvalidc c) Hc) as Hv.
  assert (k = 1 -> forall l1 l2, In (ridx (dpt c d k 1), dpt c d k 0, half) (l1 :: concat [dart c 0 1; dart c 1 1] ++ l2) /\
            In (ridx (dpt c d k 1), dpt c' d' k 0, half) (l1 :: concat [dart c 0 1; dart c 1 1] ++ l2)) as D1.
  { intros -> l1 l2. cbn [concat]. rewrite app_nil_r. unfold DpProofs3.dart. split; right; apply in_app_iff; left; apply in_app_iff; (destruct d as [|[|]]; [left|right|lia]); rewrite Hn; simpl; auto. }
  assert (k = 1 \/ k = 0 /\ flat2 c = true) as Hk' by exact (proj2 Hk).
  unfold avent. destruct (akind_of c Hc) as [Hi|Hi E1|Hi E2 Hz|Hi E2 Hz|Hi E2 Hz Hh]; rewrite Hi.
  - destruct Hk' as [->|(_ & F)]; [|apply (flat2_iff DI RI) in F; destruct F; congruence].
    destruct (D1 eq_refl (self (B c 1 1)) []) as [G1 G2]. rewrite app_nil_r in *.
    split; right; apply in_app_iff; right; [destruct G1 as [G1|G1]|destruct G2 as [G2|G2]]; auto;
      exfalso; [injection G1|injection G2]; intros W; discriminate.
  - rewrite (val1_boundary t Hcons c d) in Hf by auto. discriminate.
  - assert (valence c =? 1 = false) as -> by lia. rewrite Hz. destruct Hk' as [->|(_ & F)]; [|apply (flat2_iff DI RI) in F; destruct F as (_ & _ & F); congruence].
    split; right; apply in_app_iff; left; cbn [concat]; rewrite app_nil_r; apply in_app_iff; (destruct d as [|[|]]; [left|right|lia]);
      unfold nside, DpProofs3.dart; rewrite Hn; simpl; auto.
  - rewrite E2, Hz. cbn [Nat.eqb].
    assert (idir c = d) as ->.
    { pose proof (val2_boundary t Hcons c Hv Hi E2) as Bd. unfold DpProofs3.idir. destruct d as [|[|]]; [rewrite Hf; auto| |lia].
      rewrite Hf in Bd. rewrite Bd. reflexivity. }
    assert (In k [0; 1]) as Kk by (destruct Hk' as [->|(-> & _)]; simpl; auto).
    split; apply in_concat; (eexists; split; [apply in_map; exact Kk|]); unfold DpProofs3.dart; rewrite Hn; simpl; auto.
  - assert (valence c =? 1 = false) as -> by lia. assert (valence c =? 2 = false) as -> by lia. rewrite Hz.
    destruct Hk' as [->|(_ & F)]; [|apply (flat2_iff DI RI) in F; destruct F as (_ & F & _); lia]. apply D1; auto.
Qed.

Lemma acomplete l : (forall c, fst c < np -> incl (avent c) l) -> (forall f, In f (tif t) -> incl (fent f) l) ->
  (forall x, In x D -> own x -> In (self x) l) ->
  forall y P r w, In y D -> akid y P -> In (r, w) P -> In (r, y, w) l.
Proof.
  intros Hdone Hif Hself y P r w Hy K Hin.
  destruct K as [y Hz|f i a1 b1 a2 b2 y Hf N1 N2 N3 N4 Hy'|c a e Hc Ha He Hav].
  - destruct Hin as [[= <- <-]|[]]. apply Hself; auto.
  - apply (Hif f Hf), (fent_in DI RI RM m); auto. exists i, a1, b1, a2, b2. repeat (split; [assumption|]).
    destruct Hin as [[= <- <-]|[[= <- <-]|[]]]; auto.
  - pose proof (proj2 (rvalidc c) Hc) as Hv.
    destruct (avg_cases DI RI m c a e Hc Ha He Hav) as [(-> & -> & Hi & EP)|[(-> & -> & Hh & EP)|(d & k & c' & d' & Hk & Hn & EB & EP)]]; rewrite EP in Hin.
    + apply in_map_iff in Hin. destruct Hin as (c' & [= <- <-] & Hc').
      pose proof (rcls_valid I RI c c' Hc Hc') as Hp'.
      assert (inner c' = true) as Hi' by (rewrite (inner_cls t Hcons c c'); auto).
      apply (Hdone c' Hp'). unfold avent. rewrite Hi'. right. apply in_app_iff. left.
      rewrite (valence_cls t Hcons c c') by auto. apply in_map_iff. exists c. split; auto. apply (in_cls_sym t Hcons); auto.
    + apply in_map_iff in Hin. destruct Hin as ([c' d'] & [= <- <-] & Hc'). cbn [fst snd]. apply in_bdarts in Hc'. destruct Hc' as (Hc' & Hd' & Hn').
      pose proof (rcls_valid I RI c c' Hc Hc') as Hp'. destruct (half0_cls I RI c c' Hc Hc') as (Eh & _). rewrite Hh in Eh.
      apply (Hdone c' Hp'). unfold avent. rewrite (half_not_inner DI c' Eh). pose proof Eh as Eh'. unfold AcProofs.half0 in Eh'.
      assert (2 < valence c' /\ rc0 c' = false) as [Hv' Hz'] by (destruct (inner c'), (rc0 c'); cbn [negb andb] in Eh'; try discriminate; try (rewrite andb_false_r in Eh'; discriminate); split; auto; lia).
      assert (valence c' =? 1 = false) as -> by lia. assert (valence c' =? 2 = false) as -> by lia. rewrite Hz'.
      right. apply in_app_iff. right. apply in_app_iff. right. unfold hents. rewrite (bdofs_one c' d' Hp' ltac:(lia) Hd' Hn').
      apply in_map_iff. exists c. split; auto. apply (in_cls_sym t Hcons); auto.
    + pose proof (proj1 Hk) as Hd. pose proof (dnext_dir t _ _ _ Hn) as Hd'. destruct (dnext_np DI RI _ _ _ _ Hn) as [_ Hp'].
      pose proof (dnext_sym t Hcons _ _ _ _ Hd Hn) as Hn'. rewrite EB.
      destruct Hin as [[= <- <-]|[[= <- <-]|[]]].
      * apply (Hdone c Hc). apply (avent_dart c d k c' d'); auto.
      * apply (Hdone c' Hp'). apply (avent_dart c' d' k c d); auto. apply (adart_cls DI RI c d c' d' k); auto.
Qed.

Lemma aloops_ok : exists s l zs, acLoops C = Ok s /\ AInv s l zs /\
   smarks (xs_side s) (fun _ => True) /\ vmarks (xs_vert s) (fun _ => True) /\
   (forall y P r w, In y D -> akid y P -> In (r, w) P -> In (r, y, w) l) /\
   (forall x, In x D -> own x -> In (self x) l) /\ (forall x, In x D -> keptd x -> In (ridx x) zs).
Proof.
  unfold acLoops. change (dtopo C) with t. cbn [dcI DpProofs3.C dcRows].
  change (mkDC DI m (cfreeSize m) (cfreeSize (cmap_of sizes))) with C.
  set (s0 := mkXS (repeat false (2 * length (tif t) + length (tbd t))) (repeat false (4 * np)) (repeat false (cfreeSize m)) []).
  assert (AInv s0 [] []) as HI0.
  { split; [|split; [|split; [|split; [|split]]]].
    - intros e. reflexivity.
    - intros a [].
    - intros r y w x [].
    - intros r [].
    - apply repeat_length.
    - intros r Hr. exists false. split; [apply vget_repeat; exact Hr|]. split; [discriminate|]. intros [(c & w & [])|[]]. }
  destruct (foldM_inv (fun pre s => exists l zs L, AInv s l zs /\ xs_side s = xs_side s0 /\ vmarks (xs_vert s) (fun c => In c L) /\ incl pre L /\
      (forall c, In c L -> incl (avent c) l /\ incl (zrows (amk c)) zs)) (acVertex C) (all_corners np) s0)
    as (s1 & E1 & l1 & zs & L & HI1 & S1 & M1 & P1 & V1).
  { exists [], [], []. split; auto. split; auto. split; [|split; [intros c []|intros c []]].
    pose proof (vmarks_init S0) as M. unfold nVerts in M. rewrite shadow_np in M. exact M. }
  { intros pre pc post s E (l & zs & L & HI & HS & HM & HP & HV).
    assert (fst pc < np) as Hp by (apply in_all_corners; rewrite E; apply in_elt).
    destruct (proj2 HM pc (np0 _ Hp)) as (b & Eb & Hb). destruct b.
    - exists s. split; [unfold acVertex; rewrite Eb; reflexivity|]. exists l, zs, L. split; auto. split; auto. split; auto. split; auto.
      intros x Hx. apply in_app_iff in Hx. destruct Hx as [Hx|[<-|[]]]; auto. apply Hb. reflexivity.
    - assert (~ In pc L) as Hn by (intros G; apply Hb in G; discriminate).
      destruct (avertex_ok s l zs _ pc HI HM Hp Hn) as (s' & E' & HI' & HS' & HM').
      exists s'. split; auto. exists (l ++ avent pc), (zs ++ zrows (amk pc)), (L ++ [pc]). split; auto. split; [congruence|]. split; [|split].
      + revert HM'. apply marks_ext. intros a _. rewrite in_app_iff. tauto.
      + intros x Hx. apply in_app_iff. apply in_app_iff in Hx. destruct Hx as [Hx|[<-|[]]]; auto. right; left; auto.
      + intros c Hc. apply in_app_iff in Hc. destruct Hc as [Hc|[<-|[]]].
        * destruct (HV c Hc) as (A1 & A2). split; intros a Ha; apply in_app_iff; auto.
        * split; intros a Ha; apply in_app_iff; auto. }
  rewrite E1. cbn [bind].
  destruct (foldM_inv (fun pre s => exists l, AInv s l zs /\ xs_vert s = xs_vert s1 /\ smarks (xs_side s) (fun c => In c (isides pre)) /\
      incl l1 l /\ (forall f, In f pre -> incl (fent f) l)) (dInterface C) (tif t) s1)
    as (s2 & E2 & l2 & HI2 & S2 & M2 & L2 & V2).
  { exists l1. split; auto. split; auto. split; [rewrite S1; exact (smarks_init S0 W0)|]. split; [apply incl_refl|]. intros f []. }
  { intros pre f post s E (l & HI & HS & HM & HL & HV).
    assert (In f (tif t)) as Hf by (rewrite E; apply in_elt).
    destruct (isides_nodup S0 W0 pre f post E) as (N1 & N2 & N3).
    destruct (ainterface_ok s l zs _ f HI HM Hf N1 N2) as (s' & E' & HI' & HS' & HM').
    exists s'. split; auto. exists (l ++ fent f). split; auto. split; [congruence|]. split; [|split].
    - revert HM'. apply marks_ext. intros a _. unfold isides. rewrite flat_map_app, in_app_iff. simpl. intuition.
    - intros a Ha. apply in_app_iff. auto.
    - intros g Hg a Ha. apply in_app_iff. apply in_app_iff in Hg. destruct Hg as [Hg|[<-|[]]]; [left; apply (HV g); auto|auto]. }
  rewrite E2. cbn [bind].
  destruct (foldM_inv (fun pre s => exists l, AInv s l zs /\ xs_vert s = xs_vert s1 /\
      smarks (xs_side s) (fun c => In c (iface_sides t) \/ In c pre) /\ incl l2 l) (dBoundary C) (tbd t) s2)
    as (s3 & E3 & l3 & HI3 & S3 & M3 & L3).
  { exists l2. split; auto. split; auto. split; [|apply incl_refl]. revert M2. apply marks_ext. intros a _. simpl. unfold isides, iface_sides. tauto. }
  { intros pre ps post s E (l & HI & HS & HM & HL).
    destruct (aboundary_ok s l zs _ ps HI HM) as (s' & E' & HI' & HS' & HM'). { rewrite E; apply in_elt. }
    exists s'. split; auto. exists (l ++ bent ps). split; auto. split; [congruence|]. split.
    - revert HM'. apply marks_ext. intros a _. rewrite in_app_iff. simpl. intuition.
    - intros a Ha. apply in_app_iff. auto. }
  rewrite E3. cbn [bind].
  assert (forall x, In x D -> keptd x -> In (ridx x) zs) as Hkept.
  { intros x Hx Kx. destruct (kept_amk x Kx) as (c & Hc & Hin & Hf). destruct (V1 c) as [_ Z1]; [apply P1, in_all_corners; auto|].
    apply Z1. unfold zrows. apply in_map. apply filter_In. auto. }
  destruct (ainterior_ok s3 l3 zs HI3 Hkept) as (s4 & l4 & E4 & HI4 & S4 & V4 & H4).
  exists s4, (l3 ++ l4), zs. split; auto. split; auto. split; [|split; [|split; [|split]]]; auto.
  - rewrite S4. revert M3. apply marks_ext. intros a Ha. rewrite shadow_np in Ha. rewrite <- Hnp in Ha. apply (sides_valid t Hcons) in Ha. tauto.
  - rewrite V4, S3. revert M1. apply marks_ext. intros a Ha. rewrite shadow_np in Ha. split; auto. intros _. apply P1, in_all_corners, Ha.
  - apply acomplete; auto.
    + intros c Hc a Ha. apply in_app_iff. left. apply L3, L2. apply (V1 c); auto. apply P1, in_all_corners; auto.
    + intros f Hf a Ha. apply in_app_iff. left. apply L3. apply (V2 f Hf a Ha).
Qed.

Lemma amatrix_ok : exists s, acLoops C = Ok s /\ performChecks s = Ok tt /\
  (forall y P r w, In y D -> akid y P -> In (r, w) P -> mget (xs_mat s) r (cidx y) = w) /\
  (forall y P r, In y D -> akid y P -> (forall w, ~ In (r, w) P) -> mget (xs_mat s) r (cidx y) = 0%Q).
Proof.
  destruct aloops_ok as (s & l & zs & E & (I1 & I2 & I3 & IZ & I4 & I5) & MS & MV & Hc & Hself & Hkept).
  exists s. split; auto. split.
  { unfold performChecks. destruct MS as [LS MS]. destruct MV as [LV MV].
    rewrite !forallb_vget; [reflexivity| | |].
    - intros r Hr. rewrite I4 in Hr. destruct (I5 r Hr) as (b & Hb & Hb'). rewrite Hb. f_equal. apply Hb'.
      destruct (ridx_onto sizes m ES r Hr) as (x & Vx & Fx & <-).
      pose proof (val_le DI RI m V x Vx) as Le. assert (cmval m x = 0%Z) as Zx by lia.
      destruct (zero_cases DI RI m V x Zx) as [Ox|Kx]; [left|right; auto].
      exists (cidx x), 1%Q. apply I1. apply (in_map conc _ (self x)). auto.
    - intros i Hi. rewrite LV, shadow_np in Hi. destruct (vertIndex_onto np i Hi) as (pc & Hp & <-).
      destruct (MV pc (np0 _ Hp)) as (b & Hb & Hb'). rewrite Hb. f_equal. apply Hb'. exact Logic.I.
    - intros i Hi. rewrite LS, shadow_np in Hi. destruct (sideIndex_onto np i Hi) as (pc & Hp & <-).
      destruct (MS pc (np0 _ Hp)) as (b & Hb & Hb'). rewrite Hb. f_equal. apply Hb'. exact Logic.I. }
  assert (forall y P r w, In y D -> akid y P -> In (r, cidx y, w) (xs_mat s) -> In (r, w) P) as K.
  { intros y P r w Hy Ky Hin. apply I1 in Hin. apply in_map_iff in Hin. destruct Hin as ([[r' y'] w'] & [= Er Ec Ew] & Hin).
    destruct (I2 _ Hin) as (A1 & P' & A2 & A3). apply cidx_inj in Ec; auto. subst.
    rewrite (akid_fun DI RI RM m V y P P'); auto. }
  split.
  - intros y P r w Hy Ky Hin. apply mget_in.
    + apply I1. apply (in_map conc _ (r, y, w)). eauto.
    + intros w' Hin'. apply (nodup_fst_fun P r); auto; [apply (akid_nodup DI RI RM m V y P); auto|eauto].
  - intros y P r Hy Ky Hn. apply mget_notin. intros w Hin. apply (Hn w). eauto.
Qed.
End H.
