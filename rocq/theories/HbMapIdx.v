(** Numbers of hierarchical splines, and travelling over interfaces on one level. *)
From Coq Require Import Reals.
From Verif Require Import Common ListLemmas TopoModel TopoSpec TopoProofs MapModel MapSpec MapProofs MapTravelSpec MapTravel MapLines MapAllModel MapAllSpec MapAllKind HbMapModel HbMapSpec.
From Coq Require Import ZifyBool.
Open Scope Z_scope.

(** *** Lists of active functions *)
Lemma posIn_some x l i : posIn x l = Some i -> nth_error l i = Some x.
Proof.
  revert i. induction l as [|y l IH]; intros i Q; [discriminate|]. cbn [posIn] in Q. destruct (Z.eqb_spec x y) as [->|].
  - injection Q as <-. reflexivity.
  - destruct (posIn x l) as [j|]; [|discriminate]. injection Q as <-. cbn. now apply IH.
Qed.
Lemma posIn_none x l : posIn x l = None <-> ~ In x l.
Proof.
  induction l as [|y l IH]; [cbn; tauto|]. cbn [posIn In]. destruct (Z.eqb_spec x y) as [->|N].
  - split; [discriminate|]. intros H. elim H. now left.
  - destruct (posIn x l); cbn [option_map]; split; try discriminate; try tauto.
    + intros H. exfalso. assert (Some n = None) by (apply IH; tauto). discriminate.
    + intros _ [Q|Q]; [congruence|]. now apply IH.
Qed.
Lemma posIn_nth l i x : NoDup l -> nth_error l i = Some x -> posIn x l = Some i.
Proof.
  intros ND E. destruct (posIn x l) as [j|] eqn:Q.
  - apply posIn_some in Q. f_equal. rewrite NoDup_nth_error in ND. apply ND; [apply nth_error_Some; congruence|congruence].
  - exfalso. apply posIn_none in Q. apply Q. now apply nth_error_In in E.
Qed.

Section X.
Context (P : hpatch).

Lemma hoffset_S m xs : nth_error (hpX P) m = Some xs -> hoffset P (S m) = hoffset P m + Z.of_nat (length xs).
Proof.
  unfold hoffset. intros E. revert m E. induction (hpX P) as [|y l IH]; intros [|m] E; cbn in E; try discriminate.
  - injection E as ->. cbn [firstn concat length]. rewrite app_nil_r. cbn. lia.
  - specialize (IH m E). cbn [firstn concat] in *. rewrite !app_length in *. lia.
Qed.
Lemma hoffset_mono m m' : (m <= m')%nat -> hoffset P m <= hoffset P m'.
Proof.
  induction 1 as [|m' _ IH]; [lia|]. destruct (nth_error (hpX P) m') as [xs|] eqn:E.
  - rewrite (hoffset_S m' xs E). lia.
  - assert (Q : hoffset P (S m') = hoffset P m'); [|lia]. apply nth_error_None in E. unfold hoffset. now rewrite !firstn_all2 by lia.
Qed.
Lemma hoffset_end : hoffset P (length (hpX P)) = hsize P.
Proof. unfold hoffset, hsize. now rewrite firstn_all. Qed.
Lemma hoffset_0 : hoffset P 0 = 0. Proof. reflexivity. Qed.

Lemma toHier_inv k m i : toHier P k m = i -> i <> -1 -> exists xs j, nth_error (hpX P) m = Some xs /\ nth_error xs j = Some k /\ i = hoffset P m + Z.of_nat j /\ 0 <= i < hsize P /\ hoffset P m <= i < hoffset P (S m).
Proof.
  unfold toHier. destruct (nth_error (hpX P) m) as [xs|] eqn:E; [|congruence]. destruct (posIn k xs) as [j|] eqn:Q; [|congruence]. intros <- _. exists xs, j. split; [reflexivity|]. apply posIn_some in Q. split; [exact Q|]. split; [reflexivity|].
  assert (j < length xs)%nat by (apply nth_error_Some; congruence). pose proof (hoffset_S m xs E). pose proof (hoffset_mono 0 m). rewrite hoffset_0 in *.
  assert (m < length (hpX P))%nat by (apply nth_error_Some; congruence). pose proof (hoffset_mono (S m) (length (hpX P))). rewrite hoffset_end in *. lia.
Qed.
Lemma toHier_act k m : toHier P k m <> -1 <-> exists xs, nth_error (hpX P) m = Some xs /\ In k xs.
Proof.
  split.
  - intros H. destruct (toHier_inv k m _ eq_refl H) as (xs & j & E & J & _). exists xs. split; [exact E|]. now apply nth_error_In in J.
  - intros (xs & E & I). unfold toHier. rewrite E. destruct (posIn k xs) as [j|] eqn:Q.
    + pose proof (hoffset_mono 0 m). rewrite hoffset_0 in *. lia.
    + apply posIn_none in Q. contradiction.
Qed.
Lemma fromHier_to k m : toHier P k m <> -1 -> fromHier P (toHier P k m) m = Ok k.
Proof.
  intros H. destruct (toHier_inv k m _ eq_refl H) as (xs & j & E & J & Q & _). unfold fromHier, vget. rewrite E. cbn [bind]. rewrite Q.
  replace (hoffset P m + Z.of_nat j <? hoffset P m) with false by lia. replace (Z.to_nat (hoffset P m + Z.of_nat j - hoffset P m)) with j by lia. now rewrite J.
Qed.
Lemma toHier_inj k m k' m' : toHier P k m <> -1 -> toHier P k m = toHier P k' m' -> m = m' /\ k = k'.
Proof.
  intros H Q. assert (H' : toHier P k' m' <> -1) by congruence.
  destruct (toHier_inv k m _ eq_refl H) as (xs & j & E & J & EQ & _ & B). destruct (toHier_inv k' m' _ eq_refl H') as (xs' & j' & E' & J' & EQ' & _ & B').
  assert (m = m'). { destruct (Nat.lt_trichotomy m m') as [L|[->|L]]; [|reflexivity|]; [pose proof (hoffset_mono (S m) m' L)|pose proof (hoffset_mono (S m') m L)]; lia. }
  subst m'. split; [reflexivity|]. assert (j = j') by lia. subst j'. congruence.
Qed.
Hypothesis ND : forall m xs, nth_error (hpX P) m = Some xs -> NoDup xs.
Lemma toHier_surj i : 0 <= i < hsize P -> exists m xs k, nth_error (hpX P) m = Some xs /\ In k xs /\ toHier P k m = i.
Proof.
  intros I. assert (X : forall c, (c <= length (hpX P))%nat -> i < hoffset P c -> exists m xs, (m < c)%nat /\ nth_error (hpX P) m = Some xs /\ hoffset P m <= i < hoffset P (S m)).
  { induction c as [|c IH]; intros C B; [rewrite hoffset_0 in B; lia|]. destruct (Z_lt_ge_dec i (hoffset P c)) as [L|G].
    - destruct IH as (m & xs & A & B1 & B2); [lia|exact L|]. exists m, xs. split; [lia|]. now split.
    - destruct (nth_error (hpX P) c) as [xs|] eqn:E; [|apply nth_error_None in E; lia]. exists c, xs. split; [lia|]. split; [exact E|lia]. }
  destruct (X (length (hpX P))) as (m & xs & _ & E & B); [lia|rewrite hoffset_end; lia|]. pose proof (hoffset_S m xs E).
  destruct (nth_error xs (Z.to_nat (i - hoffset P m))) as [k|] eqn:K; [|apply nth_error_None in K; lia].
  exists m, xs, k. split; [exact E|]. split; [now apply nth_error_In in K|]. unfold toHier. rewrite E, (posIn_nth xs _ k (ND m xs E) K). lia.
Qed.
End X.

Section T.
Context (H : hmp) (m : nat) (n : Z).
Notation bs := (mbs (hlevel H m)).
Notation t := (htop H).
Notation hs := (hsizes H).
Hypothesis POS : forall b, In b bs -> 0 <= mb_size b.
Hypothesis NUM : forall p P, nth_error (hps H) p = Some P -> (length (hpX P) <= hpNum P)%nat.

Lemma HPOS b : In b hs -> 0 <= mb_size b.
Proof. intros I. apply in_map_iff in I. destruct I as (P & <- & _). unfold mb_size. cbn [mb_u mb_v]. unfold hsize. lia. Qed.

Lemma bs_nth p b : nth_error bs p = Some b <-> exists P, nth_error (hps H) p = Some P /\ b = hpBase P m.
Proof.
  cbn [hlevel mbs]. rewrite nth_error_map. destruct (nth_error (hps H) p) as [P|]; cbn [option_map]; split.
  - intros Q. injection Q as <-. eauto.
  - intros (P' & Q & ->). congruence.
  - discriminate.
  - intros (P' & Q & _). discriminate.
Qed.

(** number of the [k]-th function of patch [p] among the hierarchical splines of that patch; -1 if it is not active *)
Definition hier (p : nat) (k : Z) : Z := match nth_error (hps H) p with Some P => toHier P k m | None => -1 end.
Definition T (x : Z) : Z := before hs (getPatch bs x) + hier (getPatch bs x) (x - before bs (getPatch bs x)).
Definition act (x : Z) : bool := negb (hier (getPatch bs x) (x - before bs (getPatch bs x)) =? -1).

Lemma T_L p b u v : nth_error bs p = Some b -> 0 <= u < mb_u b -> 0 <= v < mb_v b -> T (L bs p b u v) = before hs p + hier p (u + mb_u b * v).
Proof. intros E U V. unfold T. rewrite (getPatch_L bs POS p b u v E U V). do 2 f_equal. unfold L. lia. Qed.
Lemma act_L p b u v : nth_error bs p = Some b -> 0 <= u < mb_u b -> 0 <= v < mb_v b -> act (L bs p b u v) = negb (hier p (u + mb_u b * v) =? -1).
Proof. intros E U V. unfold act. rewrite (getPatch_L bs POS p b u v E U V). do 3 f_equal. unfold L. lia. Qed.

Lemma hier_act p k : hier p k <> -1 <-> act_in H m p k.
Proof.
  unfold hier, act_in. split.
  - destruct (nth_error (hps H) p) as [P|]; [|congruence]. intros Q. apply toHier_act in Q. destruct Q as (xs & A & B). eauto.
  - intros (P & xs & E & A & B). rewrite E. apply toHier_act. eauto.
Qed.

Lemma hbase p P k : nth_error (hps H) p = Some P -> act_in H m p k -> hbaseAt P m = Ok (hpBase P m).
Proof.
  intros E (P' & xs & E' & X & _). assert (P' = P) by congruence. subst P'. unfold hbaseAt. pose proof (NUM p P E). assert (m < length (hpX P))%nat by (apply nth_error_Some; congruence).
  replace (Nat.ltb m (hpNum P)) with true by lia. reflexivity.
Qed.

Lemma hs_nth p P : nth_error (hps H) p = Some P -> nth_error hs p = Some (mkMB (hsize P) 1 0 0).
Proof. intros E. unfold hsizes. rewrite nth_error_map, E. reflexivity. Qed.
Lemma hsize_mb P : mb_size (mkMB (hsize P) 1 0 0) = hsize P.
Proof. unfold mb_size. cbn [mb_u mb_v]. lia. Qed.

(** a patch that has an active function on this level *)
Definition some_act (p : nat) : Prop := exists k, act_in H m p k.

Lemma hlocalIndexOf_ok p b u v : nth_error bs p = Some b -> some_act p -> 0 <= u < mb_u b -> 0 <= v < mb_v b -> hlocalIndexOf H m p u v = Ok (T (L bs p b u v)).
Proof.
  intros E (k & S) U V. rewrite (T_L p b) by assumption. apply bs_nth in E. destruct E as (P & E & ->). assert (p < length (hps H))%nat by (apply nth_error_Some; congruence).
  unfold hlocalIndexOf. rewrite firstLocalIndex_ok by (unfold hsizes; rewrite map_length; lia). cbn [bind]. unfold vget. rewrite E. cbn [bind]. rewrite (hbase p P k E S). cbn [bind]. unfold hier. rewrite E. reflexivity.
Qed.

Lemma act_T p k : act_in H m p k -> getPatch hs (before hs p + hier p k) = p /\ getPatchIndex hs (before hs p + hier p k) = Ok (hier p k) /\ 0 <= before hs p + hier p k < nrOfLocals hs.
Proof.
  intros A. pose proof (proj2 (hier_act p k) A) as NE. unfold hier in *. destruct (nth_error (hps H) p) as [P|] eqn:E; [|congruence].
  destruct (toHier_inv P k m _ eq_refl NE) as (xs & j & _ & _ & _ & B & _).
  assert (G : getPatch hs (before hs p + toHier P k m) = p) by (apply (getPatch_spec hs HPOS p _ _ (hs_nth p P E)); rewrite hsize_mb; exact B).
  split; [exact G|]. split; [rewrite getPatchIndex_ok, G; f_equal; lia|].
  destruct (numbering_pf hs HPOS) as (X & _). destruct (X p _ (toHier P k m) (hs_nth p P E)) as (l & f & F & -> & R & _); [rewrite hsize_mb; exact B|].
  rewrite firstLocalIndex_ok in F by (assert (p < length hs)%nat by (apply nth_error_Some; rewrite (hs_nth p P E); discriminate); lia). injection F as <-. exact R.
Qed.

Lemma act_in_L p b u v : nth_error bs p = Some b -> 0 <= u < mb_u b -> 0 <= v < mb_v b -> act (L bs p b u v) = true -> act_in H m p (u + mb_u b * v).
Proof. intros E U V A. rewrite (act_L p b) in A by assumption. apply hier_act. lia. Qed.

Lemma hgetPatch_L p b u v : nth_error bs p = Some b -> 0 <= u < mb_u b -> 0 <= v < mb_v b -> act (L bs p b u v) = true -> getPatch hs (T (L bs p b u v)) = p.
Proof. intros E U V A. rewrite (T_L p b) by assumption. apply act_T. now apply (act_in_L p b). Qed.

Lemma hgetPar_L p b u v par : nth_error bs p = Some b -> 0 <= u < mb_u b -> 0 <= v < mb_v b -> act (L bs p b u v) = true -> hgetPar H m (T (L bs p b u v)) par = Ok (if par then v else u).
Proof.
  intros E U V A. pose proof (act_in_L p b u v E U V A) as AI. unfold hgetPar. rewrite (T_L p b) by assumption. destruct (act_T p _ AI) as (G & GI & _). rewrite G, GI.
  apply bs_nth in E. destruct E as (P & E & EB). unfold vget. rewrite E. cbn [bind]. assert (HE : hier p (u + mb_u b * v) = toHier P (u + mb_u b * v) m) by (unfold hier; now rewrite E).
  rewrite HE, fromHier_to by (rewrite <- HE; now apply hier_act). cbn [bind]. rewrite (hbase p P _ E AI). cbn [bind]. rewrite <- EB. f_equal. unfold patchPar. replace (u + mb_u b * v) with (u + v * mb_u b) by lia.
  destruct par; [rewrite Z.div_add by lia; rewrite Z.div_small by lia; lia|rewrite Z.mod_add by lia; apply Z.mod_small; lia].
Qed.

Lemma hparMax_ok p b par : nth_error bs p = Some b -> some_act p -> hparMax H m p par = Ok (parMax b par).
Proof.
  intros E (k & S). apply bs_nth in E. destruct E as (P & E & ->). unfold hparMax, vget. rewrite E. cbn [bind]. rewrite (hbase p P k E S). reflexivity.
Qed.

Lemma some_L p b u v : nth_error bs p = Some b -> 0 <= u < mb_u b -> 0 <= v < mb_v b -> act (L bs p b u v) = true -> some_act p.
Proof. intros E U V A. eexists. now apply (act_in_L p b u v). Qed.

Lemma htravel_fit p b s s2 d e : adjacent s s2 -> 0 <= d < nsz b s -> 0 <= e < asz b s ->
  exists u v, fun_at bs p b s d s2 e = L bs p b u v /\ 0 <= u < mb_u b /\ 0 <= v < mb_v b.
Proof.
  intros A D Ee. destruct (adj_par s s2 A) as (h & ->).
  destruct s, h; unfold fun_at, coord; cbn [side_at_end side_dir side_par nsz asz] in *; (eexists _, _; split; [reflexivity|lia]).
Qed.

(** staying inside *)
Lemma hstep_inside p b s s2 d e k rest f :
  nth_error bs p = Some b -> adjacent s s2 -> 0 <= d < nsz b s -> 0 <= e < asz b s -> 0 <= k <= d -> act (fun_at bs p b s d s2 e) = true ->
  htravel (S f) H m (T (fun_at bs p b s d s2 e)) (towards s k :: rest) = htravel f H m (T (fun_at bs p b s (d - k) s2 e)) rest.
Proof.
  intros E A D Ee N AC. destruct (adj_par s s2 A) as (h & ->). cbn [htravel].
  assert (K : exists u v u' v', fun_at bs p b s d (side_at_end s h) e = L bs p b u v /\ fun_at bs p b s (d - k) (side_at_end s h) e = L bs p b u' v' /\
    0 <= u < mb_u b /\ 0 <= v < mb_v b /\
    (act (L bs p b u v) = true -> htravelInside H m (T (L bs p b u v)) (snd (towards s k)) (fst (towards s k)) = Ok (T (L bs p b u' v'), 0))).
  { clear AC. destruct s, h; unfold fun_at, coord; cbn [side_at_end side_dir side_par nsz asz] in *;
    (eexists _, _, _, _; split; [reflexivity|]; split; [reflexivity|]; split; [lia|]; split; [lia|]); intros AC;
    unfold htravelInside; rewrite (hgetPatch_L p b) by (assumption || lia);
    rewrite !(hgetPar_L p b) by (assumption || lia); cbn [bind]; rewrite (hparMax_ok p b) by (assumption || (apply (some_L p b) in AC; assumption || lia)); cbn [bind towards side_par side_dir fst snd Nat.eqb negb];
    unfold parMax;
    match goal with |- context [if ?c then _ else _] => assert (C : c = true) by lia; rewrite C end;
    rewrite (hlocalIndexOf_ok p b) by (assumption || lia || (apply (some_L p b) in AC; assumption || lia)); cbn [bind]; f_equal; f_equal; f_equal; unfold L; ring. }
  destruct K as (u & v & u' & v' & E1 & -> & Hu & Hv & KK). rewrite E1 in *. rewrite KK by exact AC. cbn [bind]. reflexivity.
Qed.
(** crossing an interface *)
Lemma hstep_cross p b s s2 p' b' s' s2' d e k (rest rest' : list step) f :
  glued bs t p b s s2 p' b' s' s2' -> 0 <= d < nsz b s -> 0 <= e < asz b s -> d < k -> 0 < nsz b' s' ->
  (forall fi, getInterface t (p, s) = Some fi -> rest' = map (transformStep s s' (orientation fi)) rest) ->
  act (fun_at bs p b s d s2 e) = true -> act (fun_at bs p b s 0 s2 e) = true -> some_act p' ->
  htravel (S f) H m (T (fun_at bs p b s d s2 e)) (towards s k :: rest) =
  htravel f H m (T (fun_at bs p' b' s' 0 s2' e)) (towards (opp s') (k - d - 1) :: rest').
Proof.
  intros [E E' (fi & Gf & Io & -> & _) A SZ] D Ee N N' R AC AC0 SA. specialize (R fi Gf). subst rest'.
  destruct (adj_par s s2 A) as (h & ->). cbn [htravel].
  assert (K : exists u v u' v' r, fun_at bs p b s d (side_at_end s h) e = L bs p b u v /\ 0 <= u < mb_u b /\ 0 <= v < mb_v b /\
    fun_at bs p b s 0 (side_at_end s h) e = L bs p b u' v' /\
    0 <= u' < mb_u b /\ 0 <= v' < mb_v b /\ r <> 0 /\
    (act (L bs p b u v) = true -> htravelInside H m (T (L bs p b u v)) (snd (towards s k)) (fst (towards s k)) = Ok (T (L bs p b u' v'), r)) /\
    r = fst (towards s (k - d)) /\ u' = match s with West => 0 | East => mb_u b - 1 | _ => u end /\
    v' = match s with South => 0 | North => mb_v b - 1 | _ => v end /\ (if snd (towards s k) then u' else v') = coord (asz b s) h e).
  { clear Gf Io SZ N' E' AC AC0 SA. destruct s, h; unfold fun_at, coord; cbn [side_at_end side_dir side_par nsz asz] in *;
    (eexists _, _, _, _, _; split; [reflexivity|]; split; [lia|]; split; [lia|]; split; [|split; [|split; [|split; [|split; [|split; [reflexivity|split; [reflexivity|split; [reflexivity|reflexivity]]]]]]]]); cbn [towards side_par side_dir fst snd Nat.eqb]; try lia; try (unfold L; ring);
    intros AC; unfold htravelInside; rewrite (hgetPatch_L p b) by (assumption || lia);
    rewrite !(hgetPar_L p b) by (assumption || lia); cbn [bind]; rewrite (hparMax_ok p b) by (assumption || (apply (some_L p b) in AC; assumption || lia)); cbn [bind towards side_par side_dir fst snd Nat.eqb negb];
    unfold parMax;
    match goal with |- context [if ?c && ?c' then _ else _] => assert (C : c && c' = false) by lia; rewrite C end;
    match goal with |- context [if ?c then _ else _] => (assert (C' : c = true) by lia; rewrite C') || (assert (C' : c = false) by lia; rewrite C') end;
    rewrite (hlocalIndexOf_ok p b) by (assumption || lia || (apply (some_L p b) in AC; assumption || lia)); cbn [bind]; f_equal; f_equal; lia. }
  destruct K as (u & v & u' & v' & r & Fe & Hu & Hv & Fe0 & Hu' & Hv' & R0 & TI & Er & Eu' & Ev' & NF). rewrite Fe0 in AC0. rewrite Fe in *. rewrite TI by exact AC. cbn [bind].
  replace (r =? 0) with false by lia.
  unfold htransform. rewrite (hgetPatch_L p b) by assumption. rewrite !(hgetPar_L p b) by assumption. cbn [bind fst snd].
  replace (if snd (towards s k) then if 0 <? r then North else South else if 0 <? r then East else West) with s
    by (clear - Er N D; destruct s; cbn [towards side_par side_dir fst snd Nat.eqb] in *; destruct (Z.ltb_spec 0 r); congruence || lia).
  rewrite Gf, Io. cbn [bind fst snd].
  assert (SP : some_act p) by (apply (some_L p b) in AC; assumption).
  rewrite !(hparMax_ok p b) by assumption. cbn [bind].
  match goal with |- context [ensure ?c] => replace c with true by (clear - Eu' Ev'; destruct s; unfold parMax; lia) end.
  cbn [ensure bind]. replace (r =? 0) with false by lia. cbn [negb ensure bind].
  rewrite !(hparMax_ok p' b') by assumption. cbn [bind map].
  assert (ST : transformStep s s' (orientation fi) (if 0 <? r then r - 1 else r + 1, snd (towards s k)) = towards (opp s') (k - d - 1)).
  { clear - Er N D. subst r. destruct s, s'; unfold towards, opp; cbn [transformStep side_eqb side_par side_dir fst snd Nat.eqb Bool.eqb];
      match goal with |- context [0 <? ?x] => destruct (Z.ltb_spec 0 x) end; try lia; cbn [negb]; f_equal; lia. }
  rewrite ST.
  match goal with |- (do q <- ?X; _) = _ => assert (LI : X = Ok (T (fun_at bs p' b' s' 0 (side_at_end s' (xorb (ifflip fi) (side_par (side_at_end s h)))) e),
     towards (opp s') (k - d - 1) :: map (transformStep s s' (orientation fi)) rest)) end.
  { rewrite NF. clear TI Fe Fe0 Eu' Ev' ST Er AC AC0. 
    assert (AE : asz b s = asz b' s') by exact SZ. rewrite AE in *. clear AE.
    set (h2 := side_par (side_at_end s h)). assert (h2 = h) as -> by (unfold h2; destruct s, h; reflexivity).
    unfold side_at_end, fun_at, orientation, parMax.
    destruct s'; cbn [Nat.eqb side_dir side_par asz nsz] in *;
      (rewrite (hlocalIndexOf_ok p' b') by (assumption || (unfold coord; destruct h, (ifflip fi); cbn [negb]; lia))); cbn [bind]; f_equal; f_equal; f_equal; unfold L, coord;
      destruct h, (ifflip fi); cbn [negb xorb side_dir side_par]; ring. }
  rewrite LI. reflexivity.
Qed.

(** one step that crosses the interface; the second step (if any) is turned to the matching side *)
Lemma hcross_over p b s s2 p' b' s' s2' d e k (ms : list Z) f :
  glued bs t p b s s2 p' b' s' s2' -> 0 <= d < nsz b s -> 0 <= e < asz b s -> d < k -> k - d - 1 < nsz b' s' ->
  act (fun_at bs p b s d s2 e) = true -> act (fun_at bs p b s 0 s2 e) = true -> act (fun_at bs p' b' s' 0 s2' e) = true ->
  htravel (S (S f)) H m (T (fun_at bs p b s d s2 e)) (towards s k :: map (towards s2) ms) =
  htravel f H m (T (fun_at bs p' b' s' (k - d - 1) s2' e)) (map (towards s2') ms).
Proof.
  intros G D Ee N N' AC AC0 AC'. pose proof G as [E E' (fi & Gf & Io & E2 & O) A SZ]. pose proof (glued_adj' bs t _ _ _ _ _ _ _ _ G) as A'.
  assert (SA : some_act p'). { destruct (htravel_fit p' b' s' s2' 0 e A') as (u & v & Q & U & V); [lia|lia|]. rewrite Q in AC'. now apply (some_L p' b') in AC'. }
  rewrite (hstep_cross p b s s2 p' b' s' s2' d e k (map (towards s2) ms) (map (towards s2') ms)); try assumption; try lia.
  - rewrite (fun_at_opp bs p' b' s' 0), Z.sub_0_r.
    rewrite hstep_inside; try assumption.
    + rewrite (fun_at_opp bs p' b' s' (k - d - 1)). do 2 f_equal.
    + rewrite E2. apply adj_opp.
    + rewrite nsz_opp. lia.
    + rewrite asz_opp. lia.
    + lia.
    + rewrite fun_at_opp, Z.sub_0_r in AC'. exact AC'.
  - intros fj Gj. rewrite Gf in Gj. injection Gj as <-. rewrite map_map. apply map_ext. intros x. rewrite E2. symmetry. now apply transform_adj.
Qed.

Lemma hline_travel p b s s2 p' b' s' s2' d e k f :
  glued bs t p b s s2 p' b' s' s2' -> 0 <= d < nsz b s -> 0 <= e < asz b s -> 0 <= k -> k - d - 1 < nsz b' s' ->
  act (fun_at bs p b s d s2 e) = true -> act (fun_at bs p b s 0 s2 e) = true -> act (fun_at bs p' b' s' 0 s2' e) = true ->
  htravel (S (S f)) H m (T (fun_at bs p b s d s2 e)) [towards s k] = Ok (T (line_fun bs p b s s2 p' b' s' s2' d e k)).
Proof.
  intros G D Ee K N' AC AC0 AC'. pose proof G as [E E' _ A SZ]. unfold line_fun. destruct (Z.leb_spec k d).
  - rewrite hstep_inside; [|assumption..|lia|assumption]. reflexivity.
  - pose proof (hcross_over p b s s2 p' b' s' s2' d e k [] f G D Ee) as X. cbn [map] in X. rewrite X by (assumption || lia). destruct f; reflexivity.
Qed.

Lemma hblock_travel F F1 F2 F3 n1 n2 x y k1 k2 f : square bs t F F1 F2 F3 ->
  room n1 n2 F -> room n1 n2 F1 -> room n1 n2 F2 -> room n1 n2 F3 -> 0 <= x < n1 -> 0 <= y < n2 ->
  0 <= k1 <= n1 -> 0 <= k2 <= n2 ->
  (forall G d e, In G [F; F1; F2; F3] -> 0 <= d < n1 -> 0 <= e < n2 -> act (fun_at bs (fp G) (fb G) (fs1 G) d (fs2 G) e) = true) ->
  htravel (S (S (S (S f)))) H m (T (fun_at bs (fp F) (fb F) (fs1 F) x (fs2 F) y)) [towards (fs1 F) k1; towards (fs2 F) k2] =
  Ok (T (block_fun bs F F1 F2 F3 x y k1 k2)).
Proof.
  intros [(S01 & _) _ (S02 & _) (S13 & _)] (R1 & R2) (R11 & R12) (R21 & R22) (R31 & R32) X Y K1 K2 AC.
  pose proof (gl_adj _ _ _ _ _ _ _ _ _ _ S01) as A. pose proof (gl_b _ _ _ _ _ _ _ _ _ _ S01) as B.
  pose proof (glued_adj' bs t _ _ _ _ _ _ _ _ S01) as A1. pose proof (gl_b' _ _ _ _ _ _ _ _ _ _ S01) as B1.
  pose proof (glued_adj' bs t _ _ _ _ _ _ _ _ S02) as A2. pose proof (glued_adj' bs t _ _ _ _ _ _ _ _ S13) as A3.
  assert (C0 : forall d e, 0 <= d < n1 -> 0 <= e < n2 -> act (fun_at bs (fp F) (fb F) (fs1 F) d (fs2 F) e) = true) by (intros; apply AC; cbn; tauto).
  assert (C1 : forall d e, 0 <= d < n1 -> 0 <= e < n2 -> act (fun_at bs (fp F1) (fb F1) (fs1 F1) d (fs2 F1) e) = true) by (intros; apply AC; cbn; tauto).
  assert (C2 : forall d e, 0 <= d < n1 -> 0 <= e < n2 -> act (fun_at bs (fp F2) (fb F2) (fs2 F2) e (fs1 F2) d) = true) by (intros; rewrite fun_at_swap by assumption; apply AC; cbn; tauto).
  assert (C3 : forall d e, 0 <= d < n1 -> 0 <= e < n2 -> act (fun_at bs (fp F3) (fb F3) (fs2 F3) e (fs1 F3) d) = true) by (intros; rewrite fun_at_swap by assumption; apply AC; cbn; tauto).
  assert (C0' : forall d e, 0 <= d < n1 -> 0 <= e < n2 -> act (fun_at bs (fp F) (fb F) (fs2 F) e (fs1 F) d) = true) by (intros; rewrite fun_at_swap by (now apply adj_sym); now apply C0).
  assert (C1' : forall d e, 0 <= d < n1 -> 0 <= e < n2 -> act (fun_at bs (fp F1) (fb F1) (fs2 F1) e (fs1 F1) d) = true) by (intros; rewrite fun_at_swap by (now apply adj_sym); now apply C1).
  clear AC. unfold block_fun. destruct (Z.leb_spec k1 x).
  - rewrite hstep_inside; [|assumption|assumption|lia|rewrite (adj_asz _ _ _ A); lia|lia|apply C0; lia].
    rewrite (fun_at_swap bs (fp F)) by exact A. destruct (Z.leb_spec k2 y).
    + rewrite hstep_inside; [|assumption|now apply adj_sym|lia|rewrite (adj_asz _ _ _ (adj_sym _ _ A)); lia|lia|apply C0'; lia].
      rewrite (fun_at_swap bs (fp F) (fb F) (fs1 F)) by exact A. reflexivity.
    + pose proof (hcross_over _ _ _ _ _ _ _ _ y (x - k1) k2 [] (S f) S02) as C. cbn [map] in C.
      rewrite C; [|lia|rewrite (adj_asz _ _ _ (adj_sym _ _ A)); lia|lia|lia|apply C0'; lia|apply C0'; lia|apply C2; lia].
      cbn [htravel]. do 2 f_equal. now apply fun_at_swap.
  - pose proof (hcross_over _ _ _ _ _ _ _ _ x y k1 [k2] (S (S f)) S01) as C. cbn [map] in C.
    rewrite C; [|lia|rewrite (adj_asz _ _ _ A); lia|lia|lia|apply C0; lia|apply C0; lia|apply C1; lia]. clear C.
    rewrite (fun_at_swap bs (fp F1)) by exact A1. destruct (Z.leb_spec k2 y).
    + rewrite hstep_inside; [|assumption|now apply adj_sym|lia|rewrite (adj_asz _ _ _ (adj_sym _ _ A1)); lia|lia|apply C1'; lia].
      cbn [htravel]. do 2 f_equal. apply fun_at_swap. now apply adj_sym.
    + pose proof (hcross_over _ _ _ _ _ _ _ _ y (k1 - x - 1) k2 [] f S13) as C. cbn [map] in C.
      rewrite C; [|lia|rewrite (adj_asz _ _ _ (adj_sym _ _ A1)); lia|lia|lia|apply C1'; lia|apply C1'; lia|apply C3; lia].
      destruct f; cbn [htravel]; do 2 f_equal; now apply fun_at_swap.
Qed.
End T.
