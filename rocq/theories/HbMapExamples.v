(** Concrete hierarchical bases for C75. *)
From Coq Require Import Reals Lra.
From Verif Require Import Common ListLemmas TopoModel TopoSpec MapModel MapSpec MapProofs MapTravelSpec SplineModel BoehmModel BoehmSpec MapAllModel MapAllSpec MapAllCols MapAllExamples HbMapModel HbMapSpec.
From Coq Require Import ZifyBool Permutation.
Open Scope Z_scope.
Ltac Zify.zify_post_hook ::= Z.to_euclidean_division_equations.

(** four patches around a vertex; four by four quadratic functions on level 0, six by six on level 1, ten by ten on level 2 *)
Definition kv6 : sbasis := mkSB [0; 0; 0; 1/4; 1/2; 3/4; 1; 1; 1]%R 2.
Definition kv10 : sbasis := mkSB [0; 0; 0; 1/8; 1/4; 3/8; 1/2; 5/8; 3/4; 7/8; 1; 1; 1]%R 2.
Definition size_at (m : nat) : Z := match m with O => 4 | S O => 6 | _ => 10 end.
Definition base_at (m : nat) : mbase := mkMB (size_at m) (size_at m) 2 2.
Definition confl (sp : bool) (m p : nat) : pconf :=
  mkPC (size_at m) (size_at m) 2 2 (fun s => isInterface top4 (p, s)) (fun k => sp && ceq k (centre p)) (fun k => if ceq k (centre p) then 2 else 0) (fun k => if ceq k (centre p) then 2 else 0) false.
Definition hgrid (sp : bool) (X : nat -> list (list Z)) : hmp :=
  mkHM (map (fun p => mkHP base_at 3 (X p)) (seq 0 4)) top4 (confl sp) (fun m _ _ => match m with O => kv4 | S O => kv6 | _ => kv10 end) (fun _ => 1%R).

Lemma size_cases m : 4 <= size_at m. Proof. destruct m as [|[|m]]; cbn; lia. Qed.
Ltac glue5 := constructor; [reflexivity|reflexivity|eexists; split; [reflexivity|]; split; [reflexivity|]; split; [reflexivity|]; intros _; reflexivity|unfold adjacent; cbn; congruence|reflexivity].

Lemma hgrid_level sp X m : mp_ok (hlevel (hgrid sp X) m) 2.
Proof.
  constructor; cbn [mbs mtop mconf mkv mwt hgrid hlevel hps htop hconf hkv hwt map seq hpBase].
  - exact top4_ok.
  - reflexivity.
  - intros p b E. cbv zeta. assert (b = base_at m) as -> by (destruct p as [|[|[|[|p]]]]; cbn in E; try congruence; destruct p; discriminate).
    cbn [pU pV pdu pdv pOne confl base_at mb_u mb_v pInt]. do 5 (split; [reflexivity|]). split; [|reflexivity].
    assert (P : (p < 4)%nat) by (apply (proj1 (nth_error_Some [base_at m; base_at m; base_at m; base_at m] p)); congruence). clear E. pose proof (size_cases m) as SZ.
    constructor; try (cbn [confl pU pV pdu pdv pH pW]; lia).
    + intros k. cbn [confl pH pW]. destruct (ceq k (centre p)); lia.
    + intros k. destruct sp, p as [|[|[|[|p]]]]; try lia; destruct k; destruct m as [|[|m]]; cbn; lia.
  - intros p b s s2 E I A. exists (nbp p s), (base_at m), (opps s), s2. destruct p as [|[|[|[|p]]]]; [..|destruct p; discriminate]; cbn in E; injection E as <-;
      (destruct s; try discriminate I; destruct s2; try (elim A; reflexivity); (split; [discriminate|]; split; glue5)).
  - intros p b s s2 p' b' s' s2' [E E' (f & GI & O & S2 & _) A Z]. destruct p as [|[|[|[|p]]]]; [..|destruct p; discriminate]; clear E E' Z;
      (destruct s; cbn in GI; try discriminate GI; injection GI as <-; cbn in O; injection O as <- <-; subst s2'; destruct s2; try (elim A; reflexivity); destruct sp; cbn; (split; [reflexivity|split; intros; reflexivity || discriminate])).
  - intros p b s s2 E A I I2 SPC. exists (mkF (nbp p s) (base_at m) (opps s) s2), (mkF (nbp p s2) (base_at m) s (opps s2)), (mkF (nbp (nbp p s) s2) (base_at m) (opps s) (opps s2)). 
    destruct p as [|[|[|[|p]]]]; [..|destruct p; discriminate]; cbn in E; injection E as <-;
      (destruct s; try discriminate I; destruct s2; try discriminate I2; try (elim A; reflexivity); clear I I2 A SPC; (split; [constructor; split; glue5|unfold distinct4; cbn; repeat (constructor; [cbn; intuition congruence|]); constructor])).
  - intros p k l P Q C. destruct sp; [|discriminate Q]. assert (k = centre p) as -> by (cbn in Q; destruct k, (centre p); try discriminate; reflexivity). cbn in P. destruct p as [|[|[|[|p]]]]; [..|lia]; vm_compute in C; injection C as <-; cbn; repeat (constructor; [cbn; intuition congruence|]); constructor.
  - intros _ _. destruct m as [|[|m]].
    + exists 1%R, [(1/2)%R]. split; [reflexivity|]. split; [lra|]. split; [intros i j; cbn; destruct i as [|i], j as [|j]; cbn; intros; lia || lra|]. intros v V. cbn in V. destruct V as [<-|V]; [lra|destruct V].
    + exists 1%R, [(1/4)%R; (1/2)%R; (3/4)%R]. split; [reflexivity|]. split; [lra|]. split; [intros i j I; cbn in I; destruct i as [|[|[|i]]], j as [|[|[|j]]]; cbn; lia || lra|]. intros v V. cbn in V. destruct V as [<-|[<-|[<-|V]]]; [lra|lra|lra|destruct V].
    + exists 1%R, [(1/8)%R; (1/4)%R; (3/8)%R; (1/2)%R; (5/8)%R; (3/4)%R; (7/8)%R]. split; [reflexivity|]. split; [lra|].
      split; [intros i j I; cbn [length] in I; destruct i as [|[|[|[|[|[|[|i]]]]]]], j as [|[|[|[|[|[|[|j]]]]]]]; cbn [nth]; lia || lra|]. intros v V. cbn [In] in V. repeat (destruct V as [<-|V]; [lra|]). destruct V.
  - intros p s p' s' _. split; [destruct m as [|[|m]]; reflexivity|]. destruct m as [|[|m]]; cbn; lia.
  - intros _. lra.
Qed.

(** interfaces of the four patches *)
Lemma hgrid_glued sp X m p b s s2 p' b' s' s2' : glued (mbs (hlevel (hgrid sp X) m)) top4 p b s s2 p' b' s' s2' ->
  (p < 4)%nat /\ b = base_at m /\ b' = base_at m /\ s2' = s2 /\ adjacent s s2 /\ s' = opps s /\ p' = nbp p s /\ isInterface top4 (p, s) = true.
Proof.
  intros [E E' (f & GI & O & S2 & _) A Z]. cbn [mbs hlevel hgrid hps map seq hpBase] in E, E'.
  assert (P : (p < 4)%nat) by (apply (proj1 (nth_error_Some [base_at m; base_at m; base_at m; base_at m] p)); congruence).
  assert (b = base_at m) by (destruct p as [|[|[|[|p]]]]; cbn in E; try congruence; destruct p; discriminate). assert (b' = base_at m) by (destruct p' as [|[|[|[|p']]]]; cbn in E'; try congruence; destruct p'; discriminate).
  split; [exact P|]. split; [assumption|]. split; [assumption|]. clear E E' Z.
  destruct p as [|[|[|[|p]]]]; [..|lia]; (destruct s; cbn in GI; try discriminate GI; injection GI as <-; cbn in O; injection O as <- <-; subst s2'; destruct s2; try (elim A; reflexivity); auto 8).
Qed.
Lemma hgrid_act sp X m p k : act_in (hgrid sp X) m p k <-> (p < 4)%nat /\ exists xs, nth_error (X p) m = Some xs /\ In k xs.
Proof.
  unfold act_in. cbn [hps hgrid map seq]. split.
  - intros (P & xs & E & Y & I). destruct p as [|[|[|[|p]]]]; cbn in E; [..|destruct p; discriminate]; injection E as <-; (split; [lia|eauto]).
  - intros (L & xs & Y & I). destruct p as [|[|[|[|p]]]]; [..|lia]; (eexists _, xs; split; [reflexivity|]; split; [exact Y|exact I]).
Qed.
Lemma hgrid_patch sp X p P : nth_error (hps (hgrid sp X)) p = Some P -> (p < 4)%nat /\ P = mkHP base_at 3 (X p).
Proof. intros E. destruct p as [|[|[|[|p]]]]; cbn in E; [..|destruct p; discriminate]; injection E as <-; (split; [lia|reflexivity]). Qed.
Lemma zrange_nth a b i : (i < length (zrange a b))%nat -> nth i (zrange a b) 0 = a + Z.of_nat i.
Proof.
  unfold zrange. rewrite map_length, seq_length. intros I. rewrite (nth_indep _ 0 (a + Z.of_nat 0)) by (rewrite map_length, seq_length; exact I). rewrite (map_nth (fun k => a + Z.of_nat k)), seq_nth by exact I. lia.
Qed.

(** the lower half of the two lower patches is refined *)
Definition Xlow (p : nat) : list (list Z) := match p with O | S O => [zrange 4 16; zrange 0 12] | _ => [zrange 0 16] end.
Definition low (sp : bool) : hmp := hgrid sp Xlow.
Local Opaque zrange.
Lemma low_act sp m p k : act_in (low sp) m p k <-> (m = 0%nat /\ (p < 2)%nat /\ 4 <= k < 16) \/ (m = 1%nat /\ (p < 2)%nat /\ 0 <= k < 12) \/ (m = 0%nat /\ (2 <= p < 4)%nat /\ 0 <= k < 16).
Proof.
  unfold low. rewrite hgrid_act. split.
  - intros (P & xs & E & I). destruct p as [|[|p]]; cbn [Xlow] in E; (destruct m as [|[|m]]; cbn in E; try discriminate; [injection E as <-..|destruct m; discriminate] || (destruct m as [|m]; cbn in E; [injection E as <-|destruct m; discriminate])); apply zrange_in in I; lia.
  - intros [(-> & P & K)|[(-> & P & K)|(-> & P & K)]]; (split; [lia|]); destruct p as [|[|p]]; try lia; (eexists; split; [reflexivity|apply zrange_in; exact K]).
Qed.
Lemma low_ok sp : hmp_ok (low sp) 2.
Proof.
  constructor.
  - intros m p P _ _. apply hgrid_level.
  - intros p P E. apply hgrid_patch in E. destruct E as (_ & ->). cbn [hpX hpNum]. destruct p as [|[|p]]; cbn; lia.
  - intros p P m xs k E X I. assert (A : act_in (low sp) m p k) by (exists P, xs; auto). apply low_act in A. apply hgrid_patch in E. destruct E as (_ & ->). cbn [hpBase]. unfold mb_size, base_at. cbn [mb_u mb_v]. destruct A as [(-> & _ & K)|[(-> & _ & K)|(-> & _ & K)]]; cbn [size_at]; lia.
  - intros p P m xs i j E X I. apply hgrid_patch in E. destruct E as (_ & ->). cbn [hpX] in X. assert (Y : exists a b, xs = zrange a b). { destruct p as [|[|p]]; cbn [Xlow] in X; (destruct m as [|[|m]]; cbn in X; try discriminate; [injection X as <-..|destruct m; discriminate] || (destruct m as [|m]; cbn in X; [injection X as <-|destruct m; discriminate])); eauto. }
    destruct Y as (a & b & ->). rewrite !zrange_nth by lia. lia.
  - intros m p b s s2 p' b' s' s2' d d' e G D D' Ee A. apply hgrid_glued in G. destruct G as (P & -> & -> & -> & AD & -> & -> & IF). apply low_act in A. apply low_act. unfold place in *.
    destruct p as [|[|[|[|p]]]]; [..|lia]; destruct s; try discriminate IF; destruct s2; try (elim AD; reflexivity);
      (destruct A as [(-> & Q & K)|[(-> & Q & K)|(-> & Q & K)]]; try lia; unfold fun_at, coord, base_at in *; cbn [side_dir side_par before mb_u mb_v size_at asz nsz opps nbp] in *; lia).
  - intros m m' p P s s2 E AD SP A A'. apply hgrid_patch in E. destruct E as (LT & ->). cbn [hpBase] in *. apply low_act in A, A'. unfold place in *. destruct sp; [|discriminate]. 
    destruct p as [|[|[|[|p]]]]; [..|lia]; destruct s, s2; try (elim AD; reflexivity); try discriminate SP;
      (destruct A as [(-> & Q & K)|[(-> & Q & K)|(-> & Q & K)]]; destruct A' as [(-> & Q' & K')|[(-> & Q' & K')|(-> & Q' & K')]]; try lia; unfold fun_at, coord, base_at in *; cbn [side_dir side_par before mb_u mb_v size_at asz nsz opps nbp] in *; lia).
Qed.

(** *** Strips that are too narrow *)
Definition Xstrip (p : nat) : list (list Z) := match p with
  | O | S (S O) => [filter (fun k => negb (k mod 4 =? 3)) (zrange 0 16); filter (fun k => 4 <=? k mod 6) (zrange 0 36)]
  | _ => [filter (fun k => negb (k mod 4 =? 0)) (zrange 0 16); filter (fun k => k mod 6 <=? 1) (zrange 0 36)] end.
Definition strip : hmp := hgrid false Xstrip.

(** *** The corner function on two levels *)
Definition Xtwo (p : nat) : list (list Z) :=
  [zrange 0 16; []; filter (fun k => (match p with O | S (S O) => 8 <=? k mod 10 | _ => k mod 10 <=? 1 end) && (match p with O | S O => 8 <=? k / 10 | _ => k / 10 <=? 1 end)) (zrange 0 100)].
Definition two : hmp := hgrid true Xtwo.

Fixpoint ascending (l : list Z) : bool := match l with x :: ((y :: _) as r) => (x <? y) && ascending r | _ => true end.
Lemma ascending_ok l : ascending l = true -> forall i j, (i < j < length l)%nat -> nth i l 0 < nth j l 0.
Proof.
  induction l as [|x [|y r] IH]; intros A i j I; cbn [length] in I; try lia. cbn [ascending] in A. apply andb_prop in A. destruct A as (XY & A). specialize (IH A). destruct i as [|i], j as [|j]; try lia.
  - cbn [nth]. destruct j as [|j]; [cbn; lia|]. specialize (IH 0%nat (S j)). cbn [nth length] in *. lia.
  - change (nth i (y :: r) 0 < nth j (y :: r) 0). apply IH. cbn [length]. lia.
Qed.
Lemma hgrid_lists sp X : (forall p, (p < 4)%nat -> (length (X p) <= 3)%nat /\ forall m xs, nth_error (X p) m = Some xs -> ascending xs = true /\ forall k, In k xs -> 0 <= k < mb_size (base_at m)) -> hmp_lists (hgrid sp X) 2.
Proof.
  intros C. split; [intros; apply hgrid_level|]. split; [|split].
  - intros p P E. apply hgrid_patch in E. destruct E as (LT & ->). cbn [hpX hpNum]. now apply C.
  - intros p P m xs k E Y I. apply hgrid_patch in E. destruct E as (LT & ->). cbn [hpBase hpX] in *. destruct (C p LT) as (_ & D). now apply (proj2 (D m xs Y)).
  - intros p P m xs i j E Y I. apply hgrid_patch in E. destruct E as (LT & ->). cbn [hpX] in *. destruct (C p LT) as (_ & D). apply ascending_ok; [exact (proj1 (D m xs Y))|exact I].
Qed.
Lemma strip_act m p k : act_in strip m p k <-> (p < 4)%nat /\ ((m = 0%nat /\ 0 <= k < 16 /\ k mod 4 <> (if Nat.even p then 3 else 0)) \/ (m = 1%nat /\ 0 <= k < 36 /\ if Nat.even p then 4 <= k mod 6 else k mod 6 <= 1)).
Proof.
  unfold strip. rewrite hgrid_act. split; (intros (P & Q); split; [exact P|]).
  - destruct Q as (xs & E & I). destruct p as [|[|[|[|p]]]]; [..|lia]; cbn [Xstrip] in E; cbn [Nat.even]; (destruct m as [|[|m]]; cbn in E; [injection E as <-|injection E as <-|destruct m; discriminate]); apply filter_In in I; destruct I as (I & J); apply zrange_in in I; lia.
  - destruct p as [|[|[|[|p]]]]; [..|lia]; cbn [Nat.even] in Q; (destruct Q as [(-> & K & J)|(-> & K & J)]; (eexists; split; [reflexivity|]; apply filter_In; split; [apply zrange_in; exact K|lia])).
Qed.
Local Transparent zrange.
Lemma strip_lists : hmp_lists strip 2.
Proof.
  apply hgrid_lists. intros p LT. split; [destruct p as [|[|[|[|p]]]]; cbn; lia|]. intros m xs E. split.
  - destruct p as [|[|[|[|p]]]]; [..|lia]; (destruct m as [|[|m]]; [injection E as <-; vm_compute; reflexivity|injection E as <-; vm_compute; reflexivity|destruct m; discriminate]).
  - intros k I. assert (A : act_in strip m p k) by (apply hgrid_act; split; [exact LT|eauto]). apply strip_act in A. unfold mb_size. destruct A as (_ & [(-> & K & _)|(-> & K & _)]); cbn; lia.
Qed.
Lemma strip_mirrored : mirrored strip 2.
Proof.
  intros m p b s s2 p' b' s' s2' d e G D Ee A. apply hgrid_glued in G. destruct G as (P & -> & -> & -> & AD & -> & -> & IF). apply strip_act in A. apply strip_act. unfold place in *. destruct A as (_ & A).
  destruct p as [|[|[|[|p]]]]; [..|lia]; destruct s; try discriminate IF; destruct s2; try (elim AD; reflexivity); cbn [Nat.even nbp side_dir] in *; (split; [lia|]);
    (destruct A as [(-> & Q & K)|(-> & Q & K)]; [left|right]; (split; [reflexivity|]); unfold fun_at, coord, base_at in *; cbn [side_dir side_par before mb_u mb_v size_at asz nsz opps nbp] in *; lia).
Qed.
Lemma strip_corners : corners_once strip.
Proof. intros m m' p P s s2 _ _ SP. discriminate SP. Qed.

Lemma two_act m p k : act_in two m p k <-> (p < 4)%nat /\ ((m = 0%nat /\ 0 <= k < 16) \/ (m = 2%nat /\ 0 <= k < 100 /\ (if Nat.even p then 8 <= k mod 10 else k mod 10 <= 1) /\ (if Nat.ltb p 2 then 8 <= k / 10 else k / 10 <= 1))).
Proof.
  unfold two. rewrite hgrid_act. split; (intros (P & Q); split; [exact P|]).
  - destruct Q as (xs & E & I). unfold Xtwo in E. destruct m as [|[|[|m]]]; cbn [nth_error] in E; [injection E as <-| | |destruct m; discriminate].
    + left. apply zrange_in in I. lia.
    + injection E as <-. destruct I.
    + right. assert (I2 : exists f, In k (filter f (zrange 0 100)) /\ f = (fun k => (match p with O | S (S O) => 8 <=? k mod 10 | _ => k mod 10 <=? 1 end) && (match p with O | S O => 8 <=? k / 10 | _ => k / 10 <=? 1 end))) by (eexists; split; [|reflexivity]; congruence).
      destruct I2 as (f & I2 & ->). apply filter_In in I2. destruct I2 as (I2 & J). apply zrange_in in I2. split; [reflexivity|]. split; [lia|]. destruct p as [|[|[|[|p]]]]; [..|lia]; cbn [Nat.even Nat.ltb Nat.leb]; lia.
  - destruct Q as [(-> & K)|(-> & K & J)].
    + eexists. split; [reflexivity|]. apply zrange_in. lia.
    + eexists. split; [reflexivity|]. apply filter_In. split; [apply zrange_in; lia|]. destruct p as [|[|[|[|p]]]]; [..|lia]; cbn [Nat.even Nat.ltb Nat.leb] in J; lia.
Qed.
Lemma two_lists : hmp_lists two 2.
Proof.
  apply hgrid_lists. intros p LT. split; [cbn; lia|]. intros m xs E. split.
  - destruct p as [|[|[|[|p]]]]; [..|lia]; (destruct m as [|[|[|m]]]; [injection E as <-; vm_compute; reflexivity|injection E as <-; vm_compute; reflexivity|injection E as <-; vm_compute; reflexivity|destruct m; discriminate]).
  - intros k I. assert (A : act_in two m p k) by (apply hgrid_act; split; [exact LT|eauto]). apply two_act in A. unfold mb_size. destruct A as (_ & [(-> & K)|(-> & K & _)]); cbn; lia.
Qed.
Lemma two_rows : rows_matched two 2.
Proof.
  intros m p b s s2 p' b' s' s2' d d' e G D D' Ee A. apply hgrid_glued in G. destruct G as (P & -> & -> & -> & AD & -> & -> & IF). apply two_act in A. apply two_act. unfold place in *. destruct A as (_ & A).
  destruct p as [|[|[|[|p]]]]; [..|lia]; destruct s; try discriminate IF; destruct s2; try (elim AD; reflexivity); cbn [Nat.even Nat.ltb Nat.leb nbp side_dir] in *; (split; [lia|]);
    (destruct A as [(-> & Q)|(-> & Q & K)]; [left|right]; (split; [reflexivity|]); unfold fun_at, coord, base_at in *; cbn [side_dir side_par before mb_u mb_v size_at asz nsz opps nbp] in *; lia).
Qed.

Lemma mapM_fails {A B} (f : A -> res B) l x : In x l -> f x = Err -> mapM f l = Err.
Proof.
  induction l as [|z l IH]; intros I E; [destruct I|]. cbn [mapM]. destruct I as [->|I]; [now rewrite E|]. rewrite (IH I E). now destruct (f z).
Qed.
(** an action that fails *)
Lemma mapper_fails H p P m xa : nth_error (hps H) p = Some P -> (m < length (hpX P))%nat -> (m < hlevels H)%nat -> In xa (patchActions (hconf H m p)) -> haddAction H m p xa = Err -> hmakeMapper H = Err.
Proof.
  intros E LT LV I A. unfold hmakeMapper. rewrite (mapM_fails _ _ p); [reflexivity|apply in_seq; assert (p < length (hps H))%nat by (apply nth_error_Some; congruence); lia|].
  unfold hpatchColumns, vget. rewrite E. cbn [bind]. rewrite (mapM_fails _ _ m); [reflexivity|apply in_seq; lia|]. cbv beta. replace (Nat.ltb m (length (hpX P))) with true by lia. rewrite (mapM_fails _ _ xa); [reflexivity|exact I|exact A].
Qed.
Lemma strip_action : haddAction strip 0 0 ((2, 0), Line East 2 1) = Err.
Proof.
  assert (N : getNeighbour (mtop (hlevel strip 0)) (0%nat, East) = Ok (1%nat, West)) by reflexivity.
  destruct (weights_pf (hlevel strip 0) 2 (hgrid_level false Xstrip 0) 0%nat East 2 (1%nat, West) N) as (WO & _); [lia|]. destruct (WO 1 ltac:(lia)) as (W & LE & _). clear WO.
  assert (WL : exists a b c, Wt (hlevel strip 0) 0 East 2 1 = [a; b; c]). { destruct (Wt (hlevel strip 0) 0 East 2 1) as [|a [|b [|c [|]]]]; try discriminate LE. eauto. }
  destruct WL as (a & b & c & WL). rewrite WL in W.
  assert (HW : hweights strip 0 0 East 2 1 = Ok [a; b; c]) by exact W.
  change (haddAction strip 0 0 (2, 0, Line East 2 1)) with (haddBlock strip 0 2 [East] [2] [1]). unfold haddBlock. cbn [combine mapM fst snd]. change (getPatch (hsizes strip) 2) with 0%nat. rewrite HW. cbn [bind]. reflexivity.
Qed.
Lemma rows_pf : exists H, hmp_lists H 2 /\ corners_once H /\ mirrored H 2 /\ hlocalIndexOf H 0 0 3 0 = Ok (-1) /\ hmakeMapper H = Err.
Proof.
  exists strip. split; [exact strip_lists|]. split; [exact strip_corners|]. split; [exact strip_mirrored|]. split; [vm_compute; reflexivity|].
  apply (mapper_fails strip 0 (mkHP base_at 3 (Xstrip 0)) 0 ((2, 0), Line East 2 1)); [reflexivity|cbn; lia|cbn; lia|vm_compute; tauto|exact strip_action].
Qed.
Lemma two_pf : exists H c, hmp_lists H 2 /\ rows_matched H 2 /\
  In ((3, 3), Singular) (patchActions (hconf H 0 0)) /\ haddAction H 0 0 ((3, 3), Singular) = Ok [c] /\ In ((9, 9), Singular) (patchActions (hconf H 2 0)) /\ haddAction H 2 0 ((9, 9), Singular) = Ok [c] /\
  act_in H 2 0 99 /\ hlocalIndexOf H 2 0 9 9 = Ok 19 /\ ~ In 19 (map fst c).
Proof.
  exists two. eexists. split; [exact two_lists|]. split; [exact two_rows|]. split; [vm_compute; tauto|]. split; [reflexivity|]. split; [vm_compute; tauto|]. split; [reflexivity|]. split; [|split; [reflexivity|cbn [map fst]; intros I; repeat (destruct I as [I|I]; [discriminate I|]); destruct I]].
  apply two_act. split; [lia|]. right. split; [reflexivity|]. vm_compute. repeat split; discriminate.
Qed.
Lemma conn_refuted_pf : exists H, hmp_ok H 2 /\
  (* neighbours: (2,1) and (1,1); the answer is no *) hlocalIndexOf H 0 0 2 1 = Ok 2 /\ hlocalIndexOf H 0 0 1 1 = Ok 1 /\ hisLocallyConnected H 2 1 = Ok false /\
  (* no neighbours: (1,3) and (0,1); the answer is yes *) hlocalIndexOf H 0 0 1 3 = Ok 9 /\ hlocalIndexOf H 0 0 0 1 = Ok 0 /\ hisLocallyConnected H 9 0 = Ok true.
Proof. exists (low true). split; [apply low_ok|]. repeat (split; [vm_compute; reflexivity|]). vm_compute. reflexivity. Qed.

Lemma hnonvacuous_pf : (forall sp, hmp_ok (low sp) 2) /\ hlocals (low true) = 80 /\
  (* inactive, active on the finer level, special vertex *) haddAction (low true) 0 0 ((0, 0), Free) = Ok [] /\ haddAction (low true) 1 0 ((0, 0), Free) = Ok [[(12, 1%R)]] /\
  In ((3, 3), Singular) (patchActions (hconf (low true) 0 0)) /\ haddAction (low true) 0 0 ((3, 3), Singular) = Ok [[(11, 1%R); (32, 1%R); (51, 1%R); (64, 1%R)]].
Proof. split; [exact low_ok|]. split; [reflexivity|]. split; [reflexivity|]. split; [reflexivity|]. split; [vm_compute; tauto|reflexivity]. Qed.
