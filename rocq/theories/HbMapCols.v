(** The columns that the hierarchical splines of one level start. *)
From Coq Require Import Reals Lra.
From Verif Require Import Common ListLemmas TopoModel TopoSpec TopoProofs MapModel MapSpec MapProofs MapRegions MapTravelSpec MapTravel MapActions MapLines MapAllModel MapAllSpec MapAllLoc MapAllKind MapAllCols MapAllLines MapAllBlocks MapAllCorners MapAllProofs HbMapModel HbMapSpec HbMapIdx.
From Coq Require Import ZifyBool Permutation.
Open Scope Z_scope.

Lemma mapM_map_ok {A B C} (f : A -> res B) (g : A -> res C) (h : B -> C) l : forall r, mapM f l = Ok r -> (forall x y, In x l -> f x = Ok y -> g x = Ok (h y)) -> mapM g l = Ok (map h r).
Proof.
  induction l as [|x l IH]; intros r Q G; cbn [mapM] in *.
  - injection Q as <-. reflexivity.
  - destruct (f x) as [y|] eqn:E; [|discriminate]. cbn [bind] in Q. destruct (mapM f l) as [ys|]; [|discriminate]. injection Q as <-.
    rewrite (G x y (or_introl eq_refl) E). cbn [bind]. rewrite (IH ys eq_refl) by (intros; apply G; [now right|assumption]). reflexivity.
Qed.
Lemma mapM_in {A B} (f : A -> res B) l : forall r y, mapM f l = Ok r -> In y r -> exists x, In x l /\ f x = Ok y.
Proof.
  induction l as [|x l IH]; intros r y Q I; cbn [mapM] in Q.
  - injection Q as <-. destruct I.
  - destruct (f x) as [z|] eqn:E; [|discriminate]. cbn [bind] in Q. destruct (mapM f l) as [ys|]; [|discriminate]. injection Q as <-. destruct I as [<-|I]; [exists x; split; [now left|exact E]|].
    destruct (IH ys y eq_refl I) as (x' & X & Y). exists x'. split; [now right|exact Y].
Qed.

Section C.
Context (H : hmp) (n : Z) (HO : hmp_ok H n) (m : nat) (OK : mp_ok (hlevel H m) n).
Notation M := (hlevel H m).
Notation bs := (mbs (hlevel H m)).
Notation t := (htop H).
Notation hs := (hsizes H).
Notation kind := (kind (hlevel H m)).
Notation valid := (valid (hlevel H m)).
Notation POS := (POS (hlevel H m) n OK).
Notation T := (T H m).
Notation act := (act H m).
Notation colsOf := (colsOf (hlevel H m)).
Notation NUM := (ho_num H n HO).

Definition Tent (e : Z * R) : Z * R := (T (fst e), snd e).
Definition Tcol (c : column) : column := map Tent c.

(** *** Activity *)
Lemma act_fun p b s d s2 e : nth_error bs p = Some b -> adjacent s s2 -> 0 <= d < nsz b s -> 0 <= e < asz b s -> act (fun_at bs p b s d s2 e) = true <-> act_in H m p (place b s d s2 e).
Proof.
  intros E A D Ee. assert (X : exists u v, fun_at bs p b s d s2 e = L bs p b u v /\ 0 <= u < mb_u b /\ 0 <= v < mb_v b /\ place b s d s2 e = u + mb_u b * v).
  { destruct (adj_par s s2 A) as (h & ->). unfold place. destruct s, h; unfold fun_at, coord; cbn [side_at_end side_dir side_par nsz asz before] in *; (eexists _, _; split; [reflexivity|]; split; [lia|]; split; [lia|ring]). }
  destruct X as (u & v & -> & U & V & ->). rewrite (act_L H m POS p b u v E U V). rewrite <- hier_act. lia.
Qed.
Lemma act_row p b s s2 p' b' s' s2' d d' e : glued bs t p b s s2 p' b' s' s2' -> 0 <= d < n -> 0 <= d' < n -> 0 <= e < asz b s ->
  act (fun_at bs p b s d s2 e) = true -> act (fun_at bs p' b' s' d' s2' e) = true.
Proof.
  intros G D D' Ee AC. pose proof G as [B B' _ A SZ]. pose proof (glued_adj' bs t _ _ _ _ _ _ _ _ G) as A'.
  destruct (sizes M n OK p b s B) as (_ & _ & S1 & _). destruct (sizes M n OK p' b' s' B') as (_ & _ & S1' & _).
  apply act_fun in AC; try assumption; [|lia]. apply act_fun; try assumption; [lia|lia|]. exact (ho_rows H n HO m _ _ _ _ _ _ _ _ d d' e G D D' Ee AC).
Qed.
Lemma act_rows p b s s2 p' b' s' s2' d d' e : glued bs t p b s s2 p' b' s' s2' -> glued bs t p' b' s' s2' p b s s2 -> 0 <= d < n -> 0 <= d' < n -> 0 <= e < asz b s ->
  act (fun_at bs p b s d s2 e) = act (fun_at bs p' b' s' d' s2' e).
Proof.
  intros G G' D D' Ee. pose proof (gl_size _ _ _ _ _ _ _ _ _ _ G). pose proof (act_row _ _ _ _ _ _ _ _ d d' e G D D' Ee) as X. pose proof (act_row _ _ _ _ _ _ _ _ d' d e G' D' D) as Y. apply Bool.eq_true_iff_eq. split; [exact X|apply Y; lia].
Qed.
Lemma act_same p b s s2 p' b' s' s2' d d' e : glued bs t p b s s2 p' b' s' s2' -> glued bs t p' b' s' s2' p b s s2 -> 0 <= d < n -> 0 <= d' < n -> 0 <= e < asz b s ->
  act (fun_at bs p b s d s2 e) = act (fun_at bs p b s d' s2 e).
Proof. intros G G' D D' Ee. rewrite (act_rows _ _ _ _ _ _ _ _ d d e G G' D D Ee). symmetry. now apply act_rows. Qed.

Lemma act_square F F1 F2 F3 G G' d e d' e' : square bs t F F1 F2 F3 -> In G [F; F1; F2; F3] -> In G' [F; F1; F2; F3] -> 0 <= d < n -> 0 <= e < n -> 0 <= d' < n -> 0 <= e' < n ->
  act (cf M G d e) = act (cf M G' d' e').
Proof.
  intros SQ. assert (X : forall G d e, In G [F; F1; F2; F3] -> 0 <= d < n -> 0 <= e < n -> act (cf M G d e) = act (cf M F 0 0)).
  { clear d e d' e' G G'. 
    assert (R : forall G, In G [F; F1; F2; F3] -> n <= asz (fb G) (fs1 G) /\ n <= asz (fb G) (fs2 G) /\ adjacent (fs1 G) (fs2 G)).
    { intros G I. destruct (square_iface M n OK _ _ _ _ G SQ I) as (EN & A & _). destruct (sizes M n OK _ _ (fs1 G) EN) as (_ & _ & _ & S1). destruct (sizes M n OK _ _ (fs2 G) EN) as (_ & _ & _ & S2). pose proof (n_ge M n OK _ _ EN). split; [lia|]. split; [lia|exact A]. }
    assert (C1 : forall G G' d d' e, cross1 bs t G G' -> In G [F; F1; F2; F3] -> 0 <= d < n -> 0 <= d' < n -> 0 <= e < n -> act (cf M G d e) = act (cf M G' d' e)).
    { intros G G' d d' e (A & B) I D D' E. destruct (R G I) as (R1 & _). unfold cf. apply (act_rows _ _ _ _ _ _ _ _ d d' e A B D D'). lia. }
    assert (C2 : forall G G' d e e', cross2 bs t G G' -> In G [F; F1; F2; F3] -> In G' [F; F1; F2; F3] -> 0 <= d < n -> 0 <= e < n -> 0 <= e' < n -> act (cf M G d e) = act (cf M G' d e')).
    { intros G G' d e e' (A & B) I I' D E E'. destruct (R G I) as (_ & R2 & AG). destruct (R G' I') as (_ & _ & AG'). unfold cf. rewrite (fun_at_swap bs _ _ _ _ _ _ AG), (fun_at_swap bs _ _ _ _ _ _ AG'). apply (act_rows _ _ _ _ _ _ _ _ e e' d A B E E'). lia. }
    destruct SQ as [S01 S23 S02 S13]. intros G d e I D E. assert (Z : 0 <= 0 < n) by lia.
    assert (Q0 : forall d e, 0 <= d < n -> 0 <= e < n -> act (cf M F d e) = act (cf M F 0 0)).
    { intros d1 e1 D1 E1. rewrite (C1 F F1 d1 0 e1 S01) by (cbn; tauto || lia). rewrite <- (C1 F F1 0 0 e1 S01) by (cbn; tauto || lia). rewrite (C2 F F2 0 e1 0 S02) by (cbn; tauto || lia). symmetry. apply (C2 F F2 0 0 0 S02); cbn; tauto || lia. }
    destruct I as [<-|[<-|[<-|[<-|[]]]]].
    - now apply Q0.
    - rewrite <- (C1 F F1 0 d e S01) by (cbn; tauto || lia). apply Q0; lia.
    - rewrite <- (C2 F F2 d 0 e S02) by (cbn; tauto || lia). apply Q0; lia.
    - rewrite <- (C2 F1 F3 d 0 e S13) by (cbn; tauto || lia). rewrite <- (C1 F F1 0 d 0 S01) by (cbn; tauto || lia). apply Q0; lia. }
  intros I I' D E D' E'. rewrite (X G d e I D E), (X G' d' e' I' D' E'). reflexivity.
Qed.

(** *** Numbers *)
Lemma T_patch x : valid x -> act x = true -> getPatch hs (T x) = getPatch bs x /\ 0 <= T x < nrOfLocals hs.
Proof.
  intros V AC. destruct (decode M n OK x V) as (p & b & u & v & E & U & W & ->). rewrite (getPatch_L bs POS p b u v E U W). split; [now apply (hgetPatch_L H m POS p b)|].
  rewrite (T_L H m POS p b u v E U W). apply (act_T H m). now apply (act_in_L H m POS p b).
Qed.
Lemma some_of x : valid x -> act x = true -> some_act H m (getPatch bs x).
Proof.
  intros V AC. destruct (decode M n OK x V) as (p & b & u & v & E & U & W & ->). rewrite (getPatch_L bs POS p b u v E U W). now apply (some_L H m POS p b u v).
Qed.

Lemma T_inj x y : valid x -> valid y -> act x = true -> T x = T y -> act y = true -> x = y.
Proof.
  intros V V' AC Q AC'. pose proof (proj1 (T_patch x V AC)) as P1. pose proof (proj1 (T_patch y V' AC')) as P2. rewrite Q, P2 in P1.
  destruct (decode M n OK x V) as (p & b & u & v & E & U & W & ->). destruct (decode M n OK y V') as (p' & b' & u' & v' & E' & U' & W' & ->).
  rewrite !getPatch_L in P1 by (assumption || apply POS). subst p'. assert (b' = b) by congruence. subst b'.
  rewrite !(T_L H m POS) in Q by assumption. rewrite (act_L H m POS) in AC by assumption. unfold hier in *. destruct (nth_error (hps H) p) as [P|]; [|discriminate].
  destruct (toHier_inj P (u + mb_u b * v) m (u' + mb_u b * v') m) as (_ & K); [lia|lia|]. unfold L. lia.
Qed.

Lemma hweights_ok p s len dist pn : getNeighbour t (p, s) = Ok pn -> some_act H m p -> some_act H m (fst pn) -> hweights H m p s len dist = weights1 M p s len dist.
Proof.
  intros G (k & A) (k' & A'). unfold hweights, weights1. cbn [mtop hlevel]. rewrite G. cbn [bind].
  pose proof A as (P & xs & E & _). pose proof A' as (P' & xs' & E' & _). unfold vget. rewrite E, E'. cbn [bind]. rewrite (hbase H m NUM p P k E A), (hbase H m NUM _ P' k' E' A'). reflexivity.
Qed.

(** *** Lines and blocks *)
Lemma haddBlock_sim S sides lengths dists cs :
  (forall l, In l lengths -> 0 <= l) -> valid S -> act S = true ->
  (forall s len dist, In s sides -> hweights H m (getPatch bs S) s len dist = weights1 M (getPatch bs S) s len dist) ->
  (forall pt, In pt (enum lengths) -> exists l, travelUVSteps (travelFuel lengths) bs t S (map (fun sx => towards (fst sx) (snd sx)) (combine sides pt)) = Ok l /\
     htravel (travelFuel lengths) H m (T S) (map (fun sx => towards (fst sx) (snd sx)) (combine sides pt)) = Ok (T l) /\ valid l /\ act l = true) ->
  addBlockToMap M S sides lengths dists = Ok cs -> haddBlock H m (T S) sides lengths dists = Ok (map Tcol cs).
Proof.
  intros LN V AC HW TR. unfold addBlockToMap, haddBlock. rewrite (proj1 (T_patch S V AC)).
  rewrite (mapM_ext (fun x => hweights H m (getPatch bs S) (fst x) (fst (snd x)) (snd (snd x))) (fun x => weights1 M (getPatch bs S) (fst x) (fst (snd x)) (snd (snd x))) (combine sides (combine lengths dists))).
  2:{ intros (s, (a, b)) I. apply in_combine_l in I. cbn [fst snd]. now apply HW. }
  destruct (mapM _ (combine sides (combine lengths dists))) as [w1|]; [|discriminate]. cbn [bind].
  rewrite blockPoints_enum by exact LN. cbn [bind].
  match goal with |- (do e <- mapM ?f ?l; _) = _ -> _ => destruct (mapM f l) as [es|] eqn:ES; [|discriminate] end.
  cbn [bind]. intros Q. injection Q as <-.
  assert (IN : forall e, In e es -> valid (fst e) /\ act (fst e) = true).
  { intros e I. destruct (mapM_in _ _ _ _ ES I) as (pt & Hp & F). destruct (TR pt Hp) as (l & T1 & _ & VL & AL). destruct (mapM _ (combine w1 pt)) as [ws|]; [|discriminate]. cbn [bind] in F. cbn [mtop hlevel] in F. rewrite T1 in F. cbn [bind] in F. injection F as <-. cbn [fst]. now split. }
  rewrite (mapM_map_ok _ _ Tent _ _ ES).
  - cbn [bind]. assert (AH : alreadyHandled hs (map fst (map Tent es)) (getPatch bs S) = alreadyHandled bs (map fst es) (getPatch bs S)).
    { unfold alreadyHandled. clear ES. induction es as [|e es IH]; [reflexivity|]. cbn [map existsb]. rewrite IH by (intros; apply IN; now right). destruct (IN e (or_introl eq_refl)) as (VE & AE). unfold Tent at 1. cbn [fst]. now rewrite (proj1 (T_patch _ VE AE)). }
    rewrite AH. change (map (fun P : hpatch => hpBase P m) (hps H)) with bs. destruct (alreadyHandled bs (map fst es) (getPatch bs S)); reflexivity.
  - intros pt y Hp F. destruct (TR pt Hp) as (l & T1 & T2 & _). destruct (mapM _ (combine w1 pt)) as [ws|]; [|discriminate]. cbn [bind] in *. cbn [mtop hlevel] in F. rewrite T1 in F. rewrite T2. cbn [bind] in *. injection F as <-. reflexivity.
Qed.

Lemma hline p b s s2 p' b' s' s2' len d e cs : glued bs t p b s s2 p' b' s' s2' -> glued bs t p' b' s' s2' p b s s2 -> 1 <= len <= n -> 0 <= d < len -> 0 <= e < asz b s ->
  act (fun_at bs p b s d s2 e) = true -> addBlockToMap M (fun_at bs p b s d s2 e) [s] [len] [d] = Ok cs -> haddBlock H m (T (fun_at bs p b s d s2 e)) [s] [len] [d] = Ok (map Tcol cs).
Proof.
  intros G G' LE D Ee AC. pose proof G as [B B' _ A SZ]. pose proof (glued_adj' bs t _ _ _ _ _ _ _ _ G) as A'.
  destruct (sizes M n OK p b s B) as (_ & _ & S1 & _). destruct (sizes M n OK p' b' s' B') as (_ & _ & S1' & _).
  assert (GP : getPatch bs (fun_at bs p b s d s2 e) = p) by (apply getPatch_fun; try assumption; [apply POS|lia]).
  assert (V : valid (fun_at bs p b s d s2 e)) by (apply valid_fun with (n := n); try assumption; lia).
  assert (ACs : forall d', 0 <= d' < n -> act (fun_at bs p b s d' s2 e) = true) by (intros d' D'; rewrite <- AC; apply (act_same _ _ _ _ _ _ _ _ d' d e G G'); lia).
  assert (ACn : forall d', 0 <= d' < n -> act (fun_at bs p' b' s' d' s2' e) = true) by (intros d' D'; rewrite <- AC; symmetry; apply (act_rows _ _ _ _ _ _ _ _ d d' e G G'); lia).
  apply haddBlock_sim; try assumption.
  - intros l [<-|[]]. lia.
  - intros s0 l0 d0 [<-|[]]. rewrite GP. apply (hweights_ok p s _ _ _ (glued_nb M _ _ _ _ _ _ _ _ G)).
    + rewrite <- GP. now apply some_of.
    + cbn [fst]. assert (GP' : getPatch bs (fun_at bs p' b' s' 0 s2' e) = p') by (apply getPatch_fun; try assumption; [apply POS|lia|lia]). rewrite <- GP'. apply some_of; [apply valid_fun with (n := n); try assumption; lia|apply ACn; lia].
  - intros pt Hp. rewrite enum1 in Hp. apply in_map_iff in Hp. destruct Hp as (k & <- & K). apply zrange_in in K. cbn [combine map fst snd].
    exists (line_fun bs p b s s2 p' b' s' s2' d e k). destruct (fuel_ge 2 (travelFuel [len])) as (f & ->); [unfold travelFuel; cbn [sumZ fold_right length]; lia|].
    split; [apply line_travel; try assumption; [apply POS|lia..]|]. split; [apply (hline_travel H m POS NUM); try assumption; try lia; [apply ACs; lia|apply ACn; lia]|].
    unfold line_fun. destruct (Z.leb_spec k d); (split; [apply valid_fun with (n := n); try assumption; lia|]); [apply ACs; lia|apply ACn; lia].
Qed.

Lemma hblock F F1 F2 F3 x y cs : square bs t F F1 F2 F3 -> 0 <= x < n -> 0 <= y < n -> act (cf M F x y) = true ->
  addBlockToMap M (cf M F x y) [fs1 F; fs2 F] [n; n] [x; y] = Ok cs -> haddBlock H m (T (cf M F x y)) [fs1 F; fs2 F] [n; n] [x; y] = Ok (map Tcol cs).
Proof.
  intros SQ X Y AC. destruct (square_room M n OK _ _ _ _ SQ) as (R0 & R1 & R2 & R3). destruct (square_frames bs t F F1 F2 F3 SQ) as ((E & A) & _).
  destruct (sizes M n OK _ _ (fs1 F) E) as (_ & _ & SN & SN2).
  assert (GP : getPatch bs (cf M F x y) = fp F) by (unfold cf; apply getPatch_fun; try assumption; [apply POS|lia..]).
  assert (VV : forall G d e, In G [F; F1; F2; F3] -> 0 <= d < n -> 0 <= e < n -> valid (cf M G d e) /\ getPatch bs (cf M G d e) = fp G).
  { intros G d e I D Ee. destruct (square_iface M n OK _ _ _ _ G SQ I) as (EN & AG & _). destruct (sizes M n OK _ _ (fs1 G) EN) as (_ & _ & S1 & S2). unfold cf. split; [apply valid_fun with (n := n); try assumption; lia|apply getPatch_fun; try assumption; [apply POS|lia|lia]]. }
  assert (AA : forall G d e, In G [F; F1; F2; F3] -> 0 <= d < n -> 0 <= e < n -> act (cf M G d e) = true) by (intros G d e I D Ee; rewrite <- AC; apply (act_square F F1 F2 F3); try assumption; now left).
  destruct (sq_01 _ _ _ _ _ _ SQ) as (G1 & _). destruct (sq_02 _ _ _ _ _ _ SQ) as (G2 & _).
  assert (SA : forall G, In G [F; F1; F2; F3] -> some_act H m (fp G)). { intros G I. destruct (VV G 0 0 I) as (V0 & <-); [lia|lia|]. apply some_of; [exact V0|apply AA; [exact I|lia|lia]]. }
  apply haddBlock_sim; try assumption.
  - intros l [<-|[<-|[]]]; lia.
  - apply VV; [now left|assumption|assumption].
  - rewrite GP. intros s len dist [<-|[<-|[]]].
    + apply (hweights_ok _ _ _ _ _ (glued_nb M _ _ _ _ _ _ _ _ G1)); cbn [fst]; apply SA; cbn; tauto.
    + apply (hweights_ok _ _ _ _ _ (glued_nb M _ _ _ _ _ _ _ _ G2)); cbn [fst]; apply SA; cbn; tauto.
  - intros pt Hp. apply enum_in, in_box2 in Hp. destruct Hp as (k1 & k2 & -> & K1 & K2). cbn [combine map fst snd].
    exists (block_fun bs F F1 F2 F3 x y k1 k2). destruct (fuel_ge 4 (travelFuel [n; n])) as (f & ->); [unfold travelFuel; cbn [sumZ fold_right length]; lia|].
    split; [exact (block_travel bs t POS F F1 F2 F3 n n x y k1 k2 f SQ R0 R1 R2 R3 X Y K1 K2)|].
    split; [exact (hblock_travel H m POS NUM F F1 F2 F3 n n x y k1 k2 f SQ R0 R1 R2 R3 X Y K1 K2 AA)|].
    rewrite (block_fun_cf M). split; [apply VV|apply AA]; try apply fr_in; unfold dep; destruct (Z.leb_spec k1 x), (Z.leb_spec k2 y); lia.
Qed.

(** *** Special vertices *)
Lemma cl_place p P k : nth_error (hps H) p = Some P -> act (cl M (p, k)) = true <-> act_in H m p (place (hpBase P m) (cside k 0) 0 (cside k 1) 0).
Proof.
  intros E. assert (EB : nth_error bs p = Some (hpBase P m)) by (apply bs_nth; eauto). unfold cl. cbn [fst snd]. rewrite EB. unfold cornerFun.
  destruct (sizes M n OK _ _ (cside k 0) EB) as (_ & _ & S1 & S2). pose proof (n_ge M n OK _ _ EB). apply act_fun; [exact EB|apply cside_adj|lia|lia].
Qed.

Lemma act_step c c' : In c' (cn t c) -> act (cl M c) = act (cl M c').
Proof.
  intros I. apply in_cn in I. destruct I as (d & d' & Dd & DN). pose proof (dnext_valid t (CON M n OK) c d c' d' DN) as (V & V').
  destruct c as (p, k). destruct (dnext_spec t p k d c' d' DN) as (ps' & fl & G & EC & _).
  apply (validc_b M n OK) in V. destruct V as (b & E). cbn [fst] in E.
  assert (IF : isInterface t (p, cside k d) = true) by (apply isInterface_glue; eauto using (CON M n OK)).
  set (s := cside k d) in *. set (s2 := cside k (1 - d)).
  assert (A : adjacent s s2) by (unfold s, s2, adjacent; destruct d as [|[|]]; [| |lia]; destruct k; cbn; congruence).
  assert (CK : cornerOf s s2 = k) by (unfold s, s2; destruct d as [|[|]]; [| |lia]; destruct k; reflexivity).
  destruct (mp_glue _ _ OK p b s s2 E IF A) as (p' & b' & s' & s2' & _ & GL & GL'). pose proof GL as [_ E' (f & GF & IO & E2 & _) _ _].
  destruct (glue_iface t (CON M n OK) _ _ _ G) as (f' & GF' & IO' & _). cbn [mtop hlevel] in GF. rewrite GF in GF'. injection GF' as <-. rewrite IO in IO'. injection IO' as <-.
  assert (FL : fl = ifflip f). { unfold glue in G. rewrite GF in G. destruct (ps_eqb (if1 f) (p, s)); now injection G as _ <-. }
  assert (C' : c' = (p', cornerOf s' s2')).
  { rewrite EC. unfold mapc. cbn [fst snd]. f_equal. rewrite E2, FL. assert (PO : pos_on s k = side_par s2) by (unfold s, s2; destruct d as [|[|]]; [| |lia]; destruct k; reflexivity). rewrite PO.
    generalize (xorb (ifflip f) (side_par s2)). intros x. destruct s', x; reflexivity. }
  clear EC. subst c'. unfold cl in *. cbn [fst snd] in *. rewrite E. rewrite E'. rewrite cornerFun_sides by exact (gl_adj _ _ _ _ _ _ _ _ _ _ GL'). rewrite <- CK, cornerFun_sides by exact A.
  pose proof (n_ge M n OK _ _ E). destruct (sizes M n OK _ _ s E) as (_ & _ & _ & S2). apply (act_rows _ _ _ _ _ _ _ _ 0 0 0 GL GL'); lia.
Qed.
Lemma act_reach c c' : reach t c c' -> act (cl M c) = act (cl M c').
Proof. induction 1 as [|a x y R IH I]; [reflexivity|]. rewrite IH. now apply act_step. Qed.

Lemma hcorner_idx pc : validc t pc -> kind (cl M pc) = Singular -> act (cl M pc) = true -> hlocalIndexOfCorner H pc = Ok (T (cl M pc)).
Proof.
  intros VC K AC. pose proof (proj1 (validc_b M n OK pc) VC) as (b & E). destruct pc as (p, k). cbn [fst] in E. pose proof E as EB. apply bs_nth in EB. destruct EB as (P & EP & ->).
  assert (SP : pSpec (hconf H m p) k = true).
  { destruct (cl_patch M n OK (p, k) VC) as (GP & VV). destruct (singular_inv M n OK _ VV K) as (p' & b' & k' & GP' & E' & Q & SP). rewrite GP in GP'. cbn [fst] in GP'. subst p'.
    assert (k' = k); [|now subst k']. assert (QQ : cl M (p, k) = cl M (p, k')) by (rewrite Q; unfold cl; cbn [fst snd]; now rewrite E'). apply (cl_inj M n OK) in QQ; [congruence|exact VC|exact VC]. }
  pose proof (proj1 (cl_place p P k EP) AC) as AI. pose proof AI as (P' & xs & EP' & X & _). assert (P' = P) by congruence. subst P'. clear EP'.
  assert (LT : (m < length (hpX P))%nat) by (apply nth_error_Some; congruence). pose proof (NUM p P EP) as NM.
  unfold hlocalIndexOfCorner. cbn [fst snd]. unfold vget. rewrite EP. cbn [bind].
  assert (PL : forall q, (place (hpBase P q) (cside k 0) 0 (cside k 1) 0) = patchIndex (hpBase P q) (if cpar0 k then parMax (hpBase P q) false else 0) (if cpar1 k then parMax (hpBase P q) true else 0)).
  { intros q. unfold place, fun_at, patchIndex, parMax, coord. destruct k; cbn [cside cpar0 cpar1 side_dir side_par before]; ring. }
  assert (CH : forall levs1, (forall q, In q levs1 -> (q < m)%nat) -> forall levs2, cornerHier P k (levs1 ++ m :: levs2) = Ok (hier H m p (place (hpBase P m) (cside k 0) 0 (cside k 1) 0))).
  { intros levs1 LL levs2. induction levs1 as [|q r IH]; cbn [app cornerHier].
    - unfold hbaseAt. replace (Nat.ltb m (hpNum P)) with true by lia. cbn [bind]. rewrite <- PL. unfold hier. rewrite EP. pose proof (proj2 (hier_act H m p _) AI) as NE. unfold hier in NE. rewrite EP in NE.
      destruct (Z.eqb_spec (toHier P (place (hpBase P m) (cside k 0) 0 (cside k 1) 0) m) (-1)); [contradiction|reflexivity].
    - pose proof (LL q (or_introl eq_refl)) as LQ. unfold hbaseAt. replace (Nat.ltb q (hpNum P)) with true by lia. cbn [bind]. rewrite <- PL.
      destruct (Z.eqb_spec (toHier P (place (hpBase P q) (cside k 0) 0 (cside k 1) 0) q) (-1)) as [_|NE]; [apply IH; intros; apply LL; now right|exfalso].
      apply toHier_act in NE. destruct NE as (ys & Y & IY). assert (m = q); [|lia].
      assert (CK : cornerOf (cside k 0) (cside k 1) = k) by (destruct k; reflexivity).
      apply (ho_corner H n HO m q p P (cside k 0) (cside k 1) EP (cside_adj k)); [now rewrite CK|exact AI|exists P, ys; auto]. }
  replace (seq 0 (length (hpX P))) with (seq 0 m ++ m :: seq (S m) (length (hpX P) - S m)).
  2:{ replace (length (hpX P)) with (m + S (length (hpX P) - S m))%nat at 2 by lia. rewrite seq_app. reflexivity. }
  rewrite CH by (intros q Q; apply in_seq in Q; lia). cbn [bind].
  rewrite firstLocalIndex_ok by (unfold hsizes; rewrite map_length; assert (p < length (hps H))%nat by (apply nth_error_Some; congruence); lia). cbn [bind]. f_equal.
  unfold cl. cbn [fst snd]. rewrite E. unfold cornerFun. destruct (sizes M n OK _ _ (cside k 0) E) as (_ & _ & S1 & S2). pose proof (n_ge M n OK _ _ E).
  unfold HbMapIdx.T. rewrite (getPatch_fun bs POS p _ (cside k 0) (cside k 1) 0 0 E (cside_adj k)) by lia. do 2 f_equal. unfold place, fun_at. cbn [before]. lia.
Qed.

Definition haddK (l : Z) (a : MapModel.act) : res (list column) :=
  match a with
  | Free => Ok [[(l, 1%R)]]
  | Singular => haddCorner H m l
  | Line s len dist => haddBlock H m l [s] [len] [dist]
  | Block s1 s2 len1 len2 dist1 dist2 => haddBlock H m l [s1; s2] [len1; len2] [dist1; dist2]
  end.

Lemma hcorner pc cs : validc t pc -> kind (cl M pc) = Singular -> act (cl M pc) = true -> addSingularCorner M (cl M pc) = Ok cs -> haddCorner H m (T (cl M pc)) = Ok (map Tcol cs).
Proof.
  intros VC K AC AK. pose proof (addK_corner M n OK pc VC K) as AD. rewrite K in AD. cbn [addK] in AD. rewrite AK in AD. injection AD as ->.
  pose proof (proj1 (validc_b M n OK pc) VC) as (b & E). assert (CE : cl M pc = cornerFun M (fst pc) b (snd pc)) by (unfold cl; now rewrite E).
  destruct (cl_L M n OK _ b (snd pc) E) as (u & v & EL & U & W & Zu & Zv & _). unfold haddCorner.
  pose proof AC as AC1. rewrite CE, EL in AC1. cbv zeta. rewrite CE, EL. rewrite !(hgetPar_L H m POS NUM _ b u v _ E U W AC1). cbn [bind]. rewrite (hgetPatch_L H m POS _ b u v E U W AC1).
  assert (CC : (if (u =? 0) && (v =? 0) then SW else if u =? 0 then NW else if v =? 0 then SE else NE) = snd pc) by (rewrite Zu, Zv; destruct (snd pc); reflexivity).
  rewrite CC. rewrite <- surjective_pairing. rewrite (cornerList_cls t (CON M n OK) pc VC). cbn [bind].
  assert (CL : forall x, In x (cls t pc) -> validc t x /\ kind (cl M x) = Singular /\ act (cl M x) = true).
  { intros x X. assert (VX : validc t x) by (eapply cls_valid; [apply (CON M n OK)|exact VC|exact X]). apply in_cls in X; [|apply (CON M n OK)|exact VC]. split; [exact VX|]. split; [now apply (singular_reach M n OK pc x)|]. now rewrite <- (act_reach pc x). }
  rewrite (mapM_ok _ (fun x => T (cl M x))) by (intros x X; destruct (CL x X) as (A & B & C); now apply hcorner_idx). cbn [bind]. f_equal.
  assert (Q : alreadyHandled hs (map (fun x => T (cl M x)) (cls t pc)) (fst pc) = existsb (fun x => (fst x <? fst pc)%nat) (cls t pc)).
  { clear AK. unfold alreadyHandled. revert CL. induction (cls t pc) as [|x l IH]; intros CL; [reflexivity|]. cbn [map existsb]. rewrite IH by (intros; apply CL; now right). destruct (CL x (or_introl eq_refl)) as (A & B & C). destruct (cl_patch M n OK x A) as (GX & VX). now rewrite (proj1 (T_patch _ VX C)), GX. }
  rewrite Q. cbn [mtop hlevel]. match goal with |- context [if existsb ?f ?l then _ else _] => destruct (existsb f l) end; [reflexivity|]. unfold cornerCol, Tcol, Tent. cbn [map]. rewrite !map_map. reflexivity.
Qed.

(** *** All kinds *)
Lemma hcols S : valid S -> act S = true -> haddK (T S) (kind S) = Ok (map Tcol (colsOf S)).
Proof.
  intros V AC. destruct (good M n OK S V) as (AK & _). destruct (kind S) as [| |s len d|s1 s2 n1 n2 d1 d2] eqn:K. all: swap 2 3. all: swap 3 4.
  - cbn [addK] in AK. injection AK as <-. reflexivity.
  - cbn [haddK addK] in *. destruct (line_rep M n OK S s len d V K) as (q & b & sq & q' & b' & s' & s2' & e & X & D & ES).
    pose proof (la_bound M n OK _ _ _ _ _ _ _ _ _ X) as (N2 & M1 & S1 & S1' & E1'). pose proof (la_kind' M n OK _ _ _ _ _ _ _ _ _ d X D) as KB. pose proof X as [G G' LT E Mm KA]. specialize (KA d D). destruct ES as [ES|ES]; rewrite ES in *.
    + rewrite KA in K. injection K as <-. now apply (hline _ _ _ _ _ _ _ _ _ _ _ _ G G').
    + rewrite KB in K. injection K as <-. now apply (hline _ _ _ _ _ _ _ _ _ _ _ _ G' G).
  - cbn [haddK addK] in *. destruct (block_rep M n OK S s1 s2 n1 n2 d1 d2 V K) as (F & F1 & F2 & F3 & X & (G & d & e & GI & D & E & ES)).
    destruct (square_kind M n OK F F1 F2 F3 G d e (ba_sq _ _ _ _ _ X) (ba_spec _ _ _ _ _ X) GI D E) as (d' & e' & D' & E' & EC & KC & _).
    destruct (square_view M F F1 F2 F3 G (ba_sq _ _ _ _ _ X) GI) as (A1 & A2 & A3 & SA & _).
    rewrite <- ES, K in KC. injection KC as -> -> -> -> -> ->. rewrite ES, EC in *. now apply (hblock (nf G) A1 A2 A3).
  - cbn [haddK addK] in *. destruct (corner_rep M n OK S V K) as (pc & VC & ES & ND). rewrite ES in *. now apply hcorner.
Qed.

(** a function is combined with active ones only, or with none *)
Lemma same_act S L c v : valid S -> In c (colsOf S) -> In (L, v) c -> act S = act L.
Proof.
  intros V Ic Iv. destruct (good M n OK S V) as (AK & _). destruct (kind S) as [| |s len d|s1 s2 n1 n2 d1 d2] eqn:K. all: swap 2 3. all: swap 3 4.
  - cbn [addK] in AK. injection AK as AK. rewrite <- AK in Ic. destruct Ic as [<-|[]]. destruct Iv as [Q|[]]. injection Q as <- _. reflexivity.
  - rewrite <- K in AK. destruct (line_member M n OK S L _ c v s len d V K AK Ic Iv) as (q & b & sq & q' & b' & s' & s2' & e & k & X & D & Kk & -> & EL).
    pose proof (la_bound M n OK _ _ _ _ _ _ _ _ _ X) as (N2 & M1 & S1 & S1' & E1'). destruct X as [G G' LT E Mm _]. destruct EL as [->| ->]; [apply (act_same _ _ _ _ _ _ _ _ d k e G G')|apply (act_rows _ _ _ _ _ _ _ _ d k e G G')]; lia.
  - rewrite <- K in AK. destruct (block_member M n OK S L _ c v _ _ _ _ _ _ V K AK Ic Iv) as (F & F1 & F2 & F3 & x & y & X & Dx & Dy & -> & (G & d & e & GI & D & E & ->)).
    apply (act_square F F1 F2 F3 F G x y d e (ba_sq _ _ _ _ _ X) (or_introl eq_refl) GI); assumption.
  - rewrite <- K in AK. destruct (corner_member M n OK S L _ c v V K AK Ic Iv) as (pc & x & VC & -> & _ & X & -> & _). apply in_cls in X; [|apply (CON M n OK)|exact VC]. now apply act_reach.
Qed.

End C.
