(** Proofs for C78. *)
From Verif Require Import Common ListLemmas TopoModel HbModel HbCoefModel HbCoefSpec.

Section P.
Context {C X V : Type} (hsz : hbasis -> nat) (refC : hbasis -> list hbox -> list C -> res (list C)) (value : hbasis -> list C -> X -> V).
Hypothesis CO : core_ok hsz refC value.

(** coefficients that fit the bases; [same]: the same spline *)
Definition fits (bs : list hbasis) (cs : list (option (list C))) : Prop :=
  length cs = length bs /\ forall p h c, nth_error bs p = Some h -> nth_error cs p = Some (Some c) -> length c = hsz h.
Definition same (bs : list hbasis) (cs : list (option (list C))) (bs' : list hbasis) (cs' : list (option (list C))) : Prop :=
  length bs' = length bs /\ length cs' = length cs /\
  forall p, match nth_error cs p, nth_error cs' p with
            | Some (Some c), Some (Some c') => forall h h', nth_error bs p = Some h -> nth_error bs' p = Some h' -> forall x, value h' c' x = value h c x
            | Some None, Some None => True
            | None, None => True
            | _, _ => False
            end.
Lemma same_refl bs cs : same bs cs bs cs.
Proof. split; [reflexivity|]. split; [reflexivity|]. intros p. destruct (nth_error cs p) as [[c|]|]; trivial. intros h h' -> E. injection E as <-. reflexivity. Qed.
Lemma same_trans bs cs bs' cs' bs'' cs'' : same bs cs bs' cs' -> same bs' cs' bs'' cs'' -> length cs' = length bs' -> same bs cs bs'' cs''.
Proof.
  intros (L & L' & S1) (M & M' & S2) LE. split; [congruence|]. split; [congruence|]. intros p. specialize (S1 p). specialize (S2 p).
  destruct (nth_error cs p) as [[c|]|]; destruct (nth_error cs' p) as [[c'|]|] eqn:E; destruct (nth_error cs'' p) as [[c''|]|]; try contradiction; trivial.
  intros h h'' H H'' x. destruct (nth_error bs' p) as [h'|] eqn:E'; [rewrite (S2 h' h'' eq_refl H''); now apply S1|].
  apply nth_error_None in E'. assert (p < length cs') by (apply nth_error_Some; congruence). lia.
Qed.

Lemma nth_error_upd {A} (l : list A) p x q : p < length l -> nth_error (upd l p x) q = if Nat.eqb q p then Some x else nth_error l q.
Proof.
  revert p q. induction l as [|a l IH]; intros p q L; [cbn in L; lia|]. destruct p as [|p]; destruct q as [|q]; try reflexivity. cbn. apply IH. cbn in L. lia.
Qed.
Lemma upd_length' {A} (l : list A) p x : length (upd l p x) = length l.
Proof. revert p. induction l as [|a l IH]; intros [|p]; cbn; try reflexivity; now rewrite ?IH. Qed.
Lemma vset_lt {A} (l : list A) p x : p < length l -> vset l p x = Ok (upd l p x).
Proof. intros L. unfold vset. now replace (p <? length l) with true by (symmetry; now apply Nat.ltb_lt). Qed.

Lemma refineBoth_ok bs cs p add h : fits bs cs -> nth_error bs p = Some h -> exists cs', refineBoth refC bs cs p add = Ok (upd bs p (refineElements h add), cs') /\
  fits (upd bs p (refineElements h add)) cs' /\ same bs cs (upd bs p (refineElements h add)) cs' /\ (forall q, q <> p -> nth_error cs' q = nth_error cs q).
Proof.
  intros (L & F) E. assert (LP : p < length bs) by (apply nth_error_Some; congruence).
  unfold refineBoth. unfold vget. rewrite E. cbn [bind]. destruct (nth_error cs p) as [c|] eqn:EC; [|apply nth_error_None in EC; lia]. cbn [bind].
  set (R := refineElements h add).
  assert (G : exists c', match c with None => Ok None | Some c0 => do c' <- refC h add c0; Ok (Some c') end = Ok c' /\
     match c, c' with Some c, Some c' => length c' = hsz R /\ forall x, value R c' x = value h c x | None, None => True | _, _ => False end).
  { destruct c as [c|]; [|exists None; now split]. destruct (CO h add c (F p h c E EC)) as (c' & E1 & E2 & E3). exists (Some c'). rewrite E1. now split. }
  destruct G as (c' & G1 & G2). rewrite G1. cbn [bind]. rewrite vset_lt by exact LP. cbn [bind]. rewrite vset_lt by lia. cbn [bind].
  exists (upd cs p c'). split; [reflexivity|]. split; [|split].
  - split; [now rewrite !upd_length'|]. intros q h' d H H'. rewrite nth_error_upd in H by exact LP. rewrite nth_error_upd in H' by lia. destruct (Nat.eqb q p).
    + injection H as <-. injection H' as ->. destruct c; [apply G2|contradiction].
    + now apply (F q).
  - split; [now rewrite upd_length'|]. split; [now rewrite upd_length'|]. intros q. rewrite (nth_error_upd cs) by lia. destruct (Nat.eqb_spec q p) as [->|N].
    + rewrite EC. destruct c as [c|]; destruct c' as [c'|]; try contradiction; trivial. intros h0 h' H H'. rewrite nth_error_upd, Nat.eqb_refl in H' by exact LP. injection H' as <-. rewrite E in H. injection H as <-. apply G2.
    + destruct (nth_error cs q) as [[d|]|]; trivial. intros h0 h' H H'. rewrite nth_error_upd in H' by exact LP. replace (Nat.eqb q p) with false in H' by (symmetry; now apply Nat.eqb_neq). rewrite H in H'. now injection H' as <-.
  - intros q N. rewrite nth_error_upd by lia. now replace (Nat.eqb q p) with false by (symmetry; now apply Nat.eqb_neq).
Qed.

Lemma refine_nil h : refineElements h [] = h.
Proof. destruct h. unfold refineElements. cbn. now rewrite app_nil_r. Qed.
Lemma upd_same {A} (l : list A) p x : nth_error l p = Some x -> upd l p x = l.
Proof. revert p. induction l as [|a l IH]; intros [|p] H; cbn in *; try discriminate; [now injection H as ->|]. f_equal. now apply IH. Qed.

(** one round: the bases as without coefficients *)
Lemma round_ok t incr bs cs p todo : fits bs cs ->
  match repairRound t incr bs p todo with
  | Err => repairRoundC refC t incr bs cs p todo = Err
  | Ok (bs', todo') => exists cs', repairRoundC refC t incr bs cs p todo = Ok (bs', cs', todo') /\ fits bs' cs' /\ same bs cs bs' cs'
  end.
Proof.
  intros F. unfold repairRound, repairRoundC. destruct (vget bs p) as [h|] eqn:E; [|reflexivity]. cbn [bind].
  assert (EN : nth_error bs p = Some h) by (unfold vget in E; destruct (nth_error bs p); [congruence|discriminate]).
  assert (LP : p < length bs) by (apply nth_error_Some; congruence).
  destruct (innerBoxes h incr t p) as [|b add].
  - destruct (matchNeighbours t bs incr p) as [x|]; [|reflexivity]. cbn [bind]. rewrite vset_lt by exact LP. cbn [bind]. destruct (fst x) as [|b add].
    + cbn [bind]. exists cs. rewrite refine_nil, (upd_same _ _ _ EN). split; [reflexivity|]. split; [exact F|apply same_refl].
    + destruct (refineBoth_ok bs cs p (b :: add) h F EN) as (cs' & E1 & F' & SA & _). rewrite E1. cbn [bind]. exists cs'. now split.
  - rewrite vset_lt by exact LP. cbn [bind]. destruct (refineBoth_ok bs cs p (b :: add) h F EN) as (cs' & E1 & F' & SA & _). rewrite E1. cbn [bind]. exists cs'. now split.
Qed.
Lemma loop_ok fuel t incr : forall bs cs todo, fits bs cs ->
  match repairLoop fuel t incr bs todo with
  | Err => repairLoopC refC fuel t incr bs cs todo = Err
  | Ok bs' => exists cs', repairLoopC refC fuel t incr bs cs todo = Ok (bs', cs') /\ fits bs' cs' /\ same bs cs bs' cs'
  end.
Proof.
  induction fuel as [|fuel IH]; intros bs cs todo F; cbn [repairLoop repairLoopC]; [reflexivity|]. destruct todo as [|p todo]; [reflexivity|].
  pose proof (round_ok t incr bs cs p todo F) as R. destruct (repairRound t incr bs p todo) as [[bs1 todo1]|]; [|rewrite R; reflexivity].
  destruct R as (cs1 & E & F1 & S1). rewrite E. cbn [bind]. destruct todo1 as [|q todo1]; [exists cs1; now split|].
  specialize (IH bs1 cs1 (q :: todo1) F1). destruct (repairLoop fuel t incr bs1 (q :: todo1)) as [bs2|]; [|exact IH]. destruct IH as (cs2 & E2 & F2 & S2).
  exists cs2. split; [exact E2|]. split; [exact F2|]. eapply same_trans; [exact S1|exact S2|apply F1].
Qed.

(** ** splitting and joining *)
Lemma total_cons h bs : total hsz (h :: bs) = hsz h + total hsz bs.
Proof. reflexivity. Qed.
Lemma split_ok bs : forall c : list C, total hsz bs <= length c -> exists cs, splitC hsz bs c = Ok cs /\ length cs = length bs /\
  forall p h, nth_error bs p = Some h -> nth_error cs p = Some (rows hsz bs c p) /\ length (rows hsz bs c p) = hsz h.
Proof.
  induction bs as [|h bs IH]; intros c L.
  - exists []. split; [reflexivity|]. split; [reflexivity|]. intros [|p] h H; discriminate H.
  - rewrite total_cons in L. cbn [splitC]. unfold ensure. replace (hsz h <=? length c) with true by (symmetry; apply Nat.leb_le; lia). cbn [bind].
    destruct (IH (skipn (hsz h) c)) as (cs & E & LE & P); [rewrite skipn_length; lia|]. rewrite E. cbn [bind]. eexists. split; [reflexivity|]. split; [cbn; lia|].
    intros [|p] h' H; cbn [nth_error] in *.
    + injection H as <-. unfold rows, before. cbn [nth_error firstn total fold_right skipn]. split; [reflexivity|]. rewrite firstn_length. lia.
    + destruct (P p h' H) as (P1 & P2). assert (RE : rows hsz (h :: bs) c (S p) = rows hsz bs (skipn (hsz h) c) p).
      { unfold rows. cbn [nth_error]. rewrite H. f_equal. unfold before. cbn [firstn]. rewrite total_cons.
        clear. generalize (total hsz (firstn p bs)) as k. generalize (hsz h) as n. intros n. revert c. induction n as [|n IH]; intros c k; [reflexivity|]. destruct c as [|a c]; cbn; [now destruct k|apply IH]. }
      rewrite RE. now split.
Qed.
Lemma split_short bs : forall c : list C, length c < total hsz bs -> splitC hsz bs c = Err.
Proof.
  induction bs as [|h bs IH]; intros c L; [cbn in L; lia|]. rewrite total_cons in L. cbn [splitC]. unfold ensure. destruct (Nat.leb_spec (hsz h) (length c)) as [G|G]; [|reflexivity]. cbn [bind].
  rewrite IH by (rewrite skipn_length; lia). reflexivity.
Qed.
Lemma join_ok bs : forall cs : list (option (list C)), length cs = length bs -> (forall p h, nth_error bs p = Some h -> exists c, nth_error cs p = Some (Some c) /\ length c = hsz h) ->
  exists x, joinC hsz bs cs = Ok x /\ length x = total hsz bs /\ forall p h c, nth_error bs p = Some h -> nth_error cs p = Some (Some c) -> rows hsz bs x p = c.
Proof.
  induction bs as [|h bs IH]; intros cs L P.
  - exists []. split; [reflexivity|]. split; [reflexivity|]. intros [|p] h c H; discriminate H.
  - destruct cs as [|o cs]; [discriminate L|]. destruct (P 0 h eq_refl) as (c & E & LC). cbn in E. injection E as ->.
    destruct (IH cs) as (x & EX & LX & PX); [cbn in L; lia|intros p h' H; exact (P (S p) h' H)|].
    cbn [joinC]. unfold ensure. rewrite LC, Nat.eqb_refl. cbn [bind]. rewrite EX. cbn [bind]. exists (c ++ x). split; [reflexivity|]. split; [rewrite app_length, total_cons; lia|].
    intros [|p] h' c' H H'; cbn [nth_error] in *.
    + injection H as <-. injection H' as <-. unfold rows, before. cbn [nth_error firstn total fold_right skipn]. rewrite firstn_app, LC, Nat.sub_diag, <- LC, firstn_all. cbn [firstn]. apply app_nil_r.
    + rewrite <- (PX p h' c' H H'). unfold rows. cbn [nth_error]. rewrite H. f_equal. unfold before. cbn [firstn]. rewrite total_cons.
      rewrite skipn_app. rewrite (skipn_all2 c) by lia. cbn [app]. f_equal. lia.
Qed.

Lemma split_fits bs c cs : splitC hsz bs c = Ok cs -> total hsz bs <= length c -> fits bs (map Some cs) /\ forall p h, nth_error bs p = Some h -> nth_error (map Some cs) p = Some (Some (rows hsz bs c p)).
Proof.
  intros E L. destruct (split_ok bs c L) as (cs' & E' & LE & P). rewrite E in E'. injection E' as <-. split.
  - split; [now rewrite map_length|]. intros p h d H H'. destruct (P p h H) as (P1 & P2). rewrite nth_error_map, P1 in H'. cbn in H'. injection H' as <-. exact P2.
  - intros p h H. rewrite nth_error_map, (proj1 (P p h H)). reflexivity.
Qed.
Lemma finish bs c cs bs' cs' : total hsz bs <= length c -> splitC hsz bs c = Ok cs -> fits bs' cs' -> same bs (map Some cs) bs' cs' ->
  exists c', joinC hsz bs' cs' = Ok c' /\ same_splines hsz value bs c bs' c' /\ (forall p h d, nth_error bs' p = Some h -> nth_error cs' p = Some (Some d) -> rows hsz bs' c' p = d).
Proof.
  intros L E F (S0 & S1 & S2). destruct (split_fits bs c cs E L) as (F0 & P0).
  assert (ALL : forall p h, nth_error bs' p = Some h -> exists d, nth_error cs' p = Some (Some d) /\ length d = hsz h).
  { intros p h H. assert (LP : p < length bs) by (rewrite <- S0; apply nth_error_Some; congruence). destruct (nth_error bs p) as [h0|] eqn:E0; [|apply nth_error_None in E0; lia].
    specialize (S2 p). rewrite (P0 p h0 E0) in S2. destruct (nth_error cs' p) as [[d|]|] eqn:ED; try contradiction. exists d. split; [reflexivity|]. now apply (proj2 F p). }
  destruct (join_ok bs' cs' (proj1 F) ALL) as (c' & EJ & LJ & PJ). exists c'. split; [exact EJ|]. split; [|exact PJ].
  split; [exact S0|]. split; [exact LJ|]. intros p h h' H H' x. destruct (ALL p h' H') as (d & Ed & _). rewrite (PJ p h' d H' Ed). specialize (S2 p). rewrite (P0 p h H), Ed in S2. now apply (S2 h h').
Qed.

Theorem repair_pf : forall fuel t incr bs c sf, total hsz bs <= length c ->
  match repairPatches fuel t incr bs sf with
  | Err => repairPatchesM hsz refC fuel t incr bs c sf = Err
  | Ok bs' => exists c', repairPatchesM hsz refC fuel t incr bs c sf = Ok (bs', c') /\ same_splines hsz value bs c bs' c'
  end.
Proof.
  intros fuel t incr bs c sf L. unfold repairPatchesM. destruct (split_ok bs c L) as (cs & E & _). rewrite E. cbn [bind]. destruct (split_fits bs c cs E L) as (F & _).
  unfold repairPatches, repairPatchesC. pose proof (loop_ok fuel t incr bs (map Some cs) (match sf with None => seq 0 (length bs) | Some p => [p] end) F) as R.
  destruct (repairLoop fuel t incr bs _) as [bs'|]; [|now rewrite R]. destruct R as (cs' & E' & F' & S'). rewrite E'. cbn [bind fst snd].
  destruct (finish bs c cs bs' cs' L E F' S') as (c' & EJ & SS & _). rewrite EJ. cbn [bind]. exists c'. now split.
Qed.

Theorem refine_pf : forall fuel t incr bs c patch boxes, total hsz bs <= length c -> patch < length bs ->
  match refineElementsN (C := C) refC fuel t incr bs patch boxes true with
  | Err => refineElementsC hsz refC fuel t incr bs c patch boxes true = Err
  | Ok bs' => exists c', refineElementsC hsz refC fuel t incr bs c patch boxes true = Ok (bs', c') /\ same_splines hsz value bs c bs' c'
  end.
Proof.
  intros fuel t incr bs c patch boxes L LP. unfold refineElementsN, refineElementsC, vget. destruct (nth_error bs patch) as [h|] eqn:EH; [|apply nth_error_None in EH; lia]. cbn [bind].
  rewrite vset_lt by exact LP. cbn [bind]. destruct (split_ok bs c L) as (cs & E & _). rewrite E. cbn [bind]. destruct (split_fits bs c cs E L) as (F & _).
  destruct (refineBoth_ok bs (map Some cs) patch boxes h F EH) as (cs1 & E1 & F1 & S1 & _). rewrite E1. cbn [bind fst snd]. set (bs1 := upd bs patch (refineElements h boxes)) in *.
  unfold repairPatchesC. assert (FN : fits bs1 (repeat None (length bs1))).
  { split; [apply repeat_length|]. intros p h' d _ H. apply nth_error_In, repeat_spec in H. discriminate H. }
  pose proof (loop_ok fuel t incr bs1 _ [patch] FN) as RN. pose proof (loop_ok fuel t incr bs1 cs1 [patch] F1) as RC.
  destruct (repairLoop fuel t incr bs1 [patch]) as [bs'|]; [|rewrite RN, RC; reflexivity]. destruct RN as (csn & EN & _). rewrite EN. cbn [bind fst].
  destruct RC as (cs' & E' & F' & S'). rewrite E'. cbn [bind fst snd]. assert (S2 : same bs (map Some cs) bs' cs') by (eapply same_trans; [exact S1|exact S'|apply F1]).
  destruct (finish bs c cs bs' cs' L E F' S2) as (c' & EJ & SS & _). rewrite EJ. cbn [bind]. exists c'. now split.
Qed.

Theorem bases_pf : forall fuel t incr bs sf, repairPatchesN (C := C) refC fuel t incr bs sf = repairPatches fuel t incr bs sf.
Proof.
  intros fuel t incr bs sf. unfold repairPatchesN, repairPatches, repairPatchesC. assert (FN : fits bs (repeat None (length bs))).
  { split; [apply repeat_length|]. intros p h' d _ H. apply nth_error_In, repeat_spec in H. discriminate H. }
  pose proof (loop_ok fuel t incr bs _ (match sf with None => seq 0 (length bs) | Some p => [p] end) FN) as R. destruct (repairLoop fuel t incr bs _) as [bs'|]; [|now rewrite R].
  destruct R as (cs' & E & _). now rewrite E.
Qed.

Theorem quiet_pf : forall fuel t incr bs c patch boxes h, total hsz bs <= length c -> nth_error bs patch = Some h ->
  exists c', refineElementsC hsz refC fuel t incr bs c patch boxes false = Ok (upd bs patch (refineElements h boxes), c') /\ same_splines hsz value bs c (upd bs patch (refineElements h boxes)) c' /\
    forall p, p <> patch -> rows hsz (upd bs patch (refineElements h boxes)) c' p = rows hsz bs c p.
Proof.
  intros fuel t incr bs c patch boxes h L EH. assert (LP : patch < length bs) by (apply nth_error_Some; congruence). unfold refineElementsC. destruct (split_ok bs c L) as (cs & E & _). rewrite E. cbn [bind]. destruct (split_fits bs c cs E L) as (F & P0).
  destruct (refineBoth_ok bs (map Some cs) patch boxes h F EH) as (cs1 & E1 & F1 & S1 & K). rewrite E1. cbn [bind fst snd]. set (bs1 := upd bs patch (refineElements h boxes)) in *.
  destruct (finish bs c cs bs1 cs1 L E F1 S1) as (c' & EJ & SS & RW). rewrite EJ. cbn [bind]. exists c'. split; [reflexivity|]. split; [exact SS|]. intros p N.
  destruct (nth_error bs p) as [hp|] eqn:EP.
  - assert (EP1 : nth_error bs1 p = Some hp) by (unfold bs1; rewrite nth_error_upd by exact LP; now replace (Nat.eqb p patch) with false by (symmetry; now apply Nat.eqb_neq)).
    apply (RW p hp); [exact EP1|]. rewrite K by exact N. now apply (P0 p hp).
  - unfold rows. rewrite EP. unfold bs1. rewrite nth_error_upd by exact LP. replace (Nat.eqb p patch) with false by (symmetry; now apply Nat.eqb_neq). now rewrite EP.
Qed.

Theorem short_pf : forall fuel t incr bs c patch boxes update sf, length c < total hsz bs ->
  refineElementsC hsz refC fuel t incr bs c patch boxes update = Err /\ repairPatchesM hsz refC fuel t incr bs c sf = Err.
Proof. intros. unfold refineElementsC, repairPatchesM. now rewrite split_short. Qed.
Theorem refineN_pf : forall fuel t incr bs patch boxes update h, nth_error bs patch = Some h ->
  refineElementsN (C := C) refC fuel t incr bs patch boxes update =
    if update then repairPatches fuel t incr (upd bs patch (refineElements h boxes)) (Some patch) else Ok (upd bs patch (refineElements h boxes)).
Proof.
  intros fuel t incr bs patch boxes update h EH. unfold refineElementsN, vget. rewrite EH. cbn [bind]. rewrite vset_lt by (apply nth_error_Some; congruence). cbn [bind]. destruct update; [|reflexivity].
  exact (bases_pf fuel t incr _ (Some patch)).
Qed.
End P.
