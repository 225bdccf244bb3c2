(** Row sums over functions at special vertices. *)
From Coq Require Import Reals Lra.
From Verif Require Import Common ListLemmas TopoModel TopoSpec TopoProofs MapModel MapSpec MapProofs MapRegions MapTravelSpec MapTravel MapActions MapLines MapAllModel MapAllSpec MapAllLoc MapAllKind MapAllCols MapAllLines MapAllBlocks.
From Coq Require Import ZifyBool Permutation.
Open Scope Z_scope.

Section S.
Context (M : mpbes) (n : Z) (OK : mp_ok M n).
Notation bs := (mbs M).
Notation t := (mtop M).
Notation kind := (kind M).
Notation valid := (valid M).
Notation POS := (POS M n OK).
Notation contrib := (contrib M).
Notation cls := (cls t).

Definition cl (pc : pcorner) : Z := match nth_error bs (fst pc) with Some b => cornerFun M (fst pc) b (snd pc) | None => 0 end.
Lemma CON : consistent t. Proof. apply (mp_top _ _ OK). Qed.
Lemma validc_b pc : validc t pc <-> exists b, nth_error bs (fst pc) = Some b.
Proof.
  unfold validc. rewrite (mp_np _ _ OK). split.
  - intros H. destruct (nth_error bs (fst pc)) as [b|] eqn:E; [eauto|]. apply nth_error_None in E. lia.
  - intros (b & E). apply nth_error_Some. congruence.
Qed.

Lemma cl_L p b k : nth_error bs p = Some b -> exists u v, cornerFun M p b k = L bs p b u v /\ 0 <= u < mb_u b /\ 0 <= v < mb_v b /\ (u =? 0) = negb (cpar0 k) /\ (v =? 0) = negb (cpar1 k) /\
  u = (if cpar0 k then mb_u b - 1 else 0) /\ v = (if cpar1 k then mb_v b - 1 else 0).
Proof.
  intros E. pose proof (n_ge M n OK p b E). destruct (sizes M n OK p b West E) as (_ & _ & A & B). cbn [nsz asz] in *.
  exists (if cpar0 k then mb_u b - 1 else 0), (if cpar1 k then mb_v b - 1 else 0). unfold cornerFun, fun_at, L, coord.
  destruct k; cbn [cside cpar0 cpar1 side_dir side_par negb]; (split; [lia|]; split; [lia|]; split; [lia|]; split; [lia|]; split; [lia|]; split; reflexivity).
Qed.
Lemma cl_patch pc : validc t pc -> getPatch bs (cl pc) = fst pc /\ valid (cl pc).
Proof.
  intros V. apply validc_b in V. destruct V as (b & E). unfold cl. rewrite E. destruct (cl_L _ b (snd pc) E) as (u & v & -> & U & V & _). split; [now apply getPatch_L; [apply POS|..]|now apply valid_L with (n := n)].
Qed.
Lemma cl_inj pc pc' : validc t pc -> validc t pc' -> cl pc = cl pc' -> pc = pc'.
Proof.
  intros V V' Q. destruct (cl_patch pc V) as (P & _). destruct (cl_patch pc' V') as (P' & _). rewrite Q, P' in P. destruct pc as (p, k), pc' as (p', k'). cbn [fst] in P. subst p'. f_equal.
  apply validc_b in V. destruct V as (b & E). cbn [fst] in E. unfold cl in Q. cbn [fst snd] in Q. rewrite E in Q.
  pose proof (n_ge M n OK p b E). destruct (sizes M n OK p b West E) as (_ & _ & A & B). cbn [nsz asz] in *.
  destruct (cl_L p b k E) as (u & v & Q1 & U & W & _ & _ & Eu & Ev). destruct (cl_L p b k' E) as (u' & v' & Q' & U' & W' & _ & _ & Eu' & Ev'). rewrite Q1, Q' in Q. unfold L in Q.
  assert (v = v') by nia. assert (u = u') by nia. destruct k, k'; cbn [cpar0 cpar1] in *; reflexivity || (exfalso; lia).
Qed.

Lemma localCorner_ok pc : validc t pc -> localIndexOfCorner bs pc = Ok (cl pc).
Proof.
  intros V. apply validc_b in V. destruct V as (b & E). unfold localIndexOfCorner, cl, vget. rewrite E. cbn [bind]. destruct (cl_L _ b (snd pc) E) as (u & v & -> & _ & _ & _ & _ & -> & ->).
  unfold parMax. destruct (cpar0 (snd pc)), (cpar1 (snd pc)); now rewrite (localIndexOf_ok bs _ b) by exact E.
Qed.

Definition cornerCol (pc : pcorner) : column := map (fun x => (cl x, 1%R)) (cls pc).

Lemma addK_corner pc : validc t pc -> kind (cl pc) = Singular ->
  addK M (cl pc) (kind (cl pc)) = Ok (if existsb (fun x => (fst x <? fst pc)%nat) (cls pc) then [] else [cornerCol pc]).
Proof.
  intros V K. rewrite K. cbn [addK]. unfold addSingularCorner. pose proof (proj1 (validc_b pc) V) as (b & E). destruct (cl_patch pc V) as (GP & _).
  assert (CE : cl pc = cornerFun M (fst pc) b (snd pc)) by (unfold cl; now rewrite E).
  destruct (cl_L _ b (snd pc) E) as (u & v & EL & U & W & Zu & Zv & _). rewrite GP. rewrite CE, EL, !(getPar_L bs POS _ b u v _ E U W). cbn [bind].
  assert (CC : (if (u =? 0) && (v =? 0) then SW else if u =? 0 then NW else if v =? 0 then SE else NE) = snd pc) by (rewrite Zu, Zv; destruct (snd pc); reflexivity).
  rewrite CC. unfold findVertex. rewrite <- surjective_pairing. rewrite (cornerList_cls t CON pc V). cbn [bind].
  rewrite (mapM_ok _ cl) by (intros x X; apply localCorner_ok; eapply cls_valid; [apply CON|exact V|exact X]). cbn [bind]. f_equal.
  unfold alreadyHandled. assert (Q : existsb (fun l => (getPatch bs l <? fst pc)%nat) (map cl (cls pc)) = existsb (fun x => (fst x <? fst pc)%nat) (cls pc)).
  { assert (VV : forall x, In x (cls pc) -> validc t x) by (intros x X; eapply cls_valid; [apply CON|exact V|exact X]). clear -VV OK. induction (cls pc) as [|x l IH]; [reflexivity|]. cbn [map existsb]. rewrite IH by (intros; apply VV; now right). now rewrite (proj1 (cl_patch x (VV x (or_introl eq_refl)))). }
  rewrite Q. unfold cornerCol. rewrite map_map. reflexivity.
Qed.

(** being a special corner is passed on from patch to patch *)
Lemma singular_step c c' : In c' (cn t c) -> kind (cl c) = Singular -> kind (cl c') = Singular.
Proof.
  intros I K. apply in_cn in I. destruct I as (d & d' & Dd & DN). pose proof (dnext_valid t CON c d c' d' DN) as (V & V').
  destruct c as (p, k). destruct (dnext_spec t p k d c' d' DN) as (ps' & fl & G & EC & _).
  apply validc_b in V. destruct V as (b & E). cbn [fst] in E.
  assert (IF : isInterface t (p, cside k d) = true) by (apply isInterface_glue; eauto using CON).
  set (s := cside k d) in *. set (s2 := cside k (1 - d)).
  assert (A : adjacent s s2) by (unfold s, s2, adjacent; destruct d as [|[|]]; [| |lia]; destruct k; cbn; congruence).
  assert (CK : cornerOf s s2 = k) by (unfold s, s2; destruct d as [|[|]]; [| |lia]; destruct k; reflexivity).
  destruct (mp_glue _ _ OK p b s s2 E IF A) as (p' & b' & s' & s2' & _ & GL & GL'). pose proof GL as [_ E' (f & GF & IO & E2 & _) _ _].
  destruct (glue_iface t CON _ _ _ G) as (f' & GF' & IO' & _). rewrite GF in GF'. injection GF' as <-. rewrite IO in IO'. injection IO' as <-.
  assert (FL : fl = ifflip f). { unfold glue in G. rewrite GF in G. destruct (ps_eqb (if1 f) (p, s)); now injection G as _ <-. }
  assert (C' : c' = (p', cornerOf s' s2')).
  { rewrite EC. unfold mapc. cbn [fst snd]. f_equal. rewrite E2, FL. assert (PO : pos_on s k = side_par s2) by (unfold s, s2; destruct d as [|[|]]; [| |lia]; destruct k; reflexivity). rewrite PO.
    generalize (xorb (ifflip f) (side_par s2)). intros x. destruct s', x; reflexivity. }
  clear EC. subst c'. unfold cl in *. cbn [fst snd] in *. rewrite E in K. rewrite E'. rewrite cornerFun_sides by exact (gl_adj _ _ _ _ _ _ _ _ _ _ GL'). rewrite <- CK, cornerFun_sides in K by exact A.
  exact (singular_cross M n OK _ _ _ _ _ _ _ _ GL GL' K).
Qed.
Lemma singular_reach c c' : reach t c c' -> kind (cl c) = Singular -> kind (cl c') = Singular.
Proof. induction 1 as [|a x y R IH I]; [auto|]. intros K. apply (singular_step x y I). now apply IH. Qed.

Lemma corner_rep S : valid S -> kind S = Singular -> exists pc, validc t pc /\ S = cl pc /\ NoDup (map fst (cls pc)).
Proof.
  intros V K. destruct (singular_inv M n OK S V K) as (p & b & k & _ & E & ES & SP). exists (p, k). assert (VC : validc t (p, k)) by (apply validc_b; eauto). split; [exact VC|]. split; [unfold cl; cbn [fst snd]; now rewrite E|].
  apply (mp_once _ _ OK p k); [apply nth_error_Some; congruence|exact SP|]. apply cornerList_cls; [apply CON|exact VC].
Qed.

Lemma corner_member S L cs c v : valid S -> kind S = Singular -> addK M S (kind S) = Ok cs -> In c cs -> In (L, v) c ->
  exists pc x, validc t pc /\ S = cl pc /\ NoDup (map fst (cls pc)) /\ In x (cls pc) /\ L = cl x /\ v = 1%R /\ forall y, In y (cls pc) -> (fst pc <= fst y)%nat.
Proof.
  intros V K AK Ic Iv. destruct (corner_rep S V K) as (pc & VC & -> & ND). rewrite (addK_corner pc VC K) in AK. injection AK as AK.
  destruct (existsb (fun x => (fst x <? fst pc)%nat) (cls pc)) eqn:Q; rewrite <- AK in Ic; [destruct Ic|]. destruct Ic as [<-|[]].
  apply in_map_iff in Iv. destruct Iv as (x & XE & X). injection XE as <- <-. exists pc, x. repeat (split; [assumption || reflexivity|]).
  intros y Y. rewrite existsb_false in Q. specialize (Q y Y). cbv beta in Q. lia.
Qed.
Lemma corner_member_kind S L cs c v : valid S -> kind S = Singular -> addK M S (kind S) = Ok cs -> In c cs -> In (L, v) c -> kind L = Singular.
Proof.
  intros V K AK Ic Iv. destruct (corner_member S L cs c v V K AK Ic Iv) as (pc & x & VC & -> & _ & X & -> & _). apply in_cls in X; [|apply CON|exact VC]. now apply (singular_reach pc x).
Qed.

Lemma corner_row L : valid L -> kind L = Singular -> exists G, NoDup G /\ (forall S, In S G -> valid S) /\
  (forall S, valid S -> contrib S L <> 0%R -> kind S = Singular -> In S G) /\ rs (fun S => contrib S L) G = 1%R.
Proof.
  intros V K. destruct (corner_rep L V K) as (pc & VC & EL & ND).
  assert (MIN : exists m, In m (cls pc) /\ forall y, In y (cls pc) -> (fst m <= fst y)%nat).
  { pose proof (cls_self t CON pc VC) as SE. clear -SE. assert (X : forall l : list pcorner, l <> [] -> exists m, In m l /\ forall y, In y l -> (fst m <= fst y)%nat).
    { induction l as [|x l IH]; [congruence|]. intros _. destruct l as [|y l]. { exists x. split; [now left|]. intros H [->|[]]. lia. }
      destruct IH as (F & I & H); [discriminate|]. destruct (Nat.le_gt_cases (fst x) (fst F)).
      - exists x. split; [now left|]. intros H1 [<-|J]; [lia|]. specialize (H H1 J). lia.
      - exists F. split; [now right|]. intros H1 [<-|J]; [lia|]. now apply H. }
    apply X. intros E. rewrite E in SE. destruct SE. }
  destruct MIN as (m & MI & ML). assert (VM : validc t m) by (eapply cls_valid; [apply CON|exact VC|exact MI]).
  assert (KM : kind (cl m) = Singular) by (apply (singular_reach pc m); [apply in_cls; [apply CON|exact VC|exact MI]|now rewrite <- EL]).
  pose proof (cls_perm t CON pc m VC MI) as PM. assert (SELF : In pc (cls m)) by (eapply Permutation_in; [exact PM|apply cls_self; [apply CON|exact VC]]).
  exists [cl m]. split; [constructor; [intros []|constructor]|]. split; [intros S [<-|[]]; now apply cl_patch|]. split.
  - intros S VS C KS. destruct (contrib_member M S L C) as (cs & c & v & AK & Ic & Iv). destruct (corner_member S L cs c v VS KS AK Ic Iv) as (pc2 & x & VC2 & -> & _ & X & EX & _ & MN).
    left. f_equal. assert (x = pc). { apply cl_inj; [eapply cls_valid; [apply CON|exact VC2|exact X]|exact VC|congruence]. } subst x.
    assert (I2 : In pc2 (cls pc)) by (apply in_cls_sym; [apply CON|exact VC2|exact X]).
    pose proof (cls_perm t CON pc2 pc VC2 X) as P2. assert (MI2 : In m (cls pc2)) by (eapply Permutation_in; [symmetry; exact P2|exact MI]).
    apply (NoDup_map_eq fst (cls pc)); try assumption. pose proof (ML pc2 I2). pose proof (MN m MI2). lia.
  - rewrite rs_cons. unfold rs. cbn [map fold_right]. rewrite Rplus_0_r. unfold contrib. rewrite (addK_corner m VM KM).
    replace (existsb (fun x => (fst x <? fst m)%nat) (cls m)) with false.
    + unfold rowSum. cbn [map fold_right]. rewrite Rplus_0_r. unfold cornerCol. rewrite (entry_in cl (fun _ => 1%R) (cls m) pc); [reflexivity|exact SELF|now rewrite EL|].
      intros y Y Q. apply cl_inj; [eapply cls_valid; [apply CON|exact VM|exact Y]|exact VC|congruence].
    + symmetry. apply existsb_false. intros y Y. assert (J : In y (cls pc)) by (eapply Permutation_in; [symmetry; exact PM|exact Y]). pose proof (ML y J). lia.
Qed.

End S.
