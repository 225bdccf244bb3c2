(** Knots, the variant gsG1AuxiliaryPatch, the case tables and the refutations. *)
From Verif Require Import Common TopoModel ListLemmas ReparamModel ReparamSpec ReparamProofs ReparamProofs2.
From Coq Require Import ZifyBool.

Section R.
Context {A : Type}.
Implicit Types p q : patch A.

Definition rcomps {B} (k : nat) (c : B * B) : B * B := match k with 0 | 2 => c | _ => (snd c, fst c) end.

Lemma rcomps_bas k o (c : comp * comp) : k < 4 -> o <> OSwap ->
  basK o (fst (rcomps k c)) (snd (rcomps k c)) = rcomps ((k + turns o) mod 4) c.
Proof.
  intros Hk Ho. destruct c as [x y].
  assert (k = 0 \/ k = 1 \/ k = 2 \/ k = 3) as [->|[->|[->| ->]]] by lia; destruct o; try congruence; reflexivity.
Qed.
Lemma rcomps_op k o (c : comp * comp) : k < 4 -> o <> OSwap ->
  op_basis o (rcomps k c) = rcomps ((k + turns o) mod 4) c.
Proof.
  intros Hk Ho. destruct c as [x y].
  assert (k = 0 \/ k = 1 \/ k = 2 \/ k = 3) as [->|[->|[->| ->]]] by lia; destruct o; try congruence; reflexivity.
Qed.

(** gsG1AuxiliaryPatch: rotations *)
Lemma run1_rot (h : list op) : Forall (fun o => o <> OSwap) h -> forall p (a : aux1 A) k, k < 4 ->
  rotated k p (geo1 a) -> (pU (geo1 a), pV (geo1 a)) = rcomps k (pU p, pV p) -> (rotNum1 a mod 4 = Z.of_nat k)%Z ->
  exists a' k', run_1 h a = Ok a' /\ k' < 4 /\ rotated k' p (geo1 a') /\
    (pU (geo1 a'), pV (geo1 a')) = rcomps k' (pU p, pV p) /\ (rotNum1 a' mod 4 = Z.of_nat k')%Z /\
    orient1 a' = orient1 a /\ neg1 a' = neg1 a.
Proof.
  induction 1 as [|o h Ho _ IH]; intros p a k Hk Hr Hc Hn.
  - exists a, k. simpl. auto 10.
  - unfold run_1. cbn [foldM]. unfold run1_1 at 1.
    destruct (rotated_step basK k p (geo1 a) o basK_size Hk Hr Ho) as (q & E & Hr' & Hq). rewrite E. cbn [bind].
    match goal with |- context [foldM run1_1 h ?x] => set (a0 := x) end.
    destruct (IH p a0 ((k + turns o) mod 4)) as (a' & k' & R & P).
    + apply Nat.mod_upper_bound. lia.
    + exact Hr'.
    + subst a0. cbn [geo1]. rewrite Hq. rewrite <- (rcomps_bas k o) by auto. rewrite <- Hc. reflexivity.
    + subst a0. cbn [rotNum1]. rewrite op_rot_mod by auto. rewrite <- Zplus_mod_idemp_l, Hn, <- Nat2Z.inj_add.
      rewrite Nat2Z.inj_mod. reflexivity.
    + exists a', k'. split; [exact R|]. subst a0. cbn [orient1 neg1] in P. destruct o; try congruence; exact P.
Qed.

Lemma patch_eq p q : pU p = pU q -> pV p = pV q -> pC p = pC q -> p = q.
Proof. destruct p, q; simpl; congruence. Qed.

(** undoing rotations *)
Lemma undo_rot b q r k : k < 4 -> rotated k b q -> (r mod 4 = Z.of_nat k)%Z -> (-1 <= r <= 2)%Z ->
  exists c, foldM (fun g o => op_patch (basK o) o g) (back_ops r false) q = Ok c /\ rotated 0 b c /\
    forall x : comp * comp, (pU q, pV q) = rcomps k x -> (pU c, pV c) = x.
Proof.
  intros Hk Hrot Hm Hr.
  assert (r = -1 \/ r = 0 \/ r = 1 \/ r = 2)%Z as C by lia.
  unfold back_ops. rewrite app_nil_r.
  destruct C as [C|[C|[C|C]]]; rewrite C in Hm |- *; vm_compute (_ mod _)%Z in Hm; cbn [Z.eqb Pos.eqb foldM].
  - assert (k = 3) as -> by lia.
    destruct (rotated_step basK 3 b q OAnti basK_size) as (c & Ec & R & Hc); auto; try discriminate.
    rewrite Ec. cbn [bind]. exists c. split; auto. split; auto. intros [x y]; simpl in *; congruence.
  - assert (k = 0) as -> by lia. exists q. split; auto.
  - assert (k = 1) as -> by lia.
    destruct (rotated_step basK 1 b q OClock basK_size) as (c & Ec & R & Hc); auto; try discriminate; try lia.
    rewrite Ec. cbn [bind]. exists c. split; auto. split; auto. intros [x y]; simpl in *; congruence.
  - assert (k = 2) as -> by lia.
    destruct (rotated_step basK 2 b q OTwice basK_size) as (c & Ec & R & Hc); auto; try discriminate; try lia.
    rewrite Ec. cbn [bind]. exists c. split; auto. split; auto. intros [x y]; simpl in *; congruence.
Qed.

Lemma single_list (ops : list op) g f : foldM (fun g o => op_patch (basK o) o g) ops g = Ok f ->
  foldM (fun gs o => mapM (@op_patch A (basK o) o) gs) ops [g] = Ok [f].
Proof. intros H. apply mapM_back. constructor; auto. Qed.

Lemma back1 sw h p ng a : Forall (fun o => o <> OSwap) h -> full p ->
  run_1 (history sw h) (newAux1 p ng) = Ok a -> (-1 <= rotNum1 a <= 2)%Z ->
  parametrizeBasisBack_1 a [geo1 a] = Ok [p].
Proof.
  intros Hh Hf E Hr. unfold parametrizeBasisBack_1. apply single_list.
  destruct sw; unfold history in E.
  - unfold run_1 in E. cbn [foldM] in E. unfold run1_1 at 1 in E.
    destruct (swap_ok basK p basK_size Hf) as (b & Eb & Fb & Kb & S1 & S2 & At).
    change (geo1 (newAux1 p ng)) with p in E. rewrite Eb in E. cbn [bind] in E.
    match type of E with context [foldM run1_1 h ?x] => set (a0 := x) in E end.
    destruct (run1_rot h Hh b a0 0) as (a' & k & R & P1 & P2 & P3 & P4 & P5 & _);
      [lia|apply rotated_refl; auto|reflexivity|reflexivity|].
    unfold run_1 in R. rewrite E in R. injection R as <-. rewrite P5.
    destruct (undo_rot b (geo1 a) (rotNum1 a) k P1 P2 P4 Hr) as (c & Ec & Rc & Hc).
    unfold back_ops in Ec |- *. rewrite app_nil_r in Ec. change (orient1 a0) with true. cbv iota.
    rewrite foldM_app, Ec. cbn [bind foldM].
    specialize (Hc _ P3). injection Hc as C1 C2.
    pose proof (rotated_0_coefs b c Fb Rc) as C3.
    assert (c = b) as -> by (apply patch_eq; auto).
    destruct (swap_ok basK b basK_size Fb) as (f & Ef & Ff & Kf & U1 & U2 & Af). rewrite Ef. cbn [bind]. f_equal.
    simpl in Kb, Kf. injection Kb as K1 K2. injection Kf as K3 K4.
    apply patch_eq; try congruence. apply patch_ext; auto; try lia.
    intros u v Hu Hv. rewrite Af, At. reflexivity.
  - destruct (run1_rot h Hh p (newAux1 p ng) 0) as (a' & k & R & P1 & P2 & P3 & P4 & P5 & _);
      [lia|apply rotated_refl; auto|reflexivity|reflexivity|].
    rewrite E in R. injection R as <-. rewrite P5. change (orient1 (newAux1 p ng)) with false.
    destruct (undo_rot p (geo1 a) (rotNum1 a) k P1 P2 P4 Hr) as (c & Ec & Rc & Hc).
    rewrite Ec. f_equal. specialize (Hc _ P3). injection Hc as C1 C2. apply patch_eq; auto. apply rotated_0_coefs; auto.
Qed.

Lemma run1_total sw h p ng : Forall (fun o => o <> OSwap) h -> full p -> exists a, run_1 (history sw h) (newAux1 p ng) = Ok a.
Proof.
  intros Hh Hf. destruct sw; unfold history.
  - unfold run_1. cbn [foldM]. unfold run1_1 at 1.
    destruct (swap_ok basK p basK_size Hf) as (b & Eb & Fb & Kb & S1 & S2 & At).
    change (geo1 (newAux1 p ng)) with p. rewrite Eb. cbn [bind].
    match goal with |- context [foldM run1_1 h ?x] => set (a0 := x) end.
    destruct (run1_rot h Hh b a0 0) as (a' & k & R & _);
      [lia|apply rotated_refl; auto|reflexivity|reflexivity|]. eauto.
  - destruct (run1_rot h Hh p (newAux1 p ng) 0) as (a' & k & R & _);
      [lia|apply rotated_refl; auto|reflexivity|reflexivity|]. eauto.
Qed.

(** component bases of a function built on the rotated basis *)
Lemma bas2_rot (h : list op) : Forall (fun o => o <> OSwap) h -> forall (a a' : aux A) k x, k < 4 ->
  bas2 a = rcomps k x -> (rotNum a mod 4 = Z.of_nat k)%Z -> run h a = Ok a' ->
  exists k', k' < 4 /\ (rotNum a' mod 4 = Z.of_nat k')%Z /\ bas2 a' = rcomps k' x.
Proof.
  induction 1 as [|o h Ho _ IH]; intros a a' k x Hk Hb Hn E; unfold run in E; cbn [foldM] in E.
  - injection E as <-. eauto.
  - unfold run1 at 1 in E. destruct (op_patch (geoK o) o (geo a)) as [q|]; [|discriminate]. cbn [bind] in E.
    match type of E with context [foldM run1 h ?y] => set (a0 := y) in E end.
    apply (IH a0 a' ((k + turns o) mod 4) x); auto.
    + apply Nat.mod_upper_bound. lia.
    + subst a0. cbn [bas2]. rewrite Hb. apply rcomps_op; auto.
    + subst a0. cbn [rotNum]. rewrite op_rot_mod by auto. rewrite <- Zplus_mod_idemp_l, Hn, <- Nat2Z.inj_add.
      rewrite Nat2Z.inj_mod. reflexivity.
Qed.

Lemma back_knots sw h p ng a (g : patch A) : Forall (fun o => o <> OSwap) h -> full p ->
  run (history sw h) (newAux p ng) = Ok a -> (-1 <= rotNum a <= 2)%Z ->
  full g -> (pU g, pV g) = bas2 a ->
  exists f, parametrizeBasisBack a [g] = Ok [f] /\ full f /\ pU f = pU p /\ pV f = pV p.
Proof.
  intros Hh Hf E Hr Hg Hk.
  destruct (run_history sw h p ng Hh Hf) as (a' & b & k0 & E' & _ & _ & _ & _ & _ & Ho & _).
  rewrite E in E'. injection E' as <-.
  assert (exists k, k < 4 /\ (rotNum a mod 4 = Z.of_nat k)%Z /\
     bas2 a = rcomps k (if sw then (pV p, pU p) else (pU p, pV p))) as (k & K1 & K2 & K3).
  { destruct sw; unfold history in E.
    - unfold run in E. cbn [foldM] in E. unfold run1 at 1 in E.
      destruct (op_patch (geoK OSwap) OSwap (geo (newAux p ng))) as [q|]; [|discriminate]. cbn [bind] in E.
      apply (bas2_rot h Hh _ _ 0 (pV p, pU p)) in E; auto; try reflexivity.
    - apply (bas2_rot h Hh _ _ 0 (pU p, pV p)) in E; auto; try reflexivity. }
  rewrite K3 in Hk.
  (* undo on an arbitrary function: every patch is rotated k from some patch *)
  assert (exists c, foldM (fun g o => op_patch (basK o) o g) (back_ops (rotNum a) false) g = Ok c /\ full c /\
    (pU c, pV c) = if sw then (pV p, pU p) else (pU p, pV p)) as (c & Ec & Fc & Hc).
  { set (x := if sw then (pV p, pU p) else (pU p, pV p)) in *. clearbody x. destruct x as [x y].
    assert (rotNum a = -1 \/ rotNum a = 0 \/ rotNum a = 1 \/ rotNum a = 2)%Z as C by lia.
    unfold back_ops. rewrite app_nil_r.
    destruct C as [C|[C|[C|C]]]; rewrite C in K2 |- *; vm_compute (_ mod _)%Z in K2; cbn [Z.eqb Pos.eqb foldM].
    - assert (k = 3) as -> by lia. destruct (op_patch_ok basK OAnti g basK_size Hg) as (c & Ec & Fc & Kc & _).
      rewrite Ec. cbn [bind]. exists c. split; auto. split; auto. simpl in *. congruence.
    - assert (k = 0) as -> by lia. exists g. auto.
    - assert (k = 1) as -> by lia. destruct (op_patch_ok basK OClock g basK_size Hg) as (c & Ec & Fc & Kc & _).
      rewrite Ec. cbn [bind]. exists c. split; auto. split; auto. simpl in *. congruence.
    - assert (k = 2) as -> by lia. destruct (op_patch_ok basK OTwice g basK_size Hg) as (c & Ec & Fc & Kc & _).
      rewrite Ec. cbn [bind]. exists c. split; auto. split; auto. simpl in *. congruence. }
  rewrite <- Ho in Hc. unfold parametrizeBasisBack. unfold back_ops in Ec |- *. rewrite app_nil_r in Ec.
  destruct (orient a) eqn:Eo.
  - destruct (swap_ok basK c basK_size Fc) as (f & Ef & Ff & Kf & _). simpl in Kf.
    exists f. split; [|split; [auto|split; congruence]]. apply single_list. rewrite foldM_app, Ec. cbn [bind foldM]. rewrite Ef. reflexivity.
  - exists c. split; [|split; [auto|split; congruence]]. apply single_list. rewrite app_nil_r. exact Ec.
Qed.

Lemma orient_then ng (p : patch A) (f : bool -> list op) :
  (do a1 <- run (orientOps ng) (newAux p ng); run (f (orient a1)) a1) = run (history ng (f ng)) (newAux p ng).
Proof.
  destruct ng; [|reflexivity]. unfold orientOps, history, run. cbn [foldM].
  unfold run1 at 1 3. destruct (op_patch (geoK OSwap) OSwap (geo (newAux p true))); reflexivity.
Qed.

(** the tables *)
Ltac carry E p := split; [simpl; lia|]; intros k Hk; cbn [on_side_at side_count] in *.

Lemma single_west p ng s : full p -> nonempty p ->
  exists a, reparametrizeSingle (side_ix s) (newAux p ng) = Ok a /\ neg a = false /\
    carries (geo a) West p s (xorb ng (ccw s)).
Proof.
  intros Hf [N1 N2]. unfold reparametrizeSingle. change (neg (newAux p ng)) with ng.
  assert (exists h, at_most_one_rotation h /\ (do a1 <- run (orientOps ng) (newAux p ng); run (singleOps (orient a1) (side_ix s)) a1)
     = run (history ng h) (newAux p ng) /\ h = singleOps ng (side_ix s)) as (h & Hh & -> & Hs).
  { exists (singleOps ng (side_ix s)). split; [destruct ng, s; simpl; unfold at_most_one_rotation; (left; reflexivity) || (right; eexists; split; [|reflexivity]; discriminate)|].
    split; auto. apply (orient_then ng p (fun b => singleOps b (side_ix s))). }
  destruct (run_one ng h p ng Hh Hf) as (a & b & E & Fb & Hb & (Fg & Sg & Ag) & Ho & Hn & _).
  exists a. split; auto. split; [rewrite Hn; apply xorb_nilpotent|]. subst h.
  destruct ng.
  - destruct Hb as (S1 & S2 & At). destruct s; simpl in Sg; injection Sg as T1 T2; carry E p;
    rewrite Ag by lia; cbn [rfrom oneop turns singleOps side_ix fst snd]; rewrite At; f_equal; simpl; lia.
  - subst b. destruct s; simpl in Sg; injection Sg as T1 T2; carry E p;
    rewrite Ag by lia; cbn [rfrom oneop turns singleOps side_ix fst snd]; f_equal; simpl; lia.
Qed.

Lemma interface_sides p s first : full p -> nonempty p ->
  exists a, reparametrizeInterface first (side_ix s) (newAux p false) = Ok a /\
    carries (geo a) (if first then West else South) p s (xorb (negb first) (ccw s)).
Proof.
  intros Hf [N1 N2]. unfold reparametrizeInterface. change (neg (newAux p false)) with false. simpl orientOps.
  change (run [] (newAux p false)) with (Ok (newAux p false)). cbn [bind].
  assert (at_most_one_rotation (interfaceOps first (side_ix s))) as Hh.
  { destruct first, s; simpl; unfold at_most_one_rotation; (left; reflexivity) || (right; eexists; split; [|reflexivity]; discriminate). }
  destruct (run_one false _ p false Hh Hf) as (a & b & E & Fb & Hb & (Fg & Sg & Ag) & Ho & Hn & _).
  exists a. split; auto. subst b.
  destruct first; destruct s; simpl in Sg; injection Sg as T1 T2; carry E p;
    rewrite Ag by lia; cbn [rfrom oneop turns interfaceOps side_ix fst snd]; f_equal; simpl; lia.
Qed.

Lemma interface_match (p1 p2 : patch A) s1 s2 flip : full p1 -> full p2 -> nonempty p1 -> nonempty p2 ->
  side_count p1 s1 = side_count p2 s2 -> flip = Bool.eqb (ccw s1) (ccw s2) ->
  exists a1 a2, reparametrizeInterface true (side_ix s1) (newAux p1 false) = Ok a1 /\
    reparametrizeInterface false (side_ix s2) (newAux p2 false) = Ok a2 /\
    side_count (geo a1) West = side_count p1 s1 /\ side_count (geo a2) South = side_count p1 s1 /\
    exists pos, (forall k, k < side_count p1 s1 -> pos k < side_count p1 s1) /\
      (forall k, k < side_count p1 s1 -> on_side_at (geo a1) West k = on_side_at p1 s1 (pos k)) /\
      (forall k, k < side_count p1 s1 ->
        on_side_at (geo a2) South k = on_side_at p2 s2 (if flip then side_count p1 s1 - 1 - pos k else pos k)).
Proof.
  intros F1 F2 N1 N2 Hc Hfl.
  destruct (interface_sides p1 s1 true F1 N1) as (a1 & E1 & C1 & K1).
  destruct (interface_sides p2 s2 false F2 N2) as (a2 & E2 & C2 & K2).
  exists a1, a2. split; auto. split; auto. split; auto. split; [rewrite C2; auto|].
  exists (fun k => if ccw s1 then side_count p1 s1 - 1 - k else k). split; [|split].
  - intros k Hk. destruct (ccw s1); lia.
  - intros k Hk. rewrite K1 by auto. destruct (ccw s1); reflexivity.
  - intros k Hk. rewrite K2 by lia. subst flip. rewrite <- Hc.
    destruct (ccw s1), (ccw s2); simpl; f_equal; lia.
Qed.

Lemma vertex_sw p ng c : full p -> nonempty p ->
  exists a, reparametrizeVertex (corner_ix c) (newAux p ng) = Ok a /\ neg a = false /\
    corner_row (geo a) SW = corner_row p c.
Proof.
  intros Hf [N1 N2]. unfold reparametrizeVertex. change (neg (newAux p ng)) with ng.
  assert (exists h, at_most_one_rotation h /\ (do a1 <- run (orientOps ng) (newAux p ng); run (vertexOps (orient a1) (corner_ix c)) a1)
     = run (history ng h) (newAux p ng) /\ h = vertexOps ng (corner_ix c)) as (h & Hh & -> & Hs).
  { exists (vertexOps ng (corner_ix c)). split; [destruct ng, c; simpl; unfold at_most_one_rotation; (left; reflexivity) || (right; eexists; split; [|reflexivity]; discriminate)|].
    split; auto. apply (orient_then ng p (fun b => vertexOps b (corner_ix c))). }
  destruct (run_one ng h p ng Hh Hf) as (a & b & E & Fb & Hb & (Fg & Sg & Ag) & Ho & Hn & _).
  exists a. split; auto. split; [rewrite Hn; apply xorb_nilpotent|]. subst h.
  unfold corner_row at 1.
  destruct ng.
  - destruct Hb as (S1 & S2 & At). destruct c; simpl in Sg; injection Sg as T1 T2;
    rewrite Ag by lia; cbn [rfrom oneop turns vertexOps corner_ix fst snd corner_row]; rewrite At; f_equal; simpl; lia.
  - subst b. destruct c; simpl in Sg; injection Sg as T1 T2;
    rewrite Ag by lia; cbn [rfrom oneop turns vertexOps corner_ix fst snd corner_row]; f_equal; simpl; lia.
Qed.

Lemma g1vertex_sw p ng c : full p -> nonempty p ->
  exists a v, reparametrizeG1Vertex (corner_ix c) (newAux1 p ng) = Ok (a, v) /\ neg1 a = false /\
    corner_row (geo1 a) SW = corner_row p c.
Proof.
  intros Hf [N1 N2]. unfold reparametrizeG1Vertex. change (neg1 (newAux1 p ng)) with ng.
  destruct ng; simpl orientOps.
  - unfold run_1 at 1. cbn [foldM]. unfold run1_1 at 1. change (geo1 (newAux1 p true)) with p.
    destruct (swap_ok basK p basK_size Hf) as (b & Eb & Fb & Kb & S1 & S2 & At). rewrite Eb. cbn [bind].
    destruct c; cbn [corner_ix Nat.eqb].
    all: match goal with |- context [run_1 [] ?x] => change (run_1 [] x) with (Ok x); cbn [bind]; do 2 eexists; split; [reflexivity|]; split; [reflexivity|]; cbn [geo1 corner_row]; rewrite At; reflexivity
      | |- context [run_1 [?o] ?x] => let H := fresh in unfold run_1; cbn [foldM]; unfold run1_1; cbn [geo1];
         destruct (op_patch_ok basK o b basK_size Fb) as (q & Eq & Fq & Kq & Sq & Aq); rewrite Eq; cbn [bind];
         do 2 eexists; split; [reflexivity|]; split; [reflexivity|]; cbn [geo1 corner_row];
         simpl in Sq; injection Sq as T1 T2; rewrite Aq by lia; cbn [from fst snd]; rewrite At; f_equal; lia end.
  - change (run_1 [] (newAux1 p false)) with (Ok (newAux1 p false)). cbn [bind].
    destruct c; cbn [corner_ix Nat.eqb].
    all: match goal with |- context [run_1 [] ?x] => change (run_1 [] x) with (Ok x); cbn [bind]; do 2 eexists; split; [reflexivity|]; split; [reflexivity|]; reflexivity
      | |- context [run_1 [?o] ?x] => let H := fresh in unfold run_1; cbn [foldM]; unfold run1_1; cbn [geo1 newAux1];
         destruct (op_patch_ok basK o p basK_size Hf) as (q & Eq & Fq & Kq & Sq & Aq); rewrite Eq; cbn [bind];
         do 2 eexists; split; [reflexivity|]; split; [reflexivity|]; cbn [geo1 corner_row];
         simpl in Sq; injection Sq as T1 T2; rewrite Aq by lia; cbn [from fst snd]; f_equal; lia end.
Qed.

End R.

(** geometry mapped back, with knots *)
Section K.
Context {A : Type}.

Lemma same_comp_refl c : same_comp c c.
Proof. split; auto. induction (cknots c); constructor; auto; reflexivity. Qed.
Lemma same_comp_sym c d : same_comp c d -> same_comp d c.
Proof. intros [H1 H2]. split; auto. induction H2; constructor; auto. symmetry; auto. Qed.
Lemma same_comp_trans c d e : same_comp c d -> same_comp d e -> same_comp c e.
Proof.
  intros [H1 H2] [H3 H4]. split; [congruence|]. clear H1 H3. revert H4. generalize (cknots e).
  induction H2; intros l3 H4; inversion H4; subst; constructor; auto. eapply Qeq_trans; eauto.
Qed.

Lemma forall2_hd l l' : Forall2 Qeq l l' -> (hd 0 l == hd 0 l')%Q.
Proof. intros H; destruct H; simpl; auto; reflexivity. Qed.
Lemma forall2_last l l' : Forall2 Qeq l l' -> (last l 0 == last l' 0)%Q.
Proof. induction 1 as [|x y l l' H H0 IH]; simpl; [reflexivity|]. destruct H0; auto. Qed.
Lemma forall2_rev (l l' : list Q) : Forall2 Qeq l l' -> Forall2 Qeq (rev l) (rev l').
Proof. induction 1; simpl; [constructor|]. apply Forall2_app; auto. Qed.
Lemma krev_comp c d : same_comp c d -> same_comp (krev c) (krev d).
Proof.
  intros [H1 H2]. split; auto. unfold krev. simpl. apply forall2_rev.
  pose proof (forall2_hd _ _ H2) as Hh. pose proof (forall2_last _ _ H2) as Hl.
  revert Hh Hl. generalize (hd 0%Q (cknots c)) (hd 0%Q (cknots d)) (last (cknots c) 0%Q) (last (cknots d) 0%Q).
  intros a b e f Hh Hl. clear H1. induction H2; simpl; constructor; auto. rewrite H, Hh, Hl. reflexivity.
Qed.

Lemma sym_step K o (p q : patch A) (U V : comp) (k : nat) : k < 4 -> o <> OSwap -> K = geoK \/ K = basK ->
  symmetric U -> symmetric V ->
  same_comp (pU p) (fst (rcomps k (U, V))) -> same_comp (pV p) (snd (rcomps k (U, V))) ->
  (pU q, pV q) = K o (pU p) (pV p) ->
  same_comp (pU q) (fst (rcomps ((k + turns o) mod 4) (U, V))) /\ same_comp (pV q) (snd (rcomps ((k + turns o) mod 4) (U, V))).
Proof.
  intros Hk Ho HK SU SV HU HV Hq.
  assert (forall c d, same_comp c d -> symmetric d -> same_comp (krev c) d) as X.
  { intros c d H1 H2. eapply same_comp_trans; [apply krev_comp; exact H1|exact H2]. }
  destruct HK as [-> | ->];
  assert (k = 0 \/ k = 1 \/ k = 2 \/ k = 3) as [->|[->|[->| ->]]] by lia; destruct o; try congruence;
  simpl in *; injection Hq as -> ->; auto.
Qed.

Lemma geo_back_symmetric sw h (p : patch A) ng a : Forall (fun o => o <> OSwap) h -> full p ->
  symmetric (pU p) -> symmetric (pV p) ->
  run (history sw h) (newAux p ng) = Ok a -> (-1 <= rotNum a <= 2)%Z ->
  exists f, parametrizeBasisBack a [geo a] = Ok [f] /\ pC f = pC p /\ same_comp (pU f) (pU p) /\ same_comp (pV f) (pV p).
Proof.
  intros Hh Hf SU SV E Hr.
  destruct (back_single sw h p ng a Hh Hf E Hr) as (f & Ef & C1 & _).
  exists f. split; [unfold parametrizeBasisBack; apply single_list; exact Ef|]. split; auto.
  (* knots along the way *)
  set (UV := if sw then (pV p, pU p) else (pU p, pV p)).
  assert (symmetric (fst UV) /\ symmetric (snd UV)) as [S1 S2] by (destruct sw; auto).
  assert (exists k, k < 4 /\ (rotNum a mod 4 = Z.of_nat k)%Z /\ same_comp (pU (geo a)) (fst (rcomps k UV)) /\ same_comp (pV (geo a)) (snd (rcomps k UV))) as (k & K1 & K2 & K3 & K4).
  { assert (forall h, Forall (fun o => o <> OSwap) h -> forall (x y : aux A) k, k < 4 -> (rotNum x mod 4 = Z.of_nat k)%Z ->
       same_comp (pU (geo x)) (fst (rcomps k UV)) -> same_comp (pV (geo x)) (snd (rcomps k UV)) -> run h x = Ok y ->
       exists k, k < 4 /\ (rotNum y mod 4 = Z.of_nat k)%Z /\ same_comp (pU (geo y)) (fst (rcomps k UV)) /\ same_comp (pV (geo y)) (snd (rcomps k UV))) as X.
    { clear - S1 S2. induction 1 as [|o h Ho _ IH]; intros x y k Hk Hm H1 H2 E; unfold run in E; cbn [foldM] in E.
      - injection E as <-. eauto 10.
      - unfold run1 at 1 in E. destruct (op_patch (geoK o) o (geo x)) as [q|] eqn:Eq; [|discriminate]. cbn [bind] in E.
        match type of E with context [foldM run1 h ?z] => set (a0 := z) in E end.
        assert ((pU q, pV q) = geoK o (pU (geo x)) (pV (geo x))) as Hq.
        { unfold op_patch in Eq. destruct (opC _ _ _ _); [|discriminate]. cbn [bind] in Eq. injection Eq as <-. simpl. destruct (geoK o _ _); auto. }
        destruct (sym_step geoK o (geo x) q (fst UV) (snd UV) k Hk Ho (or_introl eq_refl) S1 S2) as [A1 A2]; auto;
          try (destruct UV; assumption).
        apply (IH a0 y ((k + turns o) mod 4)); auto.
        + apply Nat.mod_upper_bound; lia.
        + subst a0. cbn [rotNum]. rewrite op_rot_mod by auto. rewrite <- Zplus_mod_idemp_l, Hm, <- Nat2Z.inj_add.
          rewrite Nat2Z.inj_mod. reflexivity.
        + destruct UV; assumption.
        + destruct UV; assumption. }
    destruct sw; unfold history in E.
    - unfold run in E. cbn [foldM] in E. unfold run1 at 1 in E.
      destruct (swap_ok geoK p geoK_size Hf) as (b & Eb & Fb & Kb & _). change (geo (newAux p ng)) with p in E. rewrite Eb in E. cbn [bind] in E.
      eapply (X h Hh _ _ 0); [| | | |exact E]; try lia; try reflexivity; cbn [geo]; simpl in Kb; injection Kb as K1 K2; rewrite ?K1, ?K2; simpl; apply same_comp_refl.
    - eapply (X h Hh _ _ 0); [| | | |exact E]; try lia; try reflexivity; simpl; apply same_comp_refl. }
  assert (orient a = sw) as Ho.
  { destruct (run_flags _ _ _ E) as [_ ->]. clear - Hh. simpl. assert (forall h b, Forall (fun o => o <> OSwap) h -> hist_or h b = b) as X.
    { intros h0 b H. revert b. induction H as [|o h0 Ho _ IH]; intros b; simpl; auto. unfold hist_or in *. simpl. rewrite IH. destruct o; congruence. }
    destruct sw; simpl; [apply (X h true)|apply X]; auto. }
  rewrite Ho in Ef.
  assert (exists c, foldM (fun g o => op_patch (basK o) o g) (back_ops (rotNum a) false) (geo a) = Ok c /\
     same_comp (pU c) (fst UV) /\ same_comp (pV c) (snd UV) ) as (c & Ec & D1 & D2).
  { unfold back_ops in Ef |- *. rewrite foldM_app in Ef. rewrite app_nil_r.
    destruct (foldM _ (if (rotNum a =? 2)%Z then _ else _) (geo a)) as [c|] eqn:Ec; [|discriminate].
    exists c. split; auto.
    assert (rotNum a = -1 \/ rotNum a = 0 \/ rotNum a = 1 \/ rotNum a = 2)%Z as C by lia.
    destruct C as [C|[C|[C|C]]]; rewrite C in K2, Ec; vm_compute (_ mod _)%Z in K2; cbn [Z.eqb Pos.eqb foldM] in Ec.
    2:{ assert (k = 0) as -> by lia. injection Ec as <-. simpl in K3, K4. auto. }
    all: match type of Ec with context [op_patch (basK ?o) ?o ?g] => destruct (op_patch (basK o) o g) as [q|] eqn:Eq; [|discriminate]; cbn [bind] in Ec; injection Ec as ->;
      assert ((pU c, pV c) = basK o (pU g) (pV g)) as Hq by (unfold op_patch in Eq; destruct (opC _ _ _ _); [|discriminate]; cbn [bind] in Eq; injection Eq as <-; reflexivity) end.
    - assert (k = 3) as -> by lia. simpl in *. injection Hq as -> ->. auto.
    - assert (k = 1) as -> by lia. simpl in *. injection Hq as -> ->. auto.
    - assert (k = 2) as -> by lia. simpl in *. injection Hq as -> ->. auto. }
  unfold back_ops in Ec, Ef. rewrite app_nil_r in Ec. rewrite foldM_app, Ec in Ef. cbn [bind] in Ef.
  destruct sw; cbn [foldM] in Ef.
  - destruct (op_patch (basK OSwap) OSwap c) as [q|] eqn:Eq; [|discriminate]. cbn [bind] in Ef. injection Ef as ->.
    unfold op_patch in Eq. destruct (opC _ _ _ _); [|discriminate]. cbn [bind] in Eq. injection Eq as <-. simpl in *. auto.
  - injection Ef as <-. auto.
Qed.

End K.

(** Refutations. *)
Definition tiny : patch nat := mkPatch (mkComp [0; 0; 1; 1]%Q 2) (mkComp [0; 0; 1; 1]%Q 2) [10; 11; 12; 13].

Lemma any_history_fails : exists (h : list op) (p : patch nat) a f, full p /\ run h (newAux p false) = Ok a /\
  parametrizeBasisBack a [geo a] = Ok [f] /\ pC f <> pC p.
Proof. exists [OClock; OClock], tiny. eexists. eexists. repeat split; try reflexivity. vm_compute. discriminate. Qed.

Lemma two_swaps_fail : exists (p : patch nat) a f, full p /\ run [OSwap; OSwap] (newAux p false) = Ok a /\
  parametrizeBasisBack a [geo a] = Ok [f] /\ pC f <> pC p.
Proof. exists tiny. eexists. eexists. repeat split; try reflexivity. vm_compute. discriminate. Qed.

Lemma map_after_two_rotations_wrong : exists (p : patch nat) a s s', full p /\ nonempty p /\ run [OAnti; OAnti] (newAux p false) = Ok a /\
  getMapIndex a (side_ix s) = Ok (side_ix s') /\ forall rv, ~ carries (geo a) s' p s rv.
Proof.
  exists tiny. eexists. exists West, North. split; [reflexivity|]. split; [split; simpl; lia|]. split; [reflexivity|]. split; [reflexivity|].
  intros [] [_ H]; specialize (H 0 ltac:(simpl; lia)); vm_compute in H; discriminate.
Qed.

Lemma swapped_interface_wrong : exists (p : patch nat) a s, full p /\ nonempty p /\
  reparametrizeInterface true (side_ix s) (newAux p true) = Ok a /\ forall rv, ~ carries (geo a) West p s rv.
Proof.
  exists tiny. eexists. exists West. split; [reflexivity|]. split; [split; simpl; lia|]. split; [reflexivity|].
  intros [] [_ H].
  - specialize (H 0 ltac:(simpl; lia)). vm_compute in H. discriminate.
  - specialize (H 1 ltac:(simpl; lia)). vm_compute in H. discriminate.
Qed.

Definition skewed : patch nat := mkPatch (mkComp [0; 0; 1 # 4; 1; 1]%Q 3) (mkComp [0; 0; 1; 1]%Q 2) [10; 11; 12; 13; 14; 15].

Lemma skewed_knots_fail : exists (p : patch nat) a f, full p /\ run [OTwice] (newAux p false) = Ok a /\
  parametrizeBasisBack a [geo a] = Ok [f] /\ ~ same_comp (pU f) (pU p).
Proof.
  exists skewed. eexists. eexists. split; [reflexivity|]. split; [reflexivity|]. split; [reflexivity|].
  intros [_ H]. vm_compute in H.
  repeat match goal with X : Forall2 _ (_ :: _) _ |- _ => inversion X; clear X; subst end.
  simpl in *. discriminate.
Qed.

(** the combined statement of C22 *)
Lemma back_identity {A} : forall sw h (p : patch A) ng fs, at_most_one_rotation h -> full p -> Forall full fs ->
  exists a gs fs', run (history sw h) (newAux p ng) = Ok a /\
    mapM (fun f => do x <- run (history sw h) (newAux f ng); Ok (geo x)) fs = Ok gs /\
    parametrizeBasisBack a gs = Ok fs' /\ map pC fs' = map pC fs /\
    map (fun f => (csize (pU f), csize (pV f))) fs' = map (fun f => (csize (pU f), csize (pV f))) fs.
Proof.
  intros sw h p ng fs H Hf Hfs. pose proof (one_rot_forall h H) as Hh.
  destruct (run_total sw h p ng Hh Hf) as (a & E).
  assert (exists gs, mapM (fun f => do x <- run (history sw h) (newAux f ng); Ok (geo x)) fs = Ok gs) as (gs & G).
  { induction Hfs as [|f fs F _ IH]; [eexists; reflexivity|]. destruct (run_total sw h f ng Hh F) as (x & Ex).
    destruct IH as (gs & IH). cbn [mapM]. rewrite Ex. cbn [bind]. rewrite IH. eexists. reflexivity. }
  destruct (back_list sw h p ng a fs gs Hh E (one_rot sw h p ng a H E) Hfs G) as (fs' & B & C & D).
  exists a, gs, fs'. auto.
Qed.

Lemma back_identity1 {A} : forall sw h (p : patch A) ng, at_most_one_rotation h -> full p ->
  exists a, run_1 (history sw h) (newAux1 p ng) = Ok a /\ parametrizeBasisBack_1 a [geo1 a] = Ok [p].
Proof.
  intros sw h p ng H Hf. pose proof (one_rot_forall h H) as Hh.
  destruct (run1_total sw h p ng Hh Hf) as (a & E). exists a. split; auto.
  apply (back1 sw h p ng); auto.
  assert (forall h (a a' : aux1 A), run_1 h a = Ok a' -> rotNum1 a' = hist_rot h (rotNum1 a)) as X.
  { clear. induction h as [|o h IH]; intros a a' E; unfold run_1 in E; cbn [foldM] in E.
    - injection E as <-. auto.
    - unfold run1_1 at 1 in E. destruct (op_patch (basK o) o (geo1 a)); [|discriminate]. cbn [bind] in E.
      apply IH in E. exact E. }
  rewrite (X _ _ _ E).
  destruct H as [->|(o & Ho & ->)]; destruct sw; try destruct o; try (exfalso; apply Ho; reflexivity); vm_compute; split; discriminate.
Qed.

Lemma back_identity_basis {A} : forall sw h (p : patch A) ng a (g : patch A), at_most_one_rotation h -> full p ->
  run (history sw h) (newAux p ng) = Ok a -> full g -> (pU g, pV g) = bas2 a ->
  exists f, parametrizeBasisBack a [g] = Ok [f] /\ full f /\ pU f = pU p /\ pV f = pV p.
Proof.
  intros sw h p ng a g H Hf E. apply (back_knots sw h p ng a g (one_rot_forall h H) Hf E (one_rot sw h p ng a H E)).
Qed.
