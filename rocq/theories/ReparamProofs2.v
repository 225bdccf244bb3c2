(** Histories of re-parameterisations. *)
From Verif Require Import Common TopoModel ListLemmas ReparamModel ReparamSpec ReparamProofs.
From Coq Require Import ZifyBool.

Section R.
Context {A : Type}.
Implicit Types p q : patch A.

(** [q] is [p] turned [k] times anti-clockwise *)
Definition rfrom (k n m u v : nat) : nat * nat :=
  match k with
  | 0 => (u, v)
  | 1 => (n - 1 - v, u)
  | 2 => (n - 1 - u, m - 1 - v)
  | _ => (v, m - 1 - u)
  end.
Definition rsizes (k n m : nat) : nat * nat := match k with 0 | 2 => (n, m) | _ => (m, n) end.

Definition rotated (k : nat) p q : Prop :=
  full q /\ (csize (pU q), csize (pV q)) = rsizes k (csize (pU p)) (csize (pV p)) /\
  forall u v, u < csize (pU q) -> v < csize (pV q) ->
    at_ q u v = at_ p (fst (rfrom k (csize (pU p)) (csize (pV p)) u v)) (snd (rfrom k (csize (pU p)) (csize (pV p)) u v)).

Definition turns (o : op) : nat := match o with OSwap => 0 | OAnti => 1 | OTwice => 2 | OClock => 3 end.

Lemma rotated_refl p : full p -> rotated 0 p p.
Proof. intros H. split; auto. Qed.

Lemma rotated_step K k p q o : keeps_size K -> k < 4 -> rotated k p q -> o <> OSwap ->
  exists q', op_patch (K o) o q = Ok q' /\ rotated ((k + turns o) mod 4) p q' /\ (pU q', pV q') = K o (pU q) (pV q).
Proof.
  intros HK Hk (Hf & Hs & Ha) Ho.
  destruct (op_patch_ok K o q HK Hf) as (q' & E & F & K' & S & At). exists q'. split; auto. split; auto. split; auto.
  remember (csize (pU p)) as n. remember (csize (pV p)) as m.
  remember (csize (pU q)) as a. remember (csize (pV q)) as b. remember (csize (pU q')) as a'. remember (csize (pV q')) as b'.
  assert (k = 0 \/ k = 1 \/ k = 2 \/ k = 3) as [->|[->|[->| ->]]] by lia;
  destruct o; try congruence; simpl in Hs, S |- *; injection Hs as -> ->; injection S as -> ->;
  (split; [reflexivity|]); intros u v Hu Hv; rewrite At by auto; simpl; rewrite Ha by lia; simpl; repeat f_equal; lia.
Qed.

Lemma op_rot_mod o r : o <> OSwap -> ((op_rot o r) mod 4 = (r + Z.of_nat (turns o)) mod 4)%Z.
Proof.
  intros Ho. destruct o; try congruence; simpl; unfold checkRotation.
  - reflexivity.
  - destruct (r - 1 =? 4)%Z eqn:E.
    + replace r with 5%Z by lia. reflexivity.
    + replace (r + 3)%Z with (r - 1 + 1 * 4)%Z by lia. rewrite Z_mod_plus_full. reflexivity.
  - destruct (r + 2 =? 4)%Z eqn:E; [|reflexivity]. replace r with 2%Z by lia. reflexivity.
Qed.

(** state reached by rotations only *)
Lemma run_rot (h : list op) : Forall (fun o => o <> OSwap) h -> forall p (a : aux A) k, k < 4 -> rotated k p (geo a) ->
  (rotNum a mod 4 = Z.of_nat k)%Z ->
  exists a' k', run h a = Ok a' /\ k' < 4 /\ rotated k' p (geo a') /\ (rotNum a' mod 4 = Z.of_nat k')%Z /\
    orient a' = orient a /\ neg a' = neg a.
Proof.
  induction 1 as [|o h Ho _ IH]; intros p a k Hk Hr Hn.
  - exists a, k. simpl. auto 10.
  - unfold run. cbn [foldM]. unfold run1 at 1.
    destruct (rotated_step geoK k p (geo a) o geoK_size Hk Hr Ho) as (q & E & Hr' & _). rewrite E. cbn [bind].
    edestruct (IH p (mkAux q (op_basis o (bas2 a)) (op_map o (orient a)) (match o with OSwap => true | _ => orient a end)
       (op_rot o (rotNum a)) (match o with OSwap => negb (neg a) | _ => neg a end)) ((k + turns o) mod 4)) as (a' & k' & R & P).
    + apply Nat.mod_upper_bound. lia.
    + exact Hr'.
    + cbn [rotNum]. rewrite op_rot_mod by auto. rewrite <- Zplus_mod_idemp_l, Hn, <- Nat2Z.inj_add.
      rewrite Nat2Z.inj_mod. reflexivity.
    + exists a', k'. split; [exact R|]. destruct P as (P1 & P2 & P3 & P4 & P5). simpl in P4, P5.
      rewrite P4, P5. destruct o; try congruence; auto.
Qed.

Lemma rotated_0_coefs p q : full p -> rotated 0 p q -> pC q = pC p.
Proof.
  intros Hf (Hq & Hs & Ha). simpl in Hs. injection Hs as E1 E2. apply patch_ext; auto.
Qed.

(** full swap *)
Lemma swap_ok K p : keeps_size K -> full p -> exists q, op_patch (K OSwap) OSwap p = Ok q /\ full q /\
  (pU q, pV q) = K OSwap (pU p) (pV p) /\
  csize (pU q) = csize (pV p) /\ csize (pV q) = csize (pU p) /\ forall u v, at_ q u v = at_ p v u.
Proof.
  intros HK Hf. destruct (op_patch_ok K OSwap p HK Hf) as (q & E & F & K' & S & At). exists q.
  simpl in S. injection S as S1 S2. split; auto. split; auto. split; auto. split; auto. split; auto.
  intros u v. destruct ((u <? csize (pU q)) && (v <? csize (pV q))) eqn:Q.
  - rewrite At by lia. reflexivity.
  - unfold at_. rewrite Q. rewrite S1, S2 in Q.
    replace ((v <? csize (pU p)) && (u <? csize (pV p))) with false; auto.
    destruct (v <? csize (pU p)), (u <? csize (pV p)); simpl in *; try congruence; rewrite andb_false_r in Q || idtac; congruence.
Qed.


(** summary of the state after [history sw h] *)
Lemma run_history sw h p ng : Forall (fun o => o <> OSwap) h -> full p ->
  exists a b k, run (history sw h) (newAux p ng) = Ok a /\ full b /\
    (if sw then csize (pU b) = csize (pV p) /\ csize (pV b) = csize (pU p) /\ forall u v, at_ b u v = at_ p v u
     else b = p) /\
    k < 4 /\ rotated k b (geo a) /\ (rotNum a mod 4 = Z.of_nat k)%Z /\ orient a = sw /\ neg a = xorb sw ng.
Proof.
  intros Hh Hf. destruct sw; unfold history.
  - unfold run. cbn [foldM]. unfold run1 at 1.
    destruct (swap_ok geoK p geoK_size Hf) as (b & E & Fb & _ & S1 & S2 & At).
    change (geo (newAux p ng)) with p. rewrite E. cbn [bind].
    match goal with |- context [foldM run1 h ?x] => set (a0 := x) end.
    destruct (run_rot h Hh b a0 0) as (a & k & R & P1 & P2 & P3 & P4 & P5);
      [lia|apply rotated_refl; auto|reflexivity|].
    exists a, b, k. split; [exact R|].
    simpl in P4, P5. destruct ng; simpl in *; auto 12.
  - edestruct (run_rot h Hh p (newAux p ng) 0) as (a & k & R & P1 & P2 & P3 & P4 & P5);
      [lia|apply rotated_refl; auto|reflexivity|].
    exists a, p, k. rewrite P4, P5. destruct ng; simpl; auto 12.
Qed.

(** rotationNum and orientation do not depend on the patch *)
Definition hist_rot (h : list op) (r : Z) : Z := fold_left (fun r o => op_rot o r) h r.
Definition hist_or (h : list op) (b : bool) : bool := fold_left (fun b o => match o with OSwap => true | _ => b end) h b.
Lemma run_flags (h : list op) : forall (a a' : aux A), run h a = Ok a' ->
  rotNum a' = hist_rot h (rotNum a) /\ orient a' = hist_or h (orient a).
Proof.
  induction h as [|o h IH]; intros a a' E; unfold run in E; cbn [foldM] in E.
  - injection E as <-. auto.
  - unfold run1 at 1 in E. destruct (op_patch (geoK o) o (geo a)); [|discriminate]. cbn [bind] in E.
    apply IH in E. exact E.
Qed.

Lemma mapM_back (ops : list op) : forall gs fs : list (patch A),
  Forall2 (fun g f => foldM (fun g o => op_patch (basK o) o g) ops g = Ok f) gs fs ->
  foldM (fun gs o => mapM (op_patch (basK o) o) gs) ops gs = Ok fs.
Proof.
  induction ops as [|o ops IH]; intros gs fs H; cbn [foldM].
  - f_equal. induction H; simpl in *; congruence.
  - assert (exists hs, mapM (op_patch (basK o) o) gs = Ok hs /\
      Forall2 (fun g f => foldM (fun g o => op_patch (basK o) o g) ops g = Ok f) hs fs) as (hs & E & H').
    { clear IH. induction H as [|g f gs fs H1 _ (hs & E & H2)].
      - exists []. simpl; auto.
      - cbn [foldM] in H1. destruct (op_patch (basK o) o g) as [g'|] eqn:Q; [|discriminate]. cbn [bind] in H1.
        exists (g' :: hs). simpl. rewrite Q, E. simpl. auto. }
    rewrite E. simpl. apply IH. exact H'.
Qed.

Lemma back_single sw h p ng a : Forall (fun o => o <> OSwap) h -> full p ->
  run (history sw h) (newAux p ng) = Ok a -> (-1 <= rotNum a <= 2)%Z ->
  exists f, foldM (fun g o => op_patch (basK o) o g) (back_ops (rotNum a) (orient a)) (geo a) = Ok f /\
    pC f = pC p /\ csize (pU f) = csize (pU p) /\ csize (pV f) = csize (pV p).
Proof.
  intros Hh Hf E Hr.
  destruct (run_history sw h p ng Hh Hf) as (a' & b & k & E' & Fb & Hb & Hk & Hrot & Hm & Ho & _).
  rewrite E in E'. injection E' as <-. rewrite Ho.
  assert (exists c, foldM (fun g o => op_patch (basK o) o g) (back_ops (rotNum a) false) (geo a) = Ok c /\ rotated 0 b c) as (c & Ec & Rc).
  { assert (rotNum a = -1 \/ rotNum a = 0 \/ rotNum a = 1 \/ rotNum a = 2)%Z as C by lia.
    unfold back_ops. rewrite app_nil_r.
    destruct C as [C|[C|[C|C]]]; rewrite C in Hm |- *; vm_compute (_ mod _)%Z in Hm; cbn [Z.eqb Pos.eqb foldM].
    - assert (k = 3) as -> by lia.
      destruct (rotated_step basK 3 b (geo a) OAnti basK_size) as (c & Ec & R & _); auto; try discriminate.
      rewrite Ec. cbn [bind]. eauto.
    - assert (k = 0) as -> by lia. eauto.
    - assert (k = 1) as -> by lia.
      destruct (rotated_step basK 1 b (geo a) OClock basK_size) as (c & Ec & R & _); auto; try discriminate; try lia.
      rewrite Ec. cbn [bind]. eauto.
    - assert (k = 2) as -> by lia.
      destruct (rotated_step basK 2 b (geo a) OTwice basK_size) as (c & Ec & R & _); auto; try discriminate; try lia.
      rewrite Ec. cbn [bind]. eauto. }
  destruct sw.
  - destruct Hb as (S1 & S2 & At). unfold back_ops in Ec |- *. rewrite app_nil_r in Ec. rewrite foldM_app, Ec. cbn [bind foldM].
    destruct Rc as (Fc & Sc & Ac). simpl in Sc. injection Sc as T1 T2.
    destruct (swap_ok basK c basK_size Fc) as (f & Ef & Ff & _ & U1 & U2 & Af). rewrite Ef. cbn [bind].
    exists f. split; auto. split; [|lia]. apply patch_ext; auto; try lia.
    intros u v Hu Hv. rewrite Af, Ac by lia. simpl. rewrite At. reflexivity.
  - subst b. exists c. split; auto. split; [apply rotated_0_coefs; auto|].
    destruct Rc as (_ & Sc & _). simpl in Sc. injection Sc. auto.
Qed.

(** C22 for lists of functions living on the re-parameterised patch *)
Lemma back_list sw h p ng a fs gs : Forall (fun o => o <> OSwap) h ->
  run (history sw h) (newAux p ng) = Ok a -> (-1 <= rotNum a <= 2)%Z ->
  Forall full fs ->
  mapM (fun f => do x <- run (history sw h) (newAux f ng); Ok (geo x)) fs = Ok gs ->
  exists fs', parametrizeBasisBack a gs = Ok fs' /\ map pC fs' = map pC fs /\
    map (fun f => (csize (pU f), csize (pV f))) fs' = map (fun f => (csize (pU f), csize (pV f))) fs.
Proof.
  intros Hh E Hr Hfs Hgs.
  assert (exists fs', Forall2 (fun g f => foldM (fun g o => op_patch (basK o) o g) (back_ops (rotNum a) (orient a)) g = Ok f) gs fs' /\
    map pC fs' = map pC fs /\
    map (fun f => (csize (pU f), csize (pV f))) fs' = map (fun f => (csize (pU f), csize (pV f))) fs) as (fs' & H2 & Hm).
  { revert gs Hgs. induction Hfs as [|f fs Hf _ IH]; intros gs Hgs; simpl in Hgs.
    - injection Hgs as <-. exists []. auto.
    - destruct (run (history sw h) (newAux f ng)) as [x|] eqn:Ex; [|discriminate]. simpl in Hgs.
      destruct (mapM _ fs) as [gs'|] eqn:Em; [|discriminate]. simpl in Hgs. injection Hgs as <-.
      destruct (IH gs' eq_refl) as (fs' & H2 & H3 & H4).
      destruct (run_flags _ _ _ E) as [R1 R2]. destruct (run_flags _ _ _ Ex) as [R3 R4]. simpl in R1, R2, R3, R4.
      assert (rotNum x = rotNum a) as Er by congruence. assert (orient x = orient a) as Eo by congruence.
      destruct (back_single sw h f ng x Hh Hf Ex) as (f' & Ef & C1 & C2 & C3); [lia|]. rewrite Er, Eo in Ef.
      exists (f' :: fs'). simpl. split; [constructor; auto|]. split; congruence. }
  exists fs'. split; auto. unfold parametrizeBasisBack. apply mapM_back. exact H2.
Qed.

Lemma run_total sw h p ng : Forall (fun o => o <> OSwap) h -> full p -> exists a, run (history sw h) (newAux p ng) = Ok a.
Proof. intros Hh Hf. destruct (run_history sw h p ng Hh Hf) as (a & _ & _ & E & _). eauto. Qed.

(** at most one rotation *)

Lemma one_rot sw h p ng a : at_most_one_rotation h -> run (history sw h) (newAux p ng) = Ok a -> (-1 <= rotNum a <= 2)%Z.
Proof.
  intros H E. destruct (run_flags _ _ _ E) as [R _]. rewrite R.
  destruct H as [->|(o & Ho & ->)]; destruct sw; try destruct o; try congruence; vm_compute; split; discriminate.
Qed.
Lemma one_rot_forall h : at_most_one_rotation h -> Forall (fun o => o <> OSwap) h.
Proof. intros [->|(o & Ho & ->)]; auto. Qed.

(** the positions of the sides *)
Lemma edge_full p s k : full p -> nonempty p -> k < side_count p s -> exists a, on_side_at p s k = Some a.
Proof. intros Hf [H1 H2] Hk. destruct s; simpl in *; apply at_some; auto; lia. Qed.

(** result of a history with at most one rotation, as a position map *)
Definition oneop (h : list op) : nat := match h with [] => 0 | o :: _ => turns o end.

Lemma run_one sw h p ng : at_most_one_rotation h -> full p ->
  exists a b, run (history sw h) (newAux p ng) = Ok a /\ full b /\
    (if sw then csize (pU b) = csize (pV p) /\ csize (pV b) = csize (pU p) /\ forall u v, at_ b u v = at_ p v u
     else b = p) /\ rotated (oneop h) b (geo a) /\ orient a = sw /\ neg a = xorb sw ng /\
    mapIx a = match h with [] => if sw then [3; 4; 1; 2] else [1; 2; 3; 4] | o :: _ => op_map o sw end.
Proof.
  intros H Hf. pose proof (one_rot_forall h H) as Hh.
  destruct (run_history sw h p ng Hh Hf) as (a & b & k & E & Fb & Hb & Hk & Hr & Hm & Ho & Hn).
  exists a, b. split; auto. split; auto. split; auto. split.
  - replace (oneop h) with k; auto. destruct (run_flags _ _ _ E) as [R _]. rewrite R in Hm.
    destruct H as [->|(o & Hs & ->)]; destruct sw; try destruct o; try congruence; vm_compute (_ mod _)%Z in Hm; simpl; lia.
  - split; auto. split; auto. clear - E H.
    destruct H as [->|(o & Hs & ->)]; destruct sw; unfold history, run in E; cbn [foldM] in E; unfold run1 in E;
    repeat (match type of E with context [op_patch ?K ?o ?q] => destruct (op_patch K o q); [|discriminate]; cbn [bind geo] in E end);
    injection E as <-; simpl; auto.
Qed.

Lemma carries_total sw h p ng a s : at_most_one_rotation h -> full p -> nonempty p ->
  run (history sw h) (newAux p ng) = Ok a ->
  exists s' rv, getMapIndex a (side_ix s) = Ok (side_ix s') /\ carries (geo a) s' p s rv.
Proof.
  intros H Hf [N1 N2] E.
  destruct (run_one sw h p ng H Hf) as (a' & b & E' & Fb & Hb & (Fg & Sg & Ag) & Ho & Hn & Hm).
  rewrite E in E'. injection E' as <-. unfold getMapIndex. rewrite Hm.
  remember (csize (pU p)) as n. remember (csize (pV p)) as m.
  assert (forall (s' : side) (rv : bool),
    side_count (geo a) s' = side_count p s ->
    (forall k, k < side_count p s -> on_side_at (geo a) s' k = on_side_at p s (if rv then side_count p s - 1 - k else k)) ->
    carries (geo a) s' p s rv) as C by (intros; split; auto).
  assert (exists (s' : side) (rv : bool), vget (match h with [] => if sw then [3; 4; 1; 2] else [1; 2; 3; 4] | o :: _ => op_map o sw end) (side_ix s - 1) = Ok (side_ix s') /\
     side_count (geo a) s' = side_count p s /\
     (forall k, k < side_count p s -> on_side_at (geo a) s' k = on_side_at p s (if rv then side_count p s - 1 - k else k))) as (s' & rv & X & Y & Z).
  2:{ exists s', rv. auto. }
  Ltac side_case b Ag At := exists b; split; [reflexivity|]; split; [simpl; lia|]; intros k Hk; cbn [on_side_at side_count] in *;
    rewrite Ag by lia; cbn [rfrom oneop turns fst snd]; try rewrite At; f_equal; lia.
  destruct sw.
  - destruct Hb as (S1 & S2 & At).
    destruct H as [->|(o & Hs & ->)]; [|destruct o; try congruence]; destruct s; simpl in Sg |- *;
    injection Sg as T1 T2;
    match goal with |- exists s' rv, vget ?l ?i = _ /\ _ => let x := eval vm_compute in (vget l i) in
      match x with Ok 1 => exists West | Ok 2 => exists East | Ok 3 => exists South | Ok 4 => exists North end end;
    first [side_case false Ag At | side_case true Ag At].
  - subst b.
    destruct H as [->|(o & Hs & ->)]; [|destruct o; try congruence]; destruct s; simpl in Sg |- *;
    injection Sg as T1 T2;
    match goal with |- exists s' rv, vget ?l ?i = _ /\ _ => let x := eval vm_compute in (vget l i) in
      match x with Ok 1 => exists West | Ok 2 => exists East | Ok 3 => exists South | Ok 4 => exists North end end;
    first [side_case false Ag Ag | side_case true Ag Ag].
Qed.

End R.
