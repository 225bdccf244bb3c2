(** Neighbours in the control mesh of hierarchical splines. *)
From Coq Require Import Reals.
From Verif Require Import Common ListLemmas TopoModel MapModel MapSpec MapProofs MapTravelSpec MapTravel MapAllModel MapAllSpec MapAllKind MapAllProofs HbMapModel HbMapSpec HbMapIdx HbMapCols HbMapProofs.
From Coq Require Import ZifyBool.
Open Scope Z_scope.

Lemma levelOfAux_ok xs : forall m x i, nth_error xs m = Some x -> Z.of_nat (length (concat (firstn m xs))) <= i < Z.of_nat (length (concat (firstn m xs))) + Z.of_nat (length x) -> levelOfAux xs i = Some m.
Proof.
  induction xs as [|y xs IH]; intros [|m] x i E B; cbn in E; try discriminate; cbn [levelOfAux firstn concat] in *.
  - injection E as ->. cbn [length] in B. now replace (i <? Z.of_nat (length x)) with true by lia.
  - rewrite app_length in B. replace (i <? Z.of_nat (length y)) with false by lia. rewrite (IH m x) by (assumption || lia). reflexivity.
Qed.
Lemma levelOf_ok P k m : toHier P k m <> -1 -> levelOf P (toHier P k m) = Ok m.
Proof.
  intros A. destruct (toHier_inv P k m _ eq_refl A) as (xs & j & E & J & Q & B & _). unfold levelOf. replace (toHier P k m <? 0) with false by lia. assert (j < length xs)%nat by (apply nth_error_Some; congruence).
  rewrite (levelOfAux_ok _ m xs); [reflexivity|exact E|]. unfold hoffset in Q. lia.
Qed.

Section W.
Context (H : hmp) (n : Z) (HO : hmp_ok H n).
Notation bsl m := (mbs (hlevel H m)).

Lemma okey_dec k : okey H k -> exists P u v, let b := hpBase P (fst k) in let p := getPatch (bsl (fst k)) (snd k) in nth_error (hps H) p = Some P /\ 0 <= u < mb_u b /\ 0 <= v < mb_v b /\ snd k = L (bsl (fst k)) p b u v /\
  getPatch (hsizes H) (hT H k) = p /\ getPatchIndex (hsizes H) (hT H k) = Ok (toHier P (u + mb_u b * v) (fst k)) /\ toHier P (u + mb_u b * v) (fst k) <> -1 /\ hbaseAt P (fst k) = Ok b.
Proof.
  intros (V & A). pose proof (act_lev H n HO _ _ A) as OK. destruct (decode _ n OK _ V) as (p & b & u & v & E & U & W & EL).
  pose proof A as AI. rewrite EL in AI. apply (act_in_L H (fst k) (POS _ n OK) p b u v E U W) in AI. pose proof E as EB. apply bs_nth in EB. destruct EB as (P & EP & ->).
  assert (GP : getPatch (bsl (fst k)) (snd k) = p) by (rewrite EL; apply getPatch_L; try assumption; apply (POS _ n OK)).
  exists P, u, v. cbv zeta. rewrite GP. destruct (act_T H (fst k) p _ AI) as (T1 & T2 & _). pose proof (T_L H (fst k) (POS _ n OK) p _ u v E U W) as TL. pose proof (proj2 (hier_act H (fst k) p _) AI) as NE.
  unfold hT. rewrite EL, TL, T1, T2. unfold hier in NE. rewrite EP in NE. do 5 (split; [try assumption; reflexivity|]). split; [unfold hier; now rewrite EP|]. split; [exact NE|]. exact (hbase H (fst k) (ho_num H n HO) p P _ EP AI).
Qed.

(** place of a hierarchical spline among the functions of its level and patch *)
Definition place_of (k : nat * Z) (u v : Z) : Prop := exists b, nth_error (bsl (fst k)) (getPatch (bsl (fst k)) (snd k)) = Some b /\ 0 <= u < mb_u b /\ 0 <= v < mb_v b /\ snd k = L (bsl (fst k)) (getPatch (bsl (fst k)) (snd k)) b u v.

Lemma par_of b u v : 0 <= u < mb_u b -> 0 <= v -> patchPar b (u + mb_u b * v) false = u /\ patchPar b (u + mb_u b * v) true = v.
Proof.
  intros U V. unfold patchPar. assert (D : (u + mb_u b * v) / mb_u b = v) by (rewrite Z.mul_comm, Z.div_add by lia; rewrite Z.div_small by lia; lia).
  assert (M : (u + mb_u b * v) mod mb_u b = u) by (rewrite Z.mul_comm, Z.mod_add by lia; now apply Z.mod_small). 
  first [split; [exact M|exact D] | (rewrite ?D; split; [lia|lia])].
Qed.

Lemma L_inj bs p b u v u' v' : 0 <= u < mb_u b -> 0 <= u' < mb_u b -> L bs p b u v = L bs p b u' v' -> u = u' /\ v = v'.
Proof. unfold L. intros U U' Q. assert (v = v') by nia. subst v'. split; [lia|reflexivity]. Qed.

Lemma conn_pf x y u v u' v' : okey H x -> okey H y -> place_of x u v -> place_of y u' v' ->
  hisLocallyConnected H (hT H x) (hT H y) =
    if negb (Nat.eqb (getPatch (bsl (fst x)) (snd x)) (getPatch (bsl (fst y)) (snd y))) then Ok false
    else if negb (Nat.eqb (fst x) (fst y)) then Ok false
    else if hT H y =? 0 then Ok (xorb (negb (u =? u')) (negb (u =? v')))
    else if hT H y =? 1 then Ok (xorb (negb (v =? u')) (negb (v =? v')))
    else Err.
Proof.
  intros X Y (bx & Bx & Ux & Vx & Lx) (by' & By & Uy & Vy & Ly).
  assert (NN : 0 <= hT H y) by (destruct Y as (V & A); apply (T_patch H n (fst y) (act_lev H n HO _ _ A) (snd y) V A)).
  destruct (okey_dec x X) as (P & u0 & v0 & EP & U & V & EL & G1 & G2 & NE & HB). destruct (okey_dec y Y) as (P' & u0' & v0' & EP' & U' & V' & EL' & G1' & G2' & NE' & HB').
  assert (bx = hpBase P (fst x)) as -> by (apply bs_nth in Bx; destruct Bx as (Q & EQ & ->); congruence). assert (by' = hpBase P' (fst y)) as -> by (apply bs_nth in By; destruct By as (Q & EQ & ->); congruence).
  destruct (L_inj _ _ _ _ _ _ _ U Ux (eq_trans (eq_sym EL) Lx)) as (-> & ->). destruct (L_inj _ _ _ _ _ _ _ U' Uy (eq_trans (eq_sym EL') Ly)) as (-> & ->).
  unfold hisLocallyConnected. rewrite G1, G1'. destruct (Nat.eqb_spec (getPatch (bsl (fst x)) (snd x)) (getPatch (bsl (fst y)) (snd y))) as [Q|]; [|reflexivity]. cbn [negb].
  unfold vget at 1 2. rewrite EP, EP'. cbn [bind]. rewrite G2, G2'. cbn [bind]. rewrite !levelOf_ok by assumption. cbn [bind]. destruct (Nat.eqb_spec (fst x) (fst y)) as [Q2|]; [|reflexivity]. cbn [negb].
  rewrite !fromHier_to by assumption. cbn [bind]. rewrite HB, HB'. cbn [bind]. destruct (par_of (hpBase P (fst x)) u v) as (-> & ->); [lia|lia|]. destruct (par_of (hpBase P' (fst y)) u' v') as (-> & ->); [lia|lia|].
  replace (hT H y <? 0) with false by lia. destruct (Z.eqb_spec (hT H y) 0) as [->|N0]; [|destruct (Z.eqb_spec (hT H y) 1) as [->|N1]].
  - change (Z.to_nat 0) with 0%nat. cbn [vget nth_error bind filter]. f_equal. replace (u - u' =? 0) with (u =? u') by lia. replace (u - v' =? 0) with (u =? v') by lia. destruct (u =? u'), (u =? v'); reflexivity.
  - change (Z.to_nat 1) with 1%nat. cbn [vget nth_error bind filter]. f_equal. replace (v - u' =? 0) with (v =? u') by lia. replace (v - v' =? 0) with (v =? v') by lia. destruct (v =? u'), (v =? v'); reflexivity.
  - unfold vget. rewrite (proj2 (nth_error_None _ _)); [reflexivity|]. cbn [length]. lia.
Qed.

Lemma act_key m p b u v i : nth_error (bsl m) p = Some b -> 0 <= u < mb_u b -> 0 <= v < mb_v b -> act_in H m p (u + mb_u b * v) -> hlocalIndexOf H m p u v = Ok i ->
  let k := (m, L (bsl m) p b u v) in okey H k /\ hT H k = i /\ place_of k u v /\ getPatch (bsl m) (snd k) = p.
Proof.
  intros E U V A Q. cbv zeta. assert (OK : mp_ok (hlevel H m) n). { destruct A as (P & xs & EP & X & _). apply (ho_level H n HO m p P EP). apply nth_error_Some. congruence. }
  assert (GP : getPatch (bsl m) (L (bsl m) p b u v) = p) by (apply getPatch_L; try assumption; apply (POS _ n OK)).
  split; [|split; [|split; [|exact GP]]].
  - split; cbn [fst snd]; [now apply valid_L with (n := n)|]. rewrite (act_L H m (POS _ n OK) p b) by assumption. apply hier_act in A. lia.
  - rewrite (hlocalIndexOf_ok H m (POS _ n OK) (ho_num H n HO) p b u v E) in Q by (try assumption; eexists; exact A). injection Q as <-. reflexivity.
  - exists b. cbn [fst snd]. rewrite GP. auto.
Qed.
Lemma connected_pf m p b u v i m' p' b' u' v' j : nth_error (bsl m) p = Some b -> 0 <= u < mb_u b -> 0 <= v < mb_v b -> act_in H m p (u + mb_u b * v) -> hlocalIndexOf H m p u v = Ok i ->
  nth_error (bsl m') p' = Some b' -> 0 <= u' < mb_u b' -> 0 <= v' < mb_v b' -> act_in H m' p' (u' + mb_u b' * v') -> hlocalIndexOf H m' p' u' v' = Ok j ->
  hisLocallyConnected H i j =
    if negb (Nat.eqb p p') then Ok false else if negb (Nat.eqb m m') then Ok false
    else if j =? 0 then Ok (xorb (negb (u =? u')) (negb (u =? v'))) else if j =? 1 then Ok (xorb (negb (v =? u')) (negb (v =? v'))) else Err.
Proof.
  intros E U V A Q E' U' V' A' Q'. destruct (act_key m p b u v i E U V A Q) as (K1 & K2 & K3 & K4). destruct (act_key m' p' b' u' v' j E' U' V' A' Q') as (K1' & K2' & K3' & K4').
  pose proof (conn_pf _ _ u v u' v' K1 K1' K3 K3') as C. rewrite K2, K2' in C. cbn [fst] in C. rewrite K4, K4' in C. exact C.
Qed.
(** numbers of the functions *)
Lemma numbers_pf : (forall m p b u v, nth_error (bsl m) p = Some b -> 0 <= u < mb_u b -> 0 <= v < mb_v b -> act_in H m p (u + mb_u b * v) -> exists i, hlocalIndexOf H m p u v = Ok i /\ 0 <= i < hlocals H) /\
  (forall l, 0 <= l < hlocals H -> exists m p b u v, nth_error (bsl m) p = Some b /\ 0 <= u < mb_u b /\ 0 <= v < mb_v b /\ act_in H m p (u + mb_u b * v) /\ hlocalIndexOf H m p u v = Ok l) /\
  (forall m p b u v m' p' b' u' v' l, nth_error (bsl m) p = Some b -> 0 <= u < mb_u b -> 0 <= v < mb_v b -> act_in H m p (u + mb_u b * v) -> hlocalIndexOf H m p u v = Ok l ->
     nth_error (bsl m') p' = Some b' -> 0 <= u' < mb_u b' -> 0 <= v' < mb_v b' -> act_in H m' p' (u' + mb_u b' * v') -> hlocalIndexOf H m' p' u' v' = Ok l -> (m, p, u, v) = (m', p', u', v')).
Proof.
  rewrite <- (N_hlocals H). split; [|split].
  - intros m p b u v E U V A. assert (OK : mp_ok (hlevel H m) n). { destruct A as (P & xs & EP & X & _). apply (ho_level H n HO m p P EP). apply nth_error_Some. congruence. }
    pose proof (hlocalIndexOf_ok H m (POS _ n OK) (ho_num H n HO) p b u v E (ex_intro _ _ A) U V) as Q. eexists. split; [exact Q|]. destruct (act_key m p b u v _ E U V A Q) as ((V1 & A1) & _). cbn [fst snd] in *. now apply (T_patch H n m OK).
  - intros l B. destruct (hT_surj H n HO l B) as (k & K & <-). pose proof K as (V & A). pose proof (act_lev H n HO _ _ A) as OK. destruct (decode _ n OK _ V) as (p & b & u & v & E & U & W & EL). exists (fst k), p, b, u, v. do 3 (split; [assumption|]).
    rewrite EL in A. pose proof (act_in_L H (fst k) (POS _ n OK) p b u v E U W A) as AI. split; [exact AI|]. rewrite (hlocalIndexOf_ok H (fst k) (POS _ n OK) (ho_num H n HO) p b u v E (ex_intro _ _ AI) U W). unfold hT. now rewrite EL.
  - intros m p b u v m' p' b' u' v' l E U V A Q E' U' V' A' Q'. destruct (act_key m p b u v l E U V A Q) as (K1 & K2 & K3 & K4). destruct (act_key m' p' b' u' v' l E' U' V' A' Q') as (K1' & K2' & K3' & K4').
    assert (KE := hT_inj H n HO _ _ K1 K1' (eq_trans K2 (eq_sym K2'))). assert (m = m') by congruence. subst m'. assert (LE : L (bsl m) p b u v = L (bsl m) p' b' u' v') by congruence. cbn [snd] in K4, K4'. rewrite LE, K4' in K4. subst p'. assert (b' = b) by congruence. subst b'. destruct (L_inj _ _ _ _ _ _ _ U U' LE) as (-> & ->). reflexivity.
Qed.

Lemma renum_T m x y : mp_ok (hlevel H m) n -> renum H m x y <-> (valid (hlevel H m) x /\ act H m x = true /\ y = T H m x).
Proof.
  intros OK. split.
  - intros (p & b & u & v & E & U & V & A & X & Y). rewrite (localIndexOf_ok (bsl m) p b) in X by exact E. injection X as <-. destruct (act_key m p b u v y E U V A Y) as ((V1 & A1) & K & _). cbn [fst snd] in *. split; [exact V1|]. split; [exact A1|]. now symmetry.
  - intros (V & A & ->). destruct (decode _ n OK _ V) as (p & b & u & v & E & U & W & EL). exists p, b, u, v. do 3 (split; [assumption|]). rewrite EL in A. pose proof (act_in_L H m (POS _ n OK) p b u v E U W A) as AI. split; [exact AI|]. split; [rewrite EL; now apply localIndexOf_ok|]. rewrite EL. now apply (hlocalIndexOf_ok H m (POS _ n OK) (ho_num H n HO) p b u v E (ex_intro _ _ AI)).
Qed.
Lemma levels_pf : exists cols, hmakeMapper H = Ok cols /\ forall c, In c cols <->
  exists m p P cols0 c0, nth_error (hps H) p = Some P /\ (m < length (hpX P))%nat /\ makeMapper (hlevel H m) = Ok cols0 /\ In c0 cols0 /\ Forall2 (fun e e0 => renum H m (fst e0) (fst e) /\ snd e = snd e0) c c0.
Proof.
  eexists. split; [exact (hmakeMapper_ok H n HO)|]. intros c. rewrite in_flat_map. split.
  - intros (k & K & I). apply (keys_in H n HO) in K. unfold kcols in I. apply in_map_iff in I. destruct I as (c0 & <- & I). pose proof K as (V & A). pose proof (act_lev H n HO _ _ A) as OK. destruct (okey_dec k K) as (P & u & v & EP & U & W & EL & _ & _ & NE & _).
    exists (fst k), (getPatch (bsl (fst k)) (snd k)), P, (flat_map (colsOf (hlevel H (fst k))) (starts (hlevel H (fst k)))), c0. split; [exact EP|]. split; [apply toHier_act in NE; destruct NE as (xs & X & _); apply nth_error_Some; congruence|]. split; [exact (makeMapper_ok _ n OK)|].
    split; [apply in_flat_map; exists (snd k); split; [now apply (starts_in _ n OK)|exact I]|]. assert (MB : forall e, In e c0 -> okey H (fst k, fst e)) by (intros e Ie; apply (members H n HO k c0 e K I Ie)).
    clear I. induction c0 as [|e r IH]; [constructor|]. cbn [Tcol map]. constructor; [|apply IH; intros; apply MB; now right]. unfold Tent. cbn [fst snd]. split; [|reflexivity]. apply (renum_T _ _ _ OK). destruct (MB e (or_introl eq_refl)) as (V1 & A1). cbn [fst snd] in *. auto.
  - intros (m & p & P & cols0 & c0 & EP & LT & MM & I0 & F). pose proof (ho_level H n HO m p P EP LT) as OK. rewrite (makeMapper_ok _ n OK) in MM. injection MM as <-. apply in_flat_map in I0. destruct I0 as (S0 & IS & IC). apply (starts_in _ n OK) in IS.
    assert (MB : forall e, In e c0 -> valid (hlevel H m) (fst e) /\ act H m (fst e) = true). { clear IC. induction F as [|e e0 c c0 (R & _) F IH]; intros x I; [destruct I|]. destruct I as [<-|I]; [apply (renum_T m _ _ OK) in R; tauto|now apply IH]. }
    assert (AS : act H m S0 = true). { destruct (good _ n OK S0 IS) as (_ & [Q|(c' & Q & (NE & _) & _)]); rewrite Q in IC; [destruct IC|]. destruct IC as [->|[]]. destruct c0 as [|(x, v) r]; [congruence|]. rewrite (same_act H n HO m OK S0 x ((x, v) :: r) v IS); [now apply (MB (x, v)); left|rewrite Q; now left|now left]. }
    exists (m, S0). split; [apply (keys_in H n HO); now split|]. unfold kcols. cbn [fst snd]. apply in_map_iff. exists c0. split; [|exact IC]. clear IC MB. induction F as [|e e0 c c0 (R & S1) F IH]; [reflexivity|]. cbn [Tcol map]. f_equal; [|exact IH]. apply (renum_T m _ _ OK) in R. destruct R as (_ & _ & R). destruct e as (a, b). unfold Tent. cbn [fst snd] in *. congruence.
Qed.
End W.
