(** The map of hierarchical splines as a whole: row sums are one, columns are independent. *)
From Coq Require Import Reals Lra.
From Verif Require Import Common ListLemmas TopoModel TopoSpec TopoProofs MapModel MapSpec MapProofs MapRegions MapTravelSpec MapTravel MapActions MapLines MapAllModel MapAllSpec MapAllLoc MapAllKind MapAllCols MapAllLines MapAllBlocks MapAllCorners MapAllProofs HbMapModel HbMapSpec HbMapIdx HbMapCols.
From Coq Require Import ZifyBool Permutation.
Open Scope Z_scope.

Lemma NoDup_flat_map_each {A B} (f : A -> list B) l a : NoDup (flat_map f l) -> In a l -> NoDup (f a).
Proof.
  induction l as [|x l IH]; [intros _ []|]. cbn [flat_map]. intros ND [<-|I]; apply NoDup_app_iff in ND; destruct ND as (A1 & A2 & _); [exact A1|now apply IH].
Qed.
Lemma concat_map_flat {A B} (f : A -> list B) l : concat (map f l) = flat_map f l.
Proof. symmetry. apply flat_map_concat_map. Qed.
Lemma flat_map_map {A B C} (f : A -> B) (g : B -> list C) l : flat_map g (map f l) = flat_map (fun x => g (f x)) l.
Proof. induction l as [|x l IH]; [reflexivity|]. cbn [map flat_map]. now rewrite IH. Qed.
Lemma flat_map_flat {A B C} (f : A -> list B) (g : B -> list C) l : flat_map g (flat_map f l) = flat_map (fun x => flat_map g (f x)) l.
Proof. induction l as [|x l IH]; [reflexivity|]. cbn [flat_map]. now rewrite flat_map_app, IH. Qed.
Lemma flat_map_ext_in {A B} (f g : A -> list B) l : (forall x, In x l -> f x = g x) -> flat_map f l = flat_map g l.
Proof. induction l as [|x l IH]; intros E; [reflexivity|]. cbn [flat_map]. rewrite E by now left. f_equal. apply IH. intros. apply E. now right. Qed.

(** *** Independence by keys *)
Section K.
Context {K : Type} (dec : forall x y : K, {x = y} + {x <> y}) (f : K -> column) (N : Z) (dk : K).
Fixpoint pos (k : K) (l : list K) : nat := match l with [] => 0%nat | x :: r => if dec k x then 0%nat else S (pos k r) end.
Lemma pos_nth l i : NoDup l -> (i < length l)%nat -> pos (nth i l dk) l = i.
Proof.
  intros ND. revert i. induction ND as [|x l NI ND IH]; intros i I; [cbn in I; lia|]. destruct i as [|i]; cbn [nth pos].
  - destruct (dec x x); [reflexivity|congruence].
  - cbn [length] in I. assert (I' : (i < length l)%nat) by lia. destruct (dec (nth i l dk) x) as [Q|_]; [exfalso; apply NI; rewrite <- Q; now apply nth_In|]. now rewrite IH.
Qed.
Lemma rs_nth (h : K -> R) l : rs (fun i => h (nth i l dk)) (seq 0 (length l)) = rs h l.
Proof.
  induction l as [|x l IH]; [reflexivity|]. cbn [length seq]. rewrite !rs_cons. f_equal. rewrite <- seq_shift, rs_map. exact IH.
Qed.
Lemma nth_f l i : (i < length l)%nat -> nth i (map f l) [] = f (nth i l dk).
Proof. intros I. rewrite (nth_indep _ [] (f dk)) by (now rewrite map_length). apply map_nth. Qed.

Lemma ind_to l : independent N (map f l) -> forall al : K -> R, (forall x, 0 <= x < N -> rs (fun k => (al k * entry (f k) x)%R) l = 0%R) -> forall k, In k l -> al k = 0%R.
Proof.
  intros IN al EQ k I. apply (In_nth _ _ dk) in I. destruct I as (i & Hi & <-). apply (IN (fun j => al (nth j l dk))); [|now rewrite map_length].
  intros x X. rewrite map_length. change (rs (fun j => (al (nth j l dk) * entry (nth j (map f l) []) x)%R) (seq 0 (length l)) = 0%R).
  rewrite <- (EQ x X), <- (rs_nth (fun k => (al k * entry (f k) x)%R)). apply rs_ext. intros j J. apply in_seq in J. now rewrite nth_f by lia.
Qed.
Lemma ind_of l : NoDup l -> (forall al : K -> R, (forall x, 0 <= x < N -> rs (fun k => (al k * entry (f k) x)%R) l = 0%R) -> forall k, In k l -> al k = 0%R) -> independent N (map f l).
Proof.
  intros ND IN a EQ i I. rewrite map_length in *. rewrite <- (pos_nth l i ND I). apply (IN (fun k => a (pos k l))); [|now apply nth_In].
  intros x X. rewrite <- (EQ x X). change (fold_right Rplus 0%R (map ?g ?l)) with (rs g l). rewrite <- (rs_nth (fun k => (a (pos k l) * entry (f k) x)%R)). apply rs_ext. intros j J. apply in_seq in J. rewrite nth_f, pos_nth by (assumption || lia). reflexivity.
Qed.
End K.

Section W.
Context (H : hmp) (n : Z) (HO : hmp_ok H n).
Notation hs := (hsizes H).
Notation N := (nrOfLocals (hsizes H)).
Notation NUM := (ho_num H n HO).

Lemma act_lev m x : act H m x = true -> mp_ok (hlevel H m) n.
Proof.
  intros A. unfold act in A. assert (NE : hier H m (getPatch (mbs (hlevel H m)) x) (x - before (mbs (hlevel H m)) (getPatch (mbs (hlevel H m)) x)) <> -1) by lia. apply hier_act in NE. destruct NE as (P & xs & E & X & _). apply (ho_level H n HO m _ P E). apply nth_error_Some. congruence.
Qed.
Definition okey (k : nat * Z) : Prop := valid (hlevel H (fst k)) (snd k) /\ act H (fst k) (snd k) = true.
Definition hT (k : nat * Z) : Z := T H (fst k) (snd k).

Lemma hT_inj k k' : okey k -> okey k' -> hT k = hT k' -> k = k'.
Proof.
  destruct k as (m, x), k' as (m', y). unfold okey, hT. cbn [fst snd]. intros (V & A) (V' & A') Q. pose proof (act_lev _ _ A) as OK. pose proof (act_lev _ _ A') as OK'.
  pose proof (proj1 (T_patch H n m OK x V A)) as P1. pose proof (proj1 (T_patch H n m' OK' y V' A')) as P2. rewrite Q, P2 in P1.
  destruct (decode _ n OK x V) as (p & b & u & v & E & U & W & ->). destruct (decode _ n OK' y V') as (p' & b' & u' & v' & E' & U' & W' & ->).
  rewrite !getPatch_L in P1 by (assumption || apply (POS _ n OK) || apply (POS _ n OK')). subst p'.
  rewrite (T_L H m (POS _ n OK) p b u v E U W), (T_L H m' (POS _ n OK') p b' u' v' E' U' W') in Q. rewrite (act_L H m (POS _ n OK) p b u v E U W) in A. unfold hier in *. destruct (nth_error (hps H) p) as [P|] eqn:EP; [|discriminate].
  destruct (toHier_inj P (u + mb_u b * v) m (u' + mb_u b' * v') m') as (<- & K); [lia|lia|]. f_equal. assert (b' = b) by congruence. subst b'. unfold L. lia.
Qed.

Lemma asc_nodup p P m xs : nth_error (hps H) p = Some P -> nth_error (hpX P) m = Some xs -> NoDup xs.
Proof.
  intros E X. apply (NoDup_nth xs 0). intros i j Hi Hj Q. destruct (Nat.lt_trichotomy i j) as [C|[C|C]]; [|exact C|]; [pose proof (ho_asc H n HO p P m xs i j E X)|pose proof (ho_asc H n HO p P m xs j i E X)]; lia.
Qed.

Lemma hT_surj l : 0 <= l < N -> exists k, okey k /\ hT k = l.
Proof.
  intros B. assert (LT : (getPatch hs l < length hs)%nat).
  { pose proof (getPatch_le hs l). pose proof (getPatch_end hs (HPOS H) l (proj1 B)) as X. rewrite nrOfLocals_before in B. destruct (Nat.eq_dec (getPatch hs l) (length hs)) as [Q|]; [|lia]. apply X in Q. lia. }
  destruct (getPatch_inv hs l (proj1 B) LT) as (b & E & R). set (p := getPatch hs l) in *.
  unfold hsizes in E. rewrite nth_error_map in E. destruct (nth_error (hps H) p) as [P|] eqn:EP; [|discriminate]. cbn [option_map] in E. injection E as <-. unfold mb_size in R. cbn [mb_u mb_v] in R.
  destruct (toHier_surj P (fun m xs => asc_nodup p P m xs EP) (l - before hs p)) as (m & xs & k & X & I & TH); [lia|].
  assert (OK : mp_ok (hlevel H m) n) by (apply (ho_level H n HO m p P EP); apply nth_error_Some; congruence).
  pose proof (ho_range H n HO p P m xs k EP X I) as RK. assert (EB : nth_error (mbs (hlevel H m)) p = Some (hpBase P m)) by (apply bs_nth; eauto). set (b := hpBase P m) in *.
  pose proof (sizes _ n OK _ _ West EB) as (_ & _ & S1 & S2). cbn [nsz asz] in *. pose proof (n_ge _ n OK _ _ EB). unfold mb_size in RK.
  assert (D : 0 <= k / mb_u b < mb_v b) by (split; [apply Z.div_pos; lia|apply Z.div_lt_upper_bound; lia]). assert (MB : 0 <= k mod mb_u b < mb_u b) by (apply Z.mod_pos_bound; lia).
  assert (KE : k mod mb_u b + mb_u b * (k / mb_u b) = k) by (pose proof (Z.div_mod k (mb_u b)); lia).
  exists (m, L (mbs (hlevel H m)) p b (k mod mb_u b) (k / mb_u b)). unfold okey, hT. cbn [fst snd]. rewrite (act_L H m (POS _ n OK) p b _ _ EB MB D), (T_L H m (POS _ n OK) p b _ _ EB MB D), KE.
  split; [split; [now apply valid_L with (n := n)|]|].
  - assert (hier H m p k <> -1); [|lia]. apply hier_act. exists P, xs. auto.
  - unfold hier. rewrite EP, TH. lia.
Qed.

(** *** All starts *)
Definition lstarts (p m : nat) : list (nat * Z) := map (pair m) (filter (act H m) (startsOf (hlevel H m) p)).
Definition keys : list (nat * Z) :=
  flat_map (fun p => flat_map (fun m => match nth_error (hps H) p with Some P => if Nat.ltb m (length (hpX P)) then lstarts p m else [] | None => [] end) (seq 0 (hlevels H))) (seq 0 (length (hps H))).
Definition kcols (k : nat * Z) : list column := map (Tcol H (fst k)) (colsOf (hlevel H (fst k)) (snd k)).

Lemma levels_le p P : nth_error (hps H) p = Some P -> (length (hpX P) <= hlevels H)%nat.
Proof.
  intros E. apply nth_error_In in E. unfold hlevels. assert (X : forall l a, (a <= fold_left (fun m P => Nat.max m (length (hpX P))) l a)%nat /\ (In P l -> (length (hpX P) <= fold_left (fun m P => Nat.max m (length (hpX P))) l a)%nat)).
  { induction l as [|Q l IH]; intros a; cbn [fold_left In]; [split; [lia|tauto]|]. destruct (IH (Nat.max a (length (hpX Q)))) as (A & B). split; [lia|]. intros [->|I]; [lia|now apply B]. }
  now apply X.
Qed.
Lemma lstarts_in p P m k : nth_error (hps H) p = Some P -> (m < length (hpX P))%nat -> In k (lstarts p m) <-> fst k = m /\ okey k /\ getPatch (mbs (hlevel H m)) (snd k) = p.
Proof.
  intros E LT. pose proof (ho_level H n HO m p P E LT) as OK. assert (EB : nth_error (mbs (hlevel H m)) p = Some (hpBase P m)) by (apply bs_nth; eauto). unfold lstarts. rewrite in_map_iff. split.
  - intros (S & <- & I). apply filter_In in I. destruct I as (I & A). unfold okey. cbn [fst snd]. apply (startsOf_in _ n OK p _ S EB) in I. destruct I as (u & v & U & V & ->). split; [reflexivity|]. split; [split; [now apply valid_L with (n := n)|exact A]|now apply getPatch_L; [apply (POS _ n OK)|..]].
  - destruct k as (m', S). unfold okey. cbn [fst snd]. intros (-> & (V & A) & GP). exists S. split; [reflexivity|]. apply filter_In. split; [|exact A]. apply (startsOf_in _ n OK p _ S EB). destruct (decode _ n OK S V) as (p' & b & u & v & E' & U & W & ->). rewrite getPatch_L in GP by (assumption || apply (POS _ n OK)). subst p'. assert (b = hpBase P m) by congruence. subst b. eauto 6.
Qed.

Lemma keys_in k : In k keys <-> okey k.
Proof.
  unfold keys. rewrite in_flat_map. split.
  - intros (p & Ip & I). apply in_flat_map in I. destruct I as (m & Im & I). destruct (nth_error (hps H) p) as [P|] eqn:E; [|destruct I]. destruct (Nat.ltb_spec m (length (hpX P))); [|destruct I]. apply (lstarts_in p P m k E) in I; [|assumption]. tauto.
  - intros O. pose proof O as (V & A). pose proof (act_lev _ _ A) as OK. set (m := fst k) in *. destruct (decode _ n OK _ V) as (p & b & u & v & E & U & W & EL).
    pose proof A as AI. rewrite EL in AI. apply (act_in_L H m (POS _ n OK) p b u v E U W) in AI. destruct AI as (P & xs & EP & X & _). assert (LT : (m < length (hpX P))%nat) by (apply nth_error_Some; congruence).
    exists p. split; [apply in_seq; assert (p < length (hps H))%nat by (apply nth_error_Some; congruence); lia|]. apply in_flat_map. exists m. pose proof (levels_le p P EP). split; [apply in_seq; lia|]. rewrite EP. replace (Nat.ltb m (length (hpX P))) with true by lia.
    apply (lstarts_in p P m k EP LT). split; [reflexivity|]. split; [exact O|]. rewrite EL. now apply getPatch_L; [apply (POS _ n OK)|..].
Qed.
Lemma keys_nodup : NoDup keys.
Proof.
  unfold keys. apply NoDup_flat_map_disj; [apply seq_NoDup| |].
  - intros p Ip. apply NoDup_flat_map_disj; [apply seq_NoDup| |].
    + intros m Im. destruct (nth_error (hps H) p) as [P|] eqn:E; [|constructor]. destruct (Nat.ltb_spec m (length (hpX P))) as [LT|]; [|constructor]. pose proof (ho_level H n HO m p P E LT) as OK. unfold lstarts. apply NoDup_map_inj; [intros; congruence|]. apply NoDup_filter.
      apply (NoDup_flat_map_each (startsOf (hlevel H m)) (seq 0 (length (mbs (hlevel H m)))) p); [exact (starts_nodup _ n OK)|]. cbn [hlevel mbs]. now rewrite map_length.
    + intros m m' x _ _ I I'. destruct (nth_error (hps H) p) as [P|]; [|destruct I]. destruct (Nat.ltb m _); [|destruct I]. destruct (Nat.ltb m' _); [|destruct I']. apply in_map_iff in I, I'. destruct I as (? & <- & _), I' as (? & Q & _). congruence.
  - intros p p' x _ _ I I'. apply in_flat_map in I, I'. destruct I as (m & _ & I), I' as (m' & _ & I'). destruct (nth_error (hps H) p) as [P|] eqn:E; [|destruct I]. destruct (nth_error (hps H) p') as [P'|] eqn:E'; [|destruct I'].
    destruct (Nat.ltb_spec m (length (hpX P))) as [LT|]; [|destruct I]. destruct (Nat.ltb_spec m' (length (hpX P'))) as [LT'|]; [|destruct I'].
    apply (lstarts_in p P m x E LT) in I. apply (lstarts_in p' P' m' x E' LT') in I'. destruct I as (<- & _ & <-), I' as (<- & _ & <-). reflexivity.
Qed.

Lemma hmakeMapper_ok : hmakeMapper H = Ok (flat_map kcols keys).
Proof.
  unfold hmakeMapper. 
  rewrite (mapM_ok _ (fun p => flat_map kcols (flat_map (fun m => match nth_error (hps H) p with Some P => if Nat.ltb m (length (hpX P)) then lstarts p m else [] | None => [] end) (seq 0 (hlevels H))))).
  { cbn [bind]. f_equal. rewrite concat_map_flat. unfold keys. now rewrite flat_map_flat. }
  intros p Ip. apply in_seq in Ip. unfold hpatchColumns. destruct (nth_error (hps H) p) as [P|] eqn:E; [|apply nth_error_None in E; lia]. unfold vget. rewrite E. cbn [bind].
  rewrite (mapM_ok _ (fun m => flat_map kcols (if Nat.ltb m (length (hpX P)) then lstarts p m else []))).
  { cbn [bind]. f_equal. now rewrite concat_map_flat, flat_map_flat. }
  intros m _. destruct (Nat.ltb_spec m (length (hpX P))) as [LT|]; [|reflexivity]. pose proof (ho_level H n HO m p P E LT) as OK. assert (EB : nth_error (mbs (hlevel H m)) p = Some (hpBase P m)) by (apply bs_nth; eauto).
  destruct (acts _ n OK p _ EB) as (_ & _ & IN). destruct (conf_facts _ n OK p _ EB) as (CU & CV & _). change (hconf H m p) with (mconf (hlevel H m) p).
  rewrite (mapM_ok _ (fun xa => if act H m (localL (hlevel H m) p (fst xa)) then kcols (m, localL (hlevel H m) p (fst xa)) else [])).
  - cbn [bind]. f_equal. rewrite concat_map_flat. unfold lstarts, startsOf. rewrite flat_map_map. clear. induction (patchActions (mconf (hlevel H m) p)) as [|x l IH]; [reflexivity|]. cbn [map filter flat_map]. rewrite IH. destruct (act H m _); reflexivity.
  - intros (x, a) J. destruct (IN x a J) as ((U & V) & ->). unfold haddAction, vget. cbn [fst snd]. rewrite E. cbn [bind]. pose proof (NUM p P E). unfold hbaseAt. replace (Nat.ltb m (hpNum P)) with true by lia. cbn [bind]. unfold localL. rewrite EB.
    assert (U' : 0 <= fst x < mb_u (hpBase P m)) by lia. assert (V' : 0 <= snd x < mb_v (hpBase P m)) by lia.
    assert (VL : valid (hlevel H m) (L (mbs (hlevel H m)) p (hpBase P m) (fst x) (snd x))) by (apply valid_L with (n := n); assumption).
    pose proof (act_L H m (POS _ n OK) p _ _ _ EB U' V') as AL. unfold hier in AL. rewrite E in AL.
    assert (PI : patchIndex (hpBase P m) (fst x) (snd x) = fst x + mb_u (hpBase P m) * snd x) by (unfold patchIndex; ring). rewrite PI.
    destruct (Z.eqb_spec (toHier P (fst x + mb_u (hpBase P m) * snd x) m) (-1)) as [Q|Q]; cbn [negb] in AL; rewrite AL; [reflexivity|].
    rewrite (hlocalIndexOf_ok H m (POS _ n OK) NUM p _ _ _ EB (some_L H m (POS _ n OK) p _ _ _ EB U' V' AL) U' V'). cbn [bind].
    assert (KE : expected (mconf (hlevel H m) p) x = kind (hlevel H m) (L (mbs (hlevel H m)) p (hpBase P m) (fst x) (snd x))) by (rewrite (kind_L _ n OK p (hpBase P m)) by assumption; now destruct x).
    rewrite KE. exact (hcols H n HO m OK _ VL AL).
Qed.

(** *** Entries *)
Lemma members k c e : okey k -> In c (colsOf (hlevel H (fst k)) (snd k)) -> In e c -> okey (fst k, fst e).
Proof.
  intros (V & A) Ic Ie. pose proof (act_lev _ _ A) as OK. split; cbn [fst snd].
  - destruct (good _ n OK _ V) as (_ & [Q|(c' & Q & (_ & _ & R) & _)]); rewrite Q in Ic; [destruct Ic|]. destruct Ic as [<-|[]]. exact (proj1 (R e Ie)).
  - destruct e as (x, v). cbn [fst]. rewrite <- A. symmetry. exact (same_act H n HO (fst k) OK _ x c v V Ic Ie).
Qed.
Lemma entry_T k c x : okey k -> In c (colsOf (hlevel H (fst k)) (snd k)) -> okey x -> entry (Tcol H (fst k) c) (hT x) = if Nat.eqb (fst x) (fst k) then entry c (snd x) else 0%R.
Proof.
  intros O Ic X. assert (MB : forall e, In e c -> okey (fst k, fst e)) by (intros e; now apply members). destruct (Nat.eqb_spec (fst x) (fst k)) as [Q|NQ].
  - unfold entry. clear Ic. generalize 0%R. induction c as [|e c IH]; intros r; [reflexivity|]. cbn [Tcol map fold_left]. rewrite IH by (intros; apply MB; now right). f_equal. unfold Tent. cbn [fst snd].
    assert (EQ : (T H (fst k) (fst e) =? hT x) = (fst e =? snd x)); [|now rewrite EQ]. destruct (Z.eqb_spec (fst e) (snd x)) as [Qe|Ne].
    + rewrite Qe, <- Q. apply Z.eqb_refl.
    + apply Z.eqb_neq. intros QT. apply Ne. change (T H (fst k) (fst e)) with (hT (fst k, fst e)) in QT. apply hT_inj in QT; [|apply MB; now left|exact X]. now rewrite <- QT.
  - apply entry_out. intros e' I'. apply in_map_iff in I'. destruct I' as (e & <- & I). unfold Tent. cbn [fst]. intros QT. apply NQ. change (T H (fst k) (fst e)) with (hT (fst k, fst e)) in QT. apply hT_inj in QT; [|now apply MB|exact X]. now rewrite <- QT.
Qed.
Lemma contrib_act m S x : mp_ok (hlevel H m) n -> valid (hlevel H m) S -> contrib (hlevel H m) S x <> 0%R -> act H m S = act H m x.
Proof.
  intros OK V C. destruct (contrib_member _ S x C) as (cs & c & v & AK & Ic & Iv). apply (same_act H n HO m OK S x c v V); [|exact Iv]. unfold colsOf. now rewrite AK.
Qed.

Lemma hrow l : 0 <= l < N -> rowSum (flat_map kcols keys) l = 1%R.
Proof.
  intros B. destruct (hT_surj l B) as (x & X & <-). pose proof X as (V & A). pose proof (act_lev _ _ A) as OK. set (m := fst x) in *.
  unfold rowSum. change (rs (fun c => entry c (hT x)) (flat_map kcols keys) = 1%R). rewrite rs_flat.
  rewrite (rs_ext _ (fun k => if Nat.eqb m (fst k) then contrib (hlevel H (fst k)) (snd k) (snd x) else 0%R)).
  2:{ intros k I. apply keys_in in I. unfold kcols. rewrite rs_map, (rs_ext _ (fun c => if Nat.eqb m (fst k) then entry c (snd x) else 0%R)) by (intros c Ic; now apply entry_T). destruct (Nat.eqb m (fst k)); [symmetry; apply contrib_colsOf|now apply rs_zero]. }
  rewrite (rs_support _ (map (pair m) (filter (act H m) (starts (hlevel H m))))).
  - rewrite rs_map. cbn [fst snd]. rewrite (rs_ext _ (fun S => contrib (hlevel H m) S (snd x))) by (intros; now rewrite Nat.eqb_refl).
    rewrite <- (row _ n OK (snd x) V). symmetry. apply rs_support; [apply (starts_nodup _ n OK)|apply NoDup_filter, (starts_nodup _ n OK)|intros S I; apply filter_In in I; tauto|].
    intros S I C. apply filter_In. split; [exact I|]. apply (starts_in _ n OK) in I. rewrite <- A. now apply contrib_act.
  - apply keys_nodup.
  - apply NoDup_map_inj; [intros; congruence|]. apply NoDup_filter, (starts_nodup _ n OK).
  - intros k I. apply in_map_iff in I. destruct I as (S & <- & I). apply filter_In in I. destruct I as (I & AS). apply (starts_in _ n OK) in I. apply keys_in. now split.
  - intros k I C. apply keys_in in I. destruct (Nat.eqb_spec m (fst k)) as [Q|]; [|congruence]. destruct k as (mk, S). cbn [fst snd] in *. subst mk. destruct I as (VS & AS). apply in_map. apply filter_In. cbn [fst snd] in *. split; [now apply (starts_in _ n OK)|exact AS].
Qed.

(** *** Independence *)
Definition hactive : list (nat * Z) := filter (fun k => match colsOf (hlevel H (fst k)) (snd k) with [] => false | _ => true end) keys.
Definition hcolOf (k : nat * Z) : column := Tcol H (fst k) (colOf (hlevel H (fst k)) (snd k)).
Lemma hactive_in k : In k hactive -> okey k /\ colsOf (hlevel H (fst k)) (snd k) = [colOf (hlevel H (fst k)) (snd k)].
Proof.
  intros I. apply filter_In in I. destruct I as (I & Q). apply keys_in in I. split; [exact I|]. pose proof I as (V & A). pose proof (act_lev _ _ A) as OK. destruct (good _ n OK _ V) as (_ & [E|(c & E & _)]); [rewrite E in Q; discriminate|]. unfold colOf. now rewrite E.
Qed.
Lemma hcols_active : flat_map kcols keys = map hcolOf hactive.
Proof.
  unfold hactive. assert (X : forall k, In k keys -> okey k) by (intros k; apply keys_in). induction keys as [|k l IH]; [reflexivity|]. cbn [flat_map filter]. rewrite IH by (intros; apply X; now right).
  destruct (X k (or_introl eq_refl)) as (V & A). pose proof (act_lev _ _ A) as OK. unfold kcols. destruct (good _ n OK _ V) as (_ & [E|(c & E & _)]); rewrite E; [reflexivity|]. cbn [map app]. unfold hcolOf at 2, colOf. now rewrite E.
Qed.

Lemma key_dec (x y : nat * Z) : {x = y} + {x <> y}.
Proof. decide equality; [apply Z.eq_dec|apply Nat.eq_dec]. Qed.

Lemma hindependent : independent N (map hcolOf hactive).
Proof.
  apply (ind_of key_dec _ _ (0%nat, 0)); [apply NoDup_filter, keys_nodup|]. intros al EQ k0 I0. destruct (hactive_in k0 I0) as ((V0 & A0) & E0). pose proof (act_lev _ _ A0) as OK. destruct k0 as (m, S0). cbn [fst snd] in *.
  set (be := fun S : Z => if act H m S then al (m, S) else 0%R).
  assert (X : forall S, In S (active (hlevel H m)) -> be S = 0%R).
  { apply (ind_to (colOf (hlevel H m)) (nrOfLocals (mbs (hlevel H m))) 0 (active (hlevel H m)) (independent_pf _ n OK)). intros x V. destruct (act H m x) eqn:A.
    - assert (OX : okey (m, x)) by now split. assert (RX : 0 <= hT (m, x) < N) by (apply (T_patch H n m OK x V A)). specialize (EQ _ RX).
      rewrite (rs_ext _ (fun k => if Nat.eqb m (fst k) then (al k * entry (colOf (hlevel H (fst k)) (snd k)) x)%R else 0%R)) in EQ.
      2:{ intros k I. destruct (hactive_in k I) as (O & E). unfold hcolOf. rewrite (entry_T k _ (m, x) O) by (exact OX || (rewrite E; now left)). cbn [fst snd]. destruct (Nat.eqb m (fst k)); [reflexivity|apply Rmult_0_r]. }
      rewrite (rs_support _ (map (pair m) (filter (act H m) (active (hlevel H m))))) in EQ.
      + rewrite rs_map in EQ. cbn [fst snd] in EQ. rewrite <- EQ. rewrite (rs_support _ (filter (act H m) (active (hlevel H m)))).
        * apply rs_ext. intros S I. apply filter_In in I. unfold be. rewrite Nat.eqb_refl. now rewrite (proj2 I).
        * apply NoDup_filter, (starts_nodup _ n OK).
        * apply NoDup_filter, NoDup_filter, (starts_nodup _ n OK).
        * intros S I. apply filter_In in I. tauto.
        * intros S I C. apply filter_In. split; [exact I|]. unfold be in C. destruct (act H m S); [reflexivity|]. rewrite Rmult_0_l in C. congruence.
      + apply NoDup_filter, keys_nodup.
      + apply NoDup_map_inj; [intros; congruence|]. apply NoDup_filter, NoDup_filter, (starts_nodup _ n OK).
      + intros k I. apply in_map_iff in I. destruct I as (S & <- & I). apply filter_In in I. destruct I as (I & AS). destruct (active_in _ n OK S I) as (VS & ES). apply filter_In. cbn [fst snd]. split; [apply keys_in; now split|]. now rewrite ES.
      + intros k I C. destruct (hactive_in k I) as (O & E). destruct (Nat.eqb_spec m (fst k)) as [Q|]; [|congruence]. destruct k as (mk, S). cbn [fst snd] in *. subst mk. destruct O as (VS & AS). cbn [fst snd] in *. apply in_map, filter_In. split; [|exact AS]. apply filter_In. split; [now apply (starts_in _ n OK)|]. now rewrite E.
    - apply rs_zero. intros S I. unfold be. destruct (act H m S) eqn:AS; [|apply Rmult_0_l]. destruct (active_in _ n OK S I) as (VS & ES). destruct (Req_dec (entry (colOf (hlevel H m) S) x) 0) as [Z|NZ]; [rewrite Z; apply Rmult_0_r|exfalso].
      assert (C : contrib (hlevel H m) S x <> 0%R). { rewrite contrib_colsOf, ES. unfold rs. cbn [map fold_right]. now rewrite Rplus_0_r. }
      apply (contrib_act m S x OK VS) in C. congruence. }
  assert (IA : In S0 (active (hlevel H m))) by (apply filter_In; split; [now apply (starts_in _ n OK)|now rewrite E0]). specialize (X S0 IA). unfold be in X. now rewrite A0 in X.
Qed.

Lemma N_hlocals : N = hlocals H.
Proof.
  rewrite nrOfLocals_before. unfold hlocals, hsizes. induction (hps H) as [|P l IH]; [reflexivity|]. cbn [map length before fold_right]. rewrite IH. cbn [mb_u mb_v]. lia.
Qed.

Theorem hmapper_pf : exists cols, hmakeMapper H = Ok cols /\ (Z.of_nat (length cols) <= hlocals H) /\ (forall c, In c cols -> col_ok (hlocals H) c) /\ (forall l, 0 <= l < hlocals H -> rowSum cols l = 1%R) /\ independent (hlocals H) cols.
Proof.
  rewrite <- N_hlocals. exists (flat_map kcols keys). split; [exact hmakeMapper_ok|]. split; [|split; [|split]].
  - rewrite hcols_active, map_length. 
    assert (LE : (length (map hT hactive) <= length (zrange 0 N))%nat).
    { apply NoDup_incl_length.
      - apply NoDup_map_inj; [|apply NoDup_filter, keys_nodup]. intros x y X Y. apply hT_inj; now apply hactive_in.
      - intros l I. apply in_map_iff in I. destruct I as (k & <- & I). apply hactive_in in I. destruct I as ((V & A) & _). apply zrange_in. apply (T_patch H n (fst k) (act_lev _ _ A) (snd k) V A). }
    rewrite map_length, zrange_length in LE. assert (0 <= N); [|lia]. rewrite N_hlocals. unfold hlocals. clear. induction (hps H) as [|P l IH]; [cbn; lia|]. cbn [fold_right]. unfold hsize in *. lia.
  - intros c I. rewrite hcols_active in I. apply in_map_iff in I. destruct I as (k & <- & I). destruct (hactive_in k I) as (O & E). pose proof O as (V & A). pose proof (act_lev _ _ A) as OK. destruct (good _ n OK _ V) as (_ & [Q|(c & Q & CO & _)]); [congruence|]. assert (c = colOf (hlevel H (fst k)) (snd k)) by congruence. subst c.
    assert (MB : forall e, In e (colOf (hlevel H (fst k)) (snd k)) -> okey (fst k, fst e)) by (intros e Ie; apply (members k (colOf (hlevel H (fst k)) (snd k)) e O); [rewrite E; now left|exact Ie]).
    unfold hcolOf. destruct CO as (NE & ND & R). split; [|split].
    + unfold Tcol. intros Z. apply map_eq_nil in Z. contradiction.
    + unfold Tcol. rewrite map_map. unfold Tent. cbn [fst]. rewrite <- (map_map fst (fun x => T H (fst k) x)). apply NoDup_map_inj; [|exact ND]. intros x y X Y Q2. apply in_map_iff in X, Y. destruct X as (ex & <- & X), Y as (ey & <- & Y). assert (QK : (fst k, fst ex) = (fst k, fst ey)) by (apply hT_inj; [now apply MB|now apply MB|exact Q2]). congruence.
    + intros e I'. apply in_map_iff in I'. destruct I' as (e0 & <- & I0). unfold Tent. cbn [fst snd]. split; [|now apply R]. destruct (MB e0 I0) as (VE & AE). now apply (T_patch H n (fst k) OK).
  - exact hrow.
  - rewrite hcols_active. exact hindependent.
Qed.
End W.
