(** Proofs for C85. *)
From Coq Require Import ZifyBool.
From Verif Require Import Common ListLemmas ObjModel ObjSpec.
Open Scope Z_scope.

Section Objects.
Context {Top Bas Ver Dis Map Wts : Type}.
Variable noWts : Wts.
Variable maxDegree : list Bas -> Z.
Variable initVertices : Top -> list Bas -> Ver.
Variable setDistances : Top -> list Bas -> Ver -> Z -> Z -> Dis.
Notation obj := (mobj Top Bas Ver Dis Map Wts).
Variable repairPatches : obj -> res (list Bas).
Variable check : Top -> list Bas -> bool.
Variable makeMapper : Top -> list Bas -> Dis -> Z -> Wts -> res Map.

Notation up_to_date := (up_to_date makeMapper).

Lemma setMapping_ok o o' : setMapping Top Bas Ver Dis Map Wts makeMapper o = Ok o' -> up_to_date o' /\ otop o' = otop o /\ obas o' = obas o /\ over o' = over o /\ odis o' = odis o /\ omin o' = omin o /\ oinc o' = oinc o /\ owts o' = owts o.
Proof. unfold setMapping. destruct (makeMapper _ _ _ _ _) as [m|] eqn:E; [|discriminate]. cbn. intros H. injection H as <-. split; [exists m; auto|cbn; repeat split]. Qed.
Lemma setMapping_same o : up_to_date o -> setMapping Top Bas Ver Dis Map Wts makeMapper o = Ok o.
Proof. intros (m & E1 & E2). unfold setMapping. rewrite E2. cbn. rewrite <- E1. now destruct o. Qed.

Theorem construct_pf : forall strict t bs lev ev o, construct Top Bas Ver Dis Map Wts noWts maxDegree initVertices setDistances repairPatches check makeMapper strict t bs lev ev = Ok o ->
  up_to_date o /\ otop o = t /\ owts o = noWts /\ over o = initVertices t bs /\ odis o = setDistances t bs (over o) (oinc o) (omin o) /\ (strict = true -> check t (obas o) = true) /\
  oinc o = (if lev =? -1 then maxDegree bs - 1 else lev) /\
  (0 <= Z.max (Z.min (oinc o + 1) (maxDegree bs)) ev < 2 ^ 32 -> omin o = Z.max (Z.min (oinc o + 1) (maxDegree bs)) ev) /\
  (lev = -1 -> ev <= maxDegree bs -> 0 <= maxDegree bs < 2 ^ 32 -> omin o = maxDegree bs).
Proof.
  intros strict t bs lev ev o. unfold construct. set (inc := if lev =? -1 then _ else _). set (o0 := mkO t bs _ _ _ _ _ _). destruct (repairPatches o0) as [bs'|] eqn:ER; [|discriminate]. cbn [bind].
  destruct (if strict then ensure (check t bs') else Ok tt) eqn:EC; [|discriminate]. cbn [bind]. intros H. apply setMapping_ok in H as (U & E1 & E2 & E3 & E4 & E5 & E6 & E7). cbn in E1, E2, E3, E4, E5, E6, E7.
  split; [exact U|]. split; [exact E1|]. split; [exact E7|]. split; [exact E3|]. split; [rewrite E3, E4, E5, E6; reflexivity|]. split.
  { intros ->. rewrite E2. unfold ensure in EC. destruct (check t bs'); [reflexivity|discriminate]. }
  split; [exact E6|]. rewrite E6, E5. split; [intros R; unfold unsigned; now apply Z.mod_small|]. intros L V M. unfold inc. rewrite L. cbn [Z.eqb Pos.eqb]. unfold unsigned. rewrite Z.mod_small; lia.
Qed.
Theorem one_pf : forall t b ev, ev <= maxDegree [b] -> constructOne Top Bas Ver Dis Map Wts noWts maxDegree initVertices setDistances repairPatches makeMapper t b =
  construct Top Bas Ver Dis Map Wts noWts maxDegree initVertices setDistances repairPatches check makeMapper false t [b] (-1) ev.
Proof. intros t b ev L. unfold constructOne, construct. cbn [Z.eqb Pos.eqb]. replace (Z.max (Z.min (maxDegree [b] - 1 + 1) (maxDegree [b])) ev) with (Z.min (maxDegree [b] - 1 + 1) (maxDegree [b])) by lia. destruct (repairPatches _); reflexivity. Qed.

Theorem copy_pf : forall strict (o : obj),
  (forall o', copyObj Top Bas Ver Dis Map Wts noWts check strict o = Ok o' -> omap o' = omap o /\ otop o' = otop o /\ obas o' = obas o /\ over o' = over o /\ odis o' = odis o /\ omin o' = omin o /\ oinc o' = oinc o /\ owts o' = noWts) /\
  ((exists o', copyObj Top Bas Ver Dis Map Wts noWts check strict o = Ok o') <-> omap o <> None /\ (strict = true -> check (otop o) (obas o) = true)) /\
  (up_to_date o -> owts o = noWts -> (strict = true -> check (otop o) (obas o) = true) -> copyObj Top Bas Ver Dis Map Wts noWts check strict o = Ok o).
Proof.
  intros strict o. unfold copyObj. assert (G : (if strict then ensure (check (otop o) (obas o)) else Ok tt) = Ok tt <-> (strict = true -> check (otop o) (obas o) = true)).
  { destruct strict; [|split; [discriminate|reflexivity]]. unfold ensure. destruct (check _ _); split; auto; try discriminate. intros H. discriminate (H eq_refl). }
  split; [|split].
  - intros o' H. destruct (if strict then _ else _); [|discriminate]. cbn [bind] in H. destruct (omap o) as [m|] eqn:E; [|discriminate]. injection H as <-. cbn. repeat split.
  - split.
    + intros (o' & H). destruct (if strict then _ else _) as [[]|] eqn:E1; [|discriminate]. cbn [bind] in H. destruct (omap o) as [m|] eqn:E; [|discriminate]. split; [discriminate|]. now apply G.
    + intros (N & C). apply G in C. rewrite C. cbn [bind]. destruct (omap o) as [m|]; [|now destruct N]. now eexists.
  - intros (m & E & _) W C. apply G in C. rewrite C. cbn [bind]. rewrite E, <- W, <- E. now destruct o.
Qed.

Lemma vset_ok {A} (l : list A) i a x : nth_error l i = Some x -> exists l', vset l i a = Ok l' /\ length l' = length l /\ nth_error l' i = Some a /\ forall k, k <> i -> nth_error l' k = nth_error l k.
Proof.
  intros E. assert (L : (i < length l)%nat) by (apply nth_error_Some; congruence). unfold vset. rewrite (proj2 (Nat.ltb_lt _ _) L). exists (upd l i a). split; [reflexivity|]. clear x E.
  revert i L. induction l as [|y l IH]; intros i L; [cbn in L; lia|]. destruct i as [|i]; cbn; [split; [reflexivity|]; split; [reflexivity|]; intros [|k] K; [congruence|reflexivity]|]. cbn in L. destruct (IH i ltac:(lia)) as (L1 & L2 & L3). split; [lia|]. split; [exact L2|]. intros [|k] K; [reflexivity|]. cbn. apply L3. congruence.
Qed.
Lemma vget_some {A} (l : list A) i x : nth_error l i = Some x -> vget l i = Ok x.
Proof. intros E. unfold vget. now rewrite E. Qed.

Theorem assign_pf : forall (mem : list obj) i j this other, i <> j -> nth_error mem i = Some this -> nth_error mem j = Some other ->
  exists mem' o, assignObj Top Bas Ver Dis Map Wts mem i j = Ok mem' /\ length mem' = length mem /\ (forall k, k <> i -> nth_error mem' k = nth_error mem k) /\ nth_error mem' i = Some o /\
    otop o = otop other /\ obas o = obas other /\ over o = over other /\ odis o = odis other /\ omin o = omin other /\ oinc o = oinc other /\ owts o = owts this /\
    useMap Top Bas Ver Dis Map Wts o = Err /\ (forall strict, copyObj Top Bas Ver Dis Map Wts noWts check strict o = Err) /\
    (up_to_date other -> owts this = owts other -> setMapping Top Bas Ver Dis Map Wts makeMapper o = Ok other).
Proof.
  intros mem i j this other N E1 E2. unfold assignObj. rewrite (vget_some _ _ _ E2), (vget_some _ _ _ E1). cbn [bind].
  match goal with |- context[vset mem i ?a] => destruct (vset_ok mem i a this E1) as (m1 & V1 & L1 & I1 & K1) end. rewrite V1. cbn [bind]. pose proof E2 as E3. rewrite <- (K1 j) in E3 by congruence. rewrite (vget_some _ _ _ E3), (vget_some _ _ _ I1). cbn [bind].
  cbn [otop obas over odis omin oinc owts omap]. match goal with |- context[vset m1 i ?a] => destruct (vset_ok m1 i a _ I1) as (m2 & V2 & L2 & I2 & K2) end. rewrite V2. cbn [bind]. pose proof E3 as E4. rewrite <- (K2 j) in E4 by congruence. rewrite (vget_some _ _ _ E4), (vget_some _ _ _ I2). cbn [bind].
  cbn [otop obas over odis omin oinc owts omap]. match goal with |- context[vset m2 i ?a] => destruct (vset_ok m2 i a _ I2) as (m3 & V3 & L3 & I3 & K3) end. rewrite V3. eexists. eexists. split; [reflexivity|]. split; [congruence|]. split; [intros k K; rewrite K3, K2, K1 by exact K; reflexivity|]. split; [exact I3|].
  cbn. repeat (split; [reflexivity|]). split; [intros strict; unfold copyObj; cbn; destruct strict; [destruct (ensure _)|]; reflexivity|].
  intros (m & M1 & M2) W. unfold setMapping. cbn. rewrite W, M2. cbn. rewrite <- M1. now destruct other.
Qed.
Theorem self_pf : forall (mem : list obj) i this, nth_error mem i = Some this -> exists mem' o, assignObj Top Bas Ver Dis Map Wts mem i i = Ok mem' /\ nth_error mem' i = Some o /\ obas o = [] /\ useMap Top Bas Ver Dis Map Wts o = Err.
Proof.
  intros mem i this E. unfold assignObj. rewrite (vget_some _ _ _ E). cbn [bind].
  match goal with |- context[vset mem i ?a] => destruct (vset_ok mem i a this E) as (m1 & V1 & L1 & I1 & K1) end. rewrite V1. cbn [bind]. rewrite (vget_some _ _ _ I1). cbn [bind].
  cbn [otop obas over odis omin oinc owts omap]. match goal with |- context[vset m1 i ?a] => destruct (vset_ok m1 i a _ I1) as (m2 & V2 & L2 & I2 & K2) end. rewrite V2. cbn [bind]. rewrite (vget_some _ _ _ I2). cbn [bind].
  cbn [otop obas over odis omin oinc owts omap]. match goal with |- context[vset m2 i ?a] => destruct (vset_ok m2 i a _ I2) as (m3 & V3 & L3 & I3 & K3) end. rewrite V3. eexists. eexists. split; [reflexivity|]. split; [exact I3|]. split; reflexivity.
Qed.

Theorem elevate_pf : forall elev updateBasis (o o' : obj), elevate Top Bas Ver Dis Map Wts makeMapper elev updateBasis o = Ok o' ->
  obas o' = map elev (obas o) /\ otop o' = otop o /\ over o' = over o /\ odis o' = odis o /\ omin o' = omin o /\ oinc o' = oinc o /\ owts o' = owts o /\ (if updateBasis then up_to_date o' else omap o' = omap o).
Proof.
  intros elev u o o' H. unfold elevate in H. destruct u.
  - apply setMapping_ok in H as (U & E1 & E2 & E3 & E4 & E5 & E6 & E7). cbn in *. repeat (split; [assumption|]). exact U.
  - injection H as <-. cbn. repeat split.
Qed.
End Objects.

