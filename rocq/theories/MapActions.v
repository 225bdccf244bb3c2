(** Proof of C48: every function of a patch is treated as it should be. *)
From Verif Require Import Common ListLemmas TopoModel MapModel MapSpec MapProofs MapRegions.
From Coq Require Import ZifyBool.
Open Scope Z_scope.

Lemma natural_fits c k : natural c -> corner_fits (pInt c (hside k)) (pInt c (vside k)) (lh c k) (lv c k) (pdu c) (pdv c).
Proof.
  intros [a b d e f N]. specialize (N k). unfold natural_corner in N. unfold corner_fits.
  destruct (pInt c (hside k)), (pInt c (vside k)), (pSpec c k); lia.
Qed.

Lemma natural_ok c : natural c -> conf_ok c.
Proof.
  intros N. pose proof (natural_fits c SW N) as A. pose proof (natural_fits c SE N) as B.
  pose proof (natural_fits c NW N) as C. pose proof (natural_fits c NE N) as D.
  destruct N as [a b d e f N]. constructor; try lia; assumption.
Qed.

(** number of the region of a corner *)
Definition corner_reg (k : corner) : nat := match k with SW => 0 | SE => 2 | NW => 6 | NE => 8 end%nat.

Lemma zone_reg c i j k : in_patch c (i, j) -> special_zone c (i, j) k = true -> regC c (corner_reg k) i j /\ pSpec c k = true.
Proof.
  intros (A & B) Z. cbn [fst snd] in A, B. unfold special_zone, cdi, cdj in Z. unfold regC, reg.
  destruct k; cbn [cpar0 cpar1 lh lv fst snd corner_reg range part] in *; lia.
Qed.

Lemma reg_zone c i j k : regC c (corner_reg k) i j -> pSpec c k = true -> special_zone c (i, j) k = true.
Proof.
  intros R P. unfold special_zone, cdi, cdj. unfold regC, reg in R.
  destruct k; cbn [cpar0 cpar1 lh lv fst snd corner_reg range part] in *; lia.
Qed.

(** the only zone a point of a region can lie in is that of the region's own corner *)
Lemma zone_find c r i j : natural c -> in_patch c (i, j) -> (r < 9)%nat -> regC c r i j ->
  find (special_zone c (i, j)) [SW; SE; NW; NE] =
  match r with
  | 0%nat => if pSpec c SW then Some SW else None
  | 2%nat => if pSpec c SE then Some SE else None
  | 6%nat => if pSpec c NW then Some NW else None
  | 8%nat => if pSpec c NE then Some NE else None
  | _ => None
  end.
Proof.
  intros N I L R.
  assert (U : forall k, corner_reg k <> r -> special_zone c (i, j) k = false).
  { intros k D. destruct (special_zone c (i, j) k) eqn:E; [|reflexivity]. exfalso. apply zone_reg in E; [|exact I]. destruct E as (E & _).
    pose proof (natural_ok c N) as O.
    destruct (Nat.lt_total (corner_reg k) r) as [H|[H|H]]; [|contradiction|].
    - exact (regC_disjoint c O _ _ _ _ H L E R).
    - refine (regC_disjoint c O _ _ _ _ H _ R E). destruct k; cbn; lia. }
  assert (W : forall k, corner_reg k = r -> special_zone c (i, j) k = pSpec c k).
  { intros k <-. destruct (pSpec c k) eqn:E; [now apply reg_zone|]. unfold special_zone. now rewrite E. }
  cbn [find].
  do 9 (destruct r as [|r]; [rewrite ?(U SW), ?(U SE), ?(U NW), ?(U NE) by (cbn; congruence);
     rewrite ?(W SW eq_refl), ?(W SE eq_refl), ?(W NW eq_refl), ?(W NE eq_refl); reflexivity|]). lia.
Qed.

Ltac ifs := repeat match goal with
  | |- context [if ?b then _ else _] => destruct b eqn:?
  | H : context [if ?b then _ else _] |- _ => destruct b eqn:?
  end.

Lemma actions_region c x a : In (x, a) (patchActions c) -> exists k, (k < 9)%nat /\ regC c k (fst x) (snd x) /\
  let i := fst x in let j := snd x in
  match k with
  | 0%nat => Some a = (if (pSpec c SW || (pdu c =? 1) || (pdv c =? 1)) && (i =? 0) && (j =? 0) then Some Singular
    else if pSpec c SW && pInt c West && (i =? 0) then Some (Line West 1 0)
    else if pSpec c SW && pInt c South && (j =? 0) then Some (Line South 1 0)
    else if negb (pSpec c SW) && pInt c South && pInt c West then Some (Block South West (pdu c) (pdv c) j i)
    else if negb (pSpec c SW) && pInt c South && negb (pInt c West) then Some (Line South (pdv c) j)
    else if negb (pSpec c SW) && negb (pInt c South) && pInt c West then Some (Line West (pdu c) i)
    else Some Free)
  | 1%nat => a = Line South (pdv c) j /\ pInt c South = true
  | 2%nat => Some a = (if (pSpec c SE || (pdu c =? 1) || (pdv c =? 1)) && (i =? pU c - 1) && (j =? 0) then Some Singular
    else if pSpec c SE && pInt c East && (i =? pU c - 1) then Some (Line East 1 0)
    else if pSpec c SE && pInt c South && (j =? 0) then Some (Line South 1 0)
    else if negb (pSpec c SE) && pInt c South && pInt c East then Some (Block South East (pdu c) (pdv c) j (pU c - 1 - i))
    else if negb (pSpec c SE) && pInt c South && negb (pInt c East) then Some (Line South (pdv c) j)
    else if negb (pSpec c SE) && negb (pInt c South) && pInt c East then Some (Line East (pdu c) (pU c - 1 - i))
    else Some Free)
  | 3%nat => a = Line West (pdu c) i /\ pInt c West = true
  | 4%nat => a = Free
  | 5%nat => a = Line East (pdu c) (pU c - 1 - i) /\ pInt c East = true
  | 6%nat => Some a = (if (pSpec c NW || (pdu c =? 1) || (pdv c =? 1)) && (i =? 0) && (j =? pV c - 1) then Some Singular
    else if pSpec c NW && pInt c West && (i =? 0) then Some (Line West 1 0)
    else if pSpec c NW && pInt c North && (j =? pV c - 1) then Some (Line North 1 0)
    else if negb (pSpec c NW) && pInt c North && pInt c West then Some (Block North West (pdu c) (pdv c) (pV c - 1 - j) i)
    else if negb (pSpec c NW) && pInt c North && negb (pInt c West) then Some (Line North (pdv c) (pV c - 1 - j))
    else if negb (pSpec c NW) && negb (pInt c North) && pInt c West then Some (Line West (pdu c) i)
    else Some Free)
  | 7%nat => a = Line North (pdv c) (pV c - 1 - j) /\ pInt c North = true
  | _ => Some a = (if (pSpec c NE || (pdu c =? 1) || (pdv c =? 1)) && (i =? pU c - 1) && (j =? pV c - 1) then Some Singular
    else if pSpec c NE && pInt c East && (i =? pU c - 1) then Some (Line East 1 0)
    else if pSpec c NE && pInt c North && (j =? pV c - 1) then Some (Line North 1 0)
    else if negb (pSpec c NE) && pInt c North && pInt c East then Some (Block North East (pdu c) (pdv c) (pV c - 1 - j) (pU c - 1 - i))
    else if negb (pSpec c NE) && pInt c North && negb (pInt c East) then Some (Line North (pdv c) (pV c - 1 - j))
    else if negb (pSpec c NE) && negb (pInt c North) && pInt c East then Some (Line East (pdu c) (pU c - 1 - i))
    else Some Free)
  end.
Proof.
  destruct x as (i, j). cbn [fst snd]. unfold patchActions, regC. cbv zeta. generalize (clamped c). intros D. rewrite !in_app_iff.
  intros [H|[H|[H|[H|[H|[H|[H|[H|H]]]]]]]]; apply loop2_in in H; destruct H as (J & I & H).
  - exists 0%nat. split; [lia|]. destruct ((pdu c <=? i) && (pdv c <=? j)) eqn:E; [discriminate|]. split; [|now symmetry]. split; cbn [range part]; lia.
  - exists 1%nat. split; [lia|]. split; [split; [cbn [range]; lia|exact Logic.I]|]. destruct (pInt c South); [|lia]. split; [congruence|reflexivity].
  - exists 2%nat. split; [lia|]. destruct ((i <? pU c - pdu c) && (pdv c <=? j)) eqn:E; [discriminate|].
    destruct (negb (pSpec c SE) && (pOne c && pInt c East)); [discriminate|]. split; [|now symmetry]. split; cbn [range part]; lia.
  - exists 3%nat. split; [lia|]. split; [split; [cbn [range]; lia|exact Logic.I]|]. destruct (pInt c West); [|lia]. split; [congruence|reflexivity].
  - exists 4%nat. split; [lia|]. revert H. repeat match goal with |- context [if ?b then None else _] => destruct b eqn:?; [discriminate|] end. intros H.
    split; [|congruence]. split; cbn [range part]; [lia|]. clear J I. repeat split; lia.
  - exists 5%nat. split; [lia|]. split; [split; [cbn [range]; lia|exact Logic.I]|]. destruct (pInt c East); [|lia]. destruct (true && (pOne c && true)); [discriminate|]. split; [congruence|reflexivity].
  - exists 6%nat. split; [lia|]. destruct ((pdu c <=? i) && (j <? pV c - pdv c)) eqn:E; [discriminate|].
    destruct (negb (pSpec c NW) && (pOne c && pInt c South)); [discriminate|]. split; [|now symmetry]. split; cbn [range part]; lia.
  - exists 7%nat. split; [lia|]. split; [split; [cbn [range]; lia|exact Logic.I]|]. destruct (pInt c North); [|lia]. destruct (true && (pOne c && pInt c South)); [discriminate|]. split; [congruence|reflexivity].
  - exists 8%nat. split; [lia|]. destruct ((i <? pU c - pdu c) && (j <? pV c - pdv c)) eqn:E; [discriminate|].
    destruct (negb (pSpec c NE) && (pOne c && pInt c South || pOne c && pInt c East)); [discriminate|]. split; [|now symmetry]. split; cbn [range part]; lia.
Qed.

Theorem actions_pf : forall c, natural c -> pdu c = pdv c ->
  NoDup (map fst (patchActions c)) /\
  (pOne c = false -> forall x, in_patch c x -> In x (map fst (patchActions c))) /\
  (forall x a, In (x, a) (patchActions c) -> in_patch c x /\ a = expected c x).
Proof.
  intros c N DD. pose proof (natural_ok c N) as O. destruct (regions_pf c O) as (ND & IN & CO).
  split; [exact ND|]. split; [exact CO|]. intros (i, j) a H.
  assert (I : in_patch c (i, j)) by (apply IN; change (i, j) with (fst ((i, j), a)); now apply in_map). split; [exact I|].
  destruct (actions_region c _ _ H) as (k & K & R & A). cbn [fst snd] in R, A. clear H ND IN CO.
  pose proof (zone_find c k i j N I K R) as Z. unfold expected. rewrite Z. clear Z.
  destruct I as (Ii & Ij). cbn [fst snd] in Ii, Ij. destruct N as [Ndu Ndv NU NV Np NC].
  pose proof (NC SW) as Csw. pose proof (NC SE) as Cse. pose proof (NC NW) as Cnw. pose proof (NC NE) as Cne. clear NC Np.
  pose proof (conf_bounds c O) as ((? & ? & ? & ? & ? & ? & ? & ?) & (? & ? & ? & ?)). clear O.
  unfold natural_corner in *. cbn [hside vside cpar0 cpar1 lh lv] in *.
  unfold regC, reg in R. cbv zeta in A.
  destruct k as [|[|[|[|[|[|[|[|[|k]]]]]]]]]; [..|lia]; cbn [range part] in R; destruct R as (R & R').
  - (* south-west *)
    clear Cse Cnw Cne. destruct (pSpec c SW) eqn:SP.
    + unfold cdi, cdj. cbn [cpar0 cpar1 vside hside fst snd]. cbn [orb andb negb] in A. clear Csw R'.
      destruct (pInt c West), (pInt c South); cbn [andb negb] in *; destruct (i =? 0), (j =? 0); cbn [andb] in *; congruence.
    + unfold near_h, near_v. cbn [fst snd]. replace ((false || (pdu c =? 1) || (pdv c =? 1)) && (i =? 0) && (j =? 0)) with false in A by lia.
      cbn [andb negb] in A. destruct (pInt c South) eqn:ES, (pInt c West) eqn:EW; cbn [andb negb] in *.
      * replace (j <? pdv c) with true by lia. replace (i <? pdu c) with true by lia. replace (pV c - 1 - j <? pdv c) with false by lia. replace (pU c - 1 - i <? pdu c) with false by lia. rewrite ?andb_false_r. congruence.
      * lia.
      * lia.
      * replace (pV c - 1 - j <? pdv c) with false by lia. replace (pU c - 1 - i <? pdu c) with false by lia. rewrite !andb_false_r. congruence.
  - (* south *)
    destruct A as (-> & E). rewrite E in *. unfold near_h, near_v. cbn [fst snd andb]. rewrite ?E. cbn [andb].
    replace (j <? pdv c) with true by lia. replace (pV c - 1 - j <? pdv c) with false by lia. rewrite ?andb_false_r.
    replace (pInt c West && (i <? pdu c)) with false by (destruct (pInt c West), (pSpec c SW); lia).
    replace (pInt c East && (pU c - 1 - i <? pdu c)) with false by (destruct (pInt c East), (pSpec c SE); lia). reflexivity.
  - (* south-east *)
    clear Csw Cnw Cne. replace (i =? pU c - 1) with (pU c - 1 - i =? 0) in A by lia. destruct (pSpec c SE) eqn:SP.
    + unfold cdi, cdj. cbn [cpar0 cpar1 vside hside fst snd]. cbn [orb andb negb] in A. clear Cse R'.
      destruct (pInt c East), (pInt c South); cbn [andb negb] in *; destruct (pU c - 1 - i =? 0), (j =? 0); cbn [andb] in *; congruence.
    + unfold near_h, near_v. cbn [fst snd]. replace ((false || (pdu c =? 1) || (pdv c =? 1)) && (pU c - 1 - i =? 0) && (j =? 0)) with false in A by lia.
      cbn [andb negb] in A. destruct (pInt c South) eqn:ES, (pInt c East) eqn:EW; cbn [andb negb] in *.
      * replace (j <? pdv c) with true by lia. replace (pU c - 1 - i <? pdu c) with true by lia. replace (pV c - 1 - j <? pdv c) with false by lia. replace (i <? pdu c) with false by lia. rewrite ?andb_false_r. congruence.
      * lia.
      * lia.
      * replace (pV c - 1 - j <? pdv c) with false by lia. replace (i <? pdu c) with false by lia. rewrite !andb_false_r. congruence.
  - (* west *)
    destruct A as (-> & E). rewrite E in *. unfold near_h, near_v. cbn [fst snd andb]. rewrite ?E. cbn [andb].
    replace (i <? pdu c) with true by lia. replace (pU c - 1 - i <? pdu c) with false by lia. rewrite ?andb_false_r.
    replace (pInt c South && (j <? pdv c)) with false by (destruct (pInt c South), (pSpec c SW); lia).
    replace (pInt c North && (pV c - 1 - j <? pdv c)) with false by (destruct (pInt c North), (pSpec c NW); lia). reflexivity.
  - (* middle *)
    unfold near_h, near_v. cbn [fst snd]. clear R' Csw Cse Cnw Cne.
    replace (pInt c South && (j <? pdv c)) with false by (destruct (pInt c South); lia).
    replace (pInt c North && (pV c - 1 - j <? pdv c)) with false by (destruct (pInt c North); lia).
    replace (pInt c West && (i <? pdu c)) with false by (destruct (pInt c West); lia).
    replace (pInt c East && (pU c - 1 - i <? pdu c)) with false by (destruct (pInt c East); lia). exact A.
  - (* east *)
    destruct A as (-> & E). rewrite E in *. unfold near_h, near_v. cbn [fst snd andb]. rewrite ?E. cbn [andb].
    replace (pU c - 1 - i <? pdu c) with true by lia. replace (i <? pdu c) with false by lia. rewrite ?andb_false_r.
    replace (pInt c South && (j <? pdv c)) with false by (destruct (pInt c South), (pSpec c SE); lia).
    replace (pInt c North && (pV c - 1 - j <? pdv c)) with false by (destruct (pInt c North), (pSpec c NE); lia). reflexivity.
  - (* north-west *)
    clear Csw Cse Cne. replace (j =? pV c - 1) with (pV c - 1 - j =? 0) in A by lia. destruct (pSpec c NW) eqn:SP.
    + unfold cdi, cdj. cbn [cpar0 cpar1 vside hside fst snd]. cbn [orb andb negb] in A. clear Cnw R'.
      destruct (pInt c West), (pInt c North); cbn [andb negb] in *; destruct (i =? 0), (pV c - 1 - j =? 0); cbn [andb] in *; congruence.
    + unfold near_h, near_v. cbn [fst snd]. replace ((false || (pdu c =? 1) || (pdv c =? 1)) && (i =? 0) && (pV c - 1 - j =? 0)) with false in A by lia.
      cbn [andb negb] in A. destruct (pInt c North) eqn:ES, (pInt c West) eqn:EW; cbn [andb negb] in *.
      * replace (pV c - 1 - j <? pdv c) with true by lia. replace (i <? pdu c) with true by lia. replace (j <? pdv c) with false by lia. replace (pU c - 1 - i <? pdu c) with false by lia. rewrite ?andb_false_r. congruence.
      * lia.
      * lia.
      * replace (j <? pdv c) with false by lia. replace (pU c - 1 - i <? pdu c) with false by lia. rewrite !andb_false_r. congruence.
  - (* north *)
    destruct A as (-> & E). rewrite E in *. unfold near_h, near_v. cbn [fst snd andb]. rewrite ?E. cbn [andb].
    replace (pV c - 1 - j <? pdv c) with true by lia. replace (j <? pdv c) with false by lia. rewrite ?andb_false_r.
    replace (pInt c West && (i <? pdu c)) with false by (destruct (pInt c West), (pSpec c NW); lia).
    replace (pInt c East && (pU c - 1 - i <? pdu c)) with false by (destruct (pInt c East), (pSpec c NE); lia). reflexivity.
  - (* north-east *)
    clear Csw Cse Cnw. replace (i =? pU c - 1) with (pU c - 1 - i =? 0) in A by lia. replace (j =? pV c - 1) with (pV c - 1 - j =? 0) in A by lia. destruct (pSpec c NE) eqn:SP.
    + unfold cdi, cdj. cbn [cpar0 cpar1 vside hside fst snd]. cbn [orb andb negb] in A. clear Cne R'.
      destruct (pInt c East), (pInt c North); cbn [andb negb] in *; destruct (pU c - 1 - i =? 0), (pV c - 1 - j =? 0); cbn [andb] in *; congruence.
    + unfold near_h, near_v. cbn [fst snd]. replace ((false || (pdu c =? 1) || (pdv c =? 1)) && (pU c - 1 - i =? 0) && (pV c - 1 - j =? 0)) with false in A by lia.
      cbn [andb negb] in A. destruct (pInt c North) eqn:ES, (pInt c East) eqn:EW; cbn [andb negb] in *.
      * replace (pV c - 1 - j <? pdv c) with true by lia. replace (pU c - 1 - i <? pdu c) with true by lia. replace (j <? pdv c) with false by lia. replace (i <? pdu c) with false by lia. rewrite ?andb_false_r. congruence.
      * lia.
      * lia.
      * replace (j <? pdv c) with false by lia. replace (i <? pdu c) with false by lia. rewrite !andb_false_r. congruence.
Qed.
