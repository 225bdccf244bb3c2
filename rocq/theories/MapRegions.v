(** Proof of C33: the nine regions of a patch fit together. *)
From Verif Require Import Common ListLemmas TopoModel MapModel MapSpec MapProofs.
Open Scope Z_scope.
Lemma loop2_fst_in j0 j1 i0 i1 f i j : In (i, j) (map fst (loop2 j0 j1 i0 i1 f)) <-> j0 <= j < j1 /\ i0 <= i < i1 /\ f i j <> None.
Proof.
  rewrite in_map_iff. split.
  - intros (((i', j'), a) & E & H). cbn in E. injection E as -> ->. apply loop2_in in H as (? & ? & H). rewrite H. repeat split; try lia. discriminate.
  - intros (Hj & Hi & H). destruct (f i j) as [a|] eqn:E; [|congruence]. exists ((i, j), a). split; [reflexivity|]. now apply loop2_in.
Qed.


Lemma if_none {A} (b : bool) (x : option A) : x <> None -> ((if b then None else x) <> None <-> b = false).
Proof. destruct b; split; congruence. Qed.

Ltac somes := repeat match goal with |- (if ?b then _ else _) <> None => destruct b; [discriminate|] end; discriminate.

Lemma clampHalf_ok n a b : 0 <= n -> 0 <= a -> 0 <= b -> 0 <= fst (clampHalf n a b) /\ 0 <= snd (clampHalf n a b) /\ fst (clampHalf n a b) + snd (clampHalf n a b) <= n.
Proof. intros. unfold clampHalf. destruct (Z.ltb_spec n (a + b)); cbn [fst snd]; [|lia]. pose proof (Z.div_mod n 2). pose proof (Z.mod_pos_bound n 2). lia. Qed.


(** A disjunction that lia does not look into; [crunch] splits such disjunctions one at a time. *)
Definition hide (P : Prop) : Prop := P.
Ltac hide_all := repeat match goal with H : ?A \/ ?B |- _ => change (hide (A \/ B)) in H end.
Ltac crunch := try (exfalso; lia); match goal with H : hide _ |- _ => unfold hide in H; destruct H as [H|H];
   repeat match goal with K : _ /\ _ |- _ => destruct K end; hide_all; crunch end.

(** The nine regions as sets of points. *)
Section Nine.
  Variables (U V du dv neu nwu seu swu sev nev swv nwv nl sl el wl : Z).
  Definition range (k : nat) (i j : Z) : Prop :=
    match k with
    | 0%nat => 0 <= j < swv /\ 0 <= i < swu
    | 1%nat => 0 <= j < sl /\ swu <= i < U - seu
    | 2%nat => 0 <= j < sev /\ U - seu <= i < U
    | 3%nat => swv <= j < V - nwv /\ 0 <= i < wl
    | 4%nat => sl <= j < V - nl /\ wl <= i < U - el
    | 5%nat => sev <= j < V - nev /\ U - el <= i < U
    | 6%nat => V - nwv <= j < V /\ 0 <= i < nwu
    | 7%nat => V - nl <= j < V /\ nwu <= i < U - neu
    | _ => V - nev <= j < V /\ U - neu <= i < U
    end.
  Definition part (k : nat) (i j : Z) : Prop :=
    match k with
    | 0%nat => i < du \/ j < dv
    | 2%nat => U - du <= i \/ j < dv
    | 4%nat => (swv <= j \/ dv <= j \/ swu <= i \/ du <= i) /\
               (sev <= j \/ dv <= j \/ i < U - seu \/ i < U - du) /\
               (j < V - nev \/ j < V - dv \/ i < U - neu \/ i < U - du) /\
               (j < V - nwv \/ j < V - dv \/ nwu <= i \/ du <= i)
    | 6%nat => i < du \/ V - dv <= j
    | 8%nat => U - du <= i \/ V - dv <= j
    | _ => True
    end.
  Definition reg (k : nat) (i j : Z) : Prop := range k i j /\ part k i j.
  (** [corner_fits] with the strips [sl], [wl] in place of the flags *)
  Definition fits (hl vl lh lv : Z) : Prop :=
    (hl = dv /\ vl = du /\ (du <= lh \/ dv <= lv) /\ (lh <= du \/ dv <= lv) /\ (lv <= dv \/ du <= lh)) \/
    (hl = dv /\ vl = 0 /\ (lh = 0 \/ lv = dv)) \/
    (hl = 0 /\ vl = du /\ (lv = 0 \/ lh = du)) \/
    (hl = 0 /\ vl = 0 /\ (lh <= du \/ lv = 0) /\ (lv <= dv \/ lh = 0)).
  Hypotheses (Hdu : 0 <= du) (Hdv : 0 <= dv) (HU : 2 * du <= U) (HV : 2 * dv <= V).
  Hypotheses (L1 : nl = 0 \/ nl = dv) (L2 : sl = 0 \/ sl = dv) (L3 : el = 0 \/ el = du) (L4 : wl = 0 \/ wl = du).
  Hypotheses (Hneu : 0 <= neu) (Hnwu : 0 <= nwu) (Hseu : 0 <= seu) (Hswu : 0 <= swu) (Hsev : 0 <= sev) (Hnev : 0 <= nev) (Hswv : 0 <= swv) (Hnwv : 0 <= nwv).
  Hypotheses (S1 : neu + nwu <= U) (S2 : seu + swu <= U) (S3 : sev + nev <= V) (S4 : swv + nwv <= V).
  Lemma fits_cases hl vl lh lv : 0 <= lh -> 0 <= lv -> fits hl vl lh lv ->
    (lh <= du \/ lv = 0 \/ (hl = dv /\ dv <= lv)) /\ (lv <= dv \/ lh = 0 \/ (vl = du /\ du <= lh)) /\
    (hl < dv \/ vl < du \/ du <= lh \/ dv <= lv).
  Proof. clear -Hdu Hdv. intros A B. unfold fits. intros [K|[K|[K|K]]]; lia. Qed.
  Hypotheses (Csw : fits sl wl swu swv) (Cse : fits sl el seu sev) (Cnw : fits nl wl nwu nwv) (Cne : fits nl el neu nev).
  Lemma dis_0_1 i j : reg 0 i j -> reg 1 i j -> False.
  Proof. intros (A & _) (B & _). cbn [range] in A, B. clear Csw Cse Cnw Cne. lia. Qed.
  Lemma dis_0_2 i j : reg 0 i j -> reg 2 i j -> False.
  Proof. intros (A & _) (B & _). cbn [range] in A, B. clear Csw Cse Cnw Cne. lia. Qed.
  Lemma dis_0_3 i j : reg 0 i j -> reg 3 i j -> False.
  Proof. intros (A & _) (B & _). cbn [range] in A, B. clear Csw Cse Cnw Cne. lia. Qed.
  Lemma dis_0_4 i j : reg 0 i j -> reg 4 i j -> False.
  Proof. intros (A & A') (B & B'). cbn [range part] in A, B, A', B'. pose proof (fits_cases _ _ _ _ Hswu Hswv Csw) as (Psw & Qsw & Rsw). clear Csw Cse Cnw Cne. destruct B' as (E1 & E2 & E3 & E4). clear E2 E3 E4. pose proof L1 as M1. pose proof L2 as M2. pose proof L3 as M3. pose proof L4 as M4. clear L1 L2 L3 L4. hide_all. try (revert A'; intros A'). try (revert B'; intros B'). crunch. Qed.
  Lemma dis_0_5 i j : reg 0 i j -> reg 5 i j -> False.
  Proof. intros (A & A') (B & B'). cbn [range part] in A, B, A', B'. pose proof (fits_cases _ _ _ _ Hswu Hswv Csw) as (Psw & Qsw & Rsw). pose proof (fits_cases _ _ _ _ Hseu Hsev Cse) as (Pse & Qse & Rse). clear Csw Cse Cnw Cne. pose proof L1 as M1. pose proof L2 as M2. pose proof L3 as M3. pose proof L4 as M4. clear L1 L2 L3 L4. hide_all. try (revert A'; intros A'). try (revert B'; intros B'). crunch. Qed.
  Lemma dis_0_6 i j : reg 0 i j -> reg 6 i j -> False.
  Proof. intros (A & _) (B & _). cbn [range] in A, B. clear Csw Cse Cnw Cne. lia. Qed.
  Lemma dis_0_7 i j : reg 0 i j -> reg 7 i j -> False.
  Proof. intros (A & A') (B & B'). cbn [range part] in A, B, A', B'. pose proof (fits_cases _ _ _ _ Hswu Hswv Csw) as (Psw & Qsw & Rsw). pose proof (fits_cases _ _ _ _ Hnwu Hnwv Cnw) as (Pnw & Qnw & Rnw). clear Csw Cse Cnw Cne. pose proof L1 as M1. pose proof L2 as M2. pose proof L3 as M3. pose proof L4 as M4. clear L1 L2 L3 L4. hide_all. try (revert A'; intros A'). try (revert B'; intros B'). crunch. Qed.
  Lemma dis_0_8 i j : reg 0 i j -> reg 8 i j -> False.
  Proof.
    intros (A & A') (B & B'). cbn [range part] in A, B, A', B'.
    pose proof (fits_cases _ _ _ _ Hswu Hswv Csw) as (Psw & Qsw & Rsw). pose proof (fits_cases _ _ _ _ Hseu Hsev Cse) as (Pse & Qse & Rse).
    pose proof (fits_cases _ _ _ _ Hnwu Hnwv Cnw) as (Pnw & Qnw & Rnw). pose proof (fits_cases _ _ _ _ Hneu Hnev Cne) as (Pne & Qne & Rne).
    clear Csw Cse Cnw Cne L1 L2 L3 L4. destruct A' as [A'|A'].
    - clear Psw Qnw Pnw Qne Pse Qse Rse Rsw Rne. assert (V - dv <= j) by lia. clear B'. destruct Pne as [?|[?|?]]; [lia|lia|]. destruct Qsw as [?|[?|?]]; [lia|lia|]. lia.
    - clear Qsw Pne Pnw Qnw Pse Qse Rnw Rsw Rne. assert (U - du <= i) by lia. clear B'. destruct Psw as [?|[?|?]]; [lia|lia|]. destruct Qne as [?|[?|?]]; [lia|lia|]. lia.
  Qed.
  Lemma dis_1_2 i j : reg 1 i j -> reg 2 i j -> False.
  Proof. intros (A & _) (B & _). cbn [range] in A, B. clear Csw Cse Cnw Cne. lia. Qed.
  Lemma dis_1_3 i j : reg 1 i j -> reg 3 i j -> False.
  Proof. intros (A & A') (B & B'). cbn [range part] in A, B, A', B'. pose proof (fits_cases _ _ _ _ Hswu Hswv Csw) as (Psw & Qsw & Rsw). clear Csw Cse Cnw Cne. pose proof L1 as M1. pose proof L2 as M2. pose proof L3 as M3. pose proof L4 as M4. clear L1 L2 L3 L4. hide_all. try (revert A'; intros A'). try (revert B'; intros B'). crunch. Qed.
  Lemma dis_1_4 i j : reg 1 i j -> reg 4 i j -> False.
  Proof. intros (A & _) (B & _). cbn [range] in A, B. clear Csw Cse Cnw Cne. lia. Qed.
  Lemma dis_1_5 i j : reg 1 i j -> reg 5 i j -> False.
  Proof. intros (A & A') (B & B'). cbn [range part] in A, B, A', B'. pose proof (fits_cases _ _ _ _ Hseu Hsev Cse) as (Pse & Qse & Rse). clear Csw Cse Cnw Cne. pose proof L1 as M1. pose proof L2 as M2. pose proof L3 as M3. pose proof L4 as M4. clear L1 L2 L3 L4. hide_all. try (revert A'; intros A'). try (revert B'; intros B'). crunch. Qed.
  Lemma dis_1_6 i j : reg 1 i j -> reg 6 i j -> False.
  Proof. intros (A & A') (B & B'). cbn [range part] in A, B, A', B'. pose proof (fits_cases _ _ _ _ Hswu Hswv Csw) as (Psw & Qsw & Rsw). pose proof (fits_cases _ _ _ _ Hnwu Hnwv Cnw) as (Pnw & Qnw & Rnw). clear Csw Cse Cnw Cne. pose proof L1 as M1. pose proof L2 as M2. pose proof L3 as M3. pose proof L4 as M4. clear L1 L2 L3 L4. hide_all. try (revert A'; intros A'). try (revert B'; intros B'). crunch. Qed.
  Lemma dis_1_7 i j : reg 1 i j -> reg 7 i j -> False.
  Proof. intros (A & _) (B & _). cbn [range] in A, B. clear Csw Cse Cnw Cne. lia. Qed.
  Lemma dis_1_8 i j : reg 1 i j -> reg 8 i j -> False.
  Proof. intros (A & A') (B & B'). cbn [range part] in A, B, A', B'. pose proof (fits_cases _ _ _ _ Hseu Hsev Cse) as (Pse & Qse & Rse). pose proof (fits_cases _ _ _ _ Hneu Hnev Cne) as (Pne & Qne & Rne). clear Csw Cse Cnw Cne. pose proof L1 as M1. pose proof L2 as M2. pose proof L3 as M3. pose proof L4 as M4. clear L1 L2 L3 L4. hide_all. try (revert A'; intros A'). try (revert B'; intros B'). crunch. Qed.
  Lemma dis_2_3 i j : reg 2 i j -> reg 3 i j -> False.
  Proof. intros (A & A') (B & B'). cbn [range part] in A, B, A', B'. pose proof (fits_cases _ _ _ _ Hswu Hswv Csw) as (Psw & Qsw & Rsw). pose proof (fits_cases _ _ _ _ Hseu Hsev Cse) as (Pse & Qse & Rse). clear Csw Cse Cnw Cne. pose proof L1 as M1. pose proof L2 as M2. pose proof L3 as M3. pose proof L4 as M4. clear L1 L2 L3 L4. hide_all. try (revert A'; intros A'). try (revert B'; intros B'). crunch. Qed.
  Lemma dis_2_4 i j : reg 2 i j -> reg 4 i j -> False.
  Proof. intros (A & A') (B & B'). cbn [range part] in A, B, A', B'. pose proof (fits_cases _ _ _ _ Hseu Hsev Cse) as (Pse & Qse & Rse). clear Csw Cse Cnw Cne. destruct B' as (E1 & E2 & E3 & E4). clear E1 E3 E4. pose proof L1 as M1. pose proof L2 as M2. pose proof L3 as M3. pose proof L4 as M4. clear L1 L2 L3 L4. hide_all. try (revert A'; intros A'). try (revert B'; intros B'). crunch. Qed.
  Lemma dis_2_5 i j : reg 2 i j -> reg 5 i j -> False.
  Proof. intros (A & _) (B & _). cbn [range] in A, B. clear Csw Cse Cnw Cne. lia. Qed.
  Lemma dis_2_6 i j : reg 2 i j -> reg 6 i j -> False.
  Proof.
    intros (A & A') (B & B'). cbn [range part] in A, B, A', B'.
    pose proof (fits_cases _ _ _ _ Hswu Hswv Csw) as (Psw & Qsw & Rsw). pose proof (fits_cases _ _ _ _ Hseu Hsev Cse) as (Pse & Qse & Rse).
    pose proof (fits_cases _ _ _ _ Hnwu Hnwv Cnw) as (Pnw & Qnw & Rnw). pose proof (fits_cases _ _ _ _ Hneu Hnev Cne) as (Pne & Qne & Rne).
    clear Csw Cse Cnw Cne L1 L2 L3 L4. destruct A' as [A'|A'].
    - clear Psw Qsw Qnw Pne Qne Pse Rse Rsw Rnw. assert (V - dv <= j) by lia. clear B'. destruct Pnw as [?|[?|?]]; [lia|lia|]. destruct Qse as [?|[?|?]]; [lia|lia|]. lia.
    - clear Psw Qsw Pnw Pne Qne Qse Rse Rnw Rne. assert (i < du) by lia. clear B'. destruct Pse as [?|[?|?]]; [lia|lia|]. destruct Qnw as [?|[?|?]]; [lia|lia|]. lia.
  Qed.
  Lemma dis_2_7 i j : reg 2 i j -> reg 7 i j -> False.
  Proof. intros (A & A') (B & B'). cbn [range part] in A, B, A', B'. pose proof (fits_cases _ _ _ _ Hseu Hsev Cse) as (Pse & Qse & Rse). pose proof (fits_cases _ _ _ _ Hneu Hnev Cne) as (Pne & Qne & Rne). clear Csw Cse Cnw Cne. pose proof L1 as M1. pose proof L2 as M2. pose proof L3 as M3. pose proof L4 as M4. clear L1 L2 L3 L4. hide_all. try (revert A'; intros A'). try (revert B'; intros B'). crunch. Qed.
  Lemma dis_2_8 i j : reg 2 i j -> reg 8 i j -> False.
  Proof. intros (A & _) (B & _). cbn [range] in A, B. clear Csw Cse Cnw Cne. lia. Qed.
  Lemma dis_3_4 i j : reg 3 i j -> reg 4 i j -> False.
  Proof. intros (A & _) (B & _). cbn [range] in A, B. clear Csw Cse Cnw Cne. lia. Qed.
  Lemma dis_3_5 i j : reg 3 i j -> reg 5 i j -> False.
  Proof. intros (A & _) (B & _). cbn [range] in A, B. clear Csw Cse Cnw Cne. lia. Qed.
  Lemma dis_3_6 i j : reg 3 i j -> reg 6 i j -> False.
  Proof. intros (A & _) (B & _). cbn [range] in A, B. clear Csw Cse Cnw Cne. lia. Qed.
  Lemma dis_3_7 i j : reg 3 i j -> reg 7 i j -> False.
  Proof. intros (A & A') (B & B'). cbn [range part] in A, B, A', B'. pose proof (fits_cases _ _ _ _ Hnwu Hnwv Cnw) as (Pnw & Qnw & Rnw). clear Csw Cse Cnw Cne. pose proof L1 as M1. pose proof L2 as M2. pose proof L3 as M3. pose proof L4 as M4. clear L1 L2 L3 L4. hide_all. try (revert A'; intros A'). try (revert B'; intros B'). crunch. Qed.
  Lemma dis_3_8 i j : reg 3 i j -> reg 8 i j -> False.
  Proof. intros (A & A') (B & B'). cbn [range part] in A, B, A', B'. pose proof (fits_cases _ _ _ _ Hnwu Hnwv Cnw) as (Pnw & Qnw & Rnw). pose proof (fits_cases _ _ _ _ Hneu Hnev Cne) as (Pne & Qne & Rne). clear Csw Cse Cnw Cne. pose proof L1 as M1. pose proof L2 as M2. pose proof L3 as M3. pose proof L4 as M4. clear L1 L2 L3 L4. hide_all. try (revert A'; intros A'). try (revert B'; intros B'). crunch. Qed.
  Lemma dis_4_5 i j : reg 4 i j -> reg 5 i j -> False.
  Proof. intros (A & _) (B & _). cbn [range] in A, B. clear Csw Cse Cnw Cne. lia. Qed.
  Lemma dis_4_6 i j : reg 4 i j -> reg 6 i j -> False.
  Proof. intros (A & A') (B & B'). cbn [range part] in A, B, A', B'. pose proof (fits_cases _ _ _ _ Hnwu Hnwv Cnw) as (Pnw & Qnw & Rnw). clear Csw Cse Cnw Cne. destruct A' as (E1 & E2 & E3 & E4). clear E1 E2 E3. pose proof L1 as M1. pose proof L2 as M2. pose proof L3 as M3. pose proof L4 as M4. clear L1 L2 L3 L4. hide_all. try (revert A'; intros A'). try (revert B'; intros B'). crunch. Qed.
  Lemma dis_4_7 i j : reg 4 i j -> reg 7 i j -> False.
  Proof. intros (A & _) (B & _). cbn [range] in A, B. clear Csw Cse Cnw Cne. lia. Qed.
  Lemma dis_4_8 i j : reg 4 i j -> reg 8 i j -> False.
  Proof. intros (A & A') (B & B'). cbn [range part] in A, B, A', B'. pose proof (fits_cases _ _ _ _ Hneu Hnev Cne) as (Pne & Qne & Rne). clear Csw Cse Cnw Cne. destruct A' as (E1 & E2 & E3 & E4). clear E1 E2 E4. pose proof L1 as M1. pose proof L2 as M2. pose proof L3 as M3. pose proof L4 as M4. clear L1 L2 L3 L4. hide_all. try (revert A'; intros A'). try (revert B'; intros B'). crunch. Qed.
  Lemma dis_5_6 i j : reg 5 i j -> reg 6 i j -> False.
  Proof. intros (A & A') (B & B'). cbn [range part] in A, B, A', B'. pose proof (fits_cases _ _ _ _ Hnwu Hnwv Cnw) as (Pnw & Qnw & Rnw). pose proof (fits_cases _ _ _ _ Hneu Hnev Cne) as (Pne & Qne & Rne). clear Csw Cse Cnw Cne. pose proof L1 as M1. pose proof L2 as M2. pose proof L3 as M3. pose proof L4 as M4. clear L1 L2 L3 L4. hide_all. try (revert A'; intros A'). try (revert B'; intros B'). crunch. Qed.
  Lemma dis_5_7 i j : reg 5 i j -> reg 7 i j -> False.
  Proof. intros (A & A') (B & B'). cbn [range part] in A, B, A', B'. pose proof (fits_cases _ _ _ _ Hneu Hnev Cne) as (Pne & Qne & Rne). clear Csw Cse Cnw Cne. pose proof L1 as M1. pose proof L2 as M2. pose proof L3 as M3. pose proof L4 as M4. clear L1 L2 L3 L4. hide_all. try (revert A'; intros A'). try (revert B'; intros B'). crunch. Qed.
  Lemma dis_5_8 i j : reg 5 i j -> reg 8 i j -> False.
  Proof. intros (A & _) (B & _). cbn [range] in A, B. clear Csw Cse Cnw Cne. lia. Qed.
  Lemma dis_6_7 i j : reg 6 i j -> reg 7 i j -> False.
  Proof. intros (A & _) (B & _). cbn [range] in A, B. clear Csw Cse Cnw Cne. lia. Qed.
  Lemma dis_6_8 i j : reg 6 i j -> reg 8 i j -> False.
  Proof. intros (A & _) (B & _). cbn [range] in A, B. clear Csw Cse Cnw Cne. lia. Qed.
  Lemma dis_7_8 i j : reg 7 i j -> reg 8 i j -> False.
  Proof. intros (A & _) (B & _). cbn [range] in A, B. clear Csw Cse Cnw Cne. lia. Qed.

  Lemma fits_cover hl vl lh lv : 0 <= lh -> 0 <= lv -> fits hl vl lh lv ->
    (hl < dv \/ lh <= du \/ dv <= lv) /\ (vl < du \/ lv <= dv \/ du <= lh) /\
    (hl < dv \/ du <= vl \/ lh = 0 \/ dv <= lv) /\ (vl < du \/ dv <= hl \/ lv = 0 \/ du <= lh).
  Proof. clear -Hdu Hdv. intros A B. unfold fits. intros [K|[K|[K|K]]]; lia. Qed.

  Lemma cover_low i j : 0 <= i < U - du -> 0 <= j < V - dv -> exists k, (k < 9)%nat /\ reg k i j.
  Proof.
    intros I J.
    pose proof (fits_cover _ _ _ _ Hswu Hswv Csw) as (C1 & C2 & C3 & C4).
    pose proof (fits_cover _ _ _ _ Hseu Hsev Cse) as (D1 & _ & _ & _).
    pose proof (fits_cover _ _ _ _ Hnwu Hnwv Cnw) as (_ & D2 & _ & _).
    clear Csw Cse Cnw Cne.
    assert (M : sl <= j -> wl <= i -> (swv <= j \/ dv <= j \/ swu <= i \/ du <= i) -> exists k, (k < 9)%nat /\ reg k i j).
    { clear C1 C2 C3 C4 D1 D2. intros. exists 4%nat. split; [lia|]. split; cbn [range part]; [lia|]. repeat split; try assumption; lia. }
    destruct (Z_lt_le_dec j dv) as [Jd|Jd], (Z_lt_le_dec i du) as [Id|Id].
    - destruct (Z_lt_le_dec i swu) as [A|A].
      + destruct (Z_lt_le_dec j swv) as [B|B].
        * exists 0%nat. split; [lia|]. split; cbn [range part]; lia.
        * destruct L4 as [W0|W1].
          { destruct L2 as [S0|S1']; [apply M; clear C1 C2 C3 C4 D1 D2 M; lia|]. exfalso. clear D1 D2 M. lia. }
          destruct (Z_lt_le_dec j (V - nwv)); [exists 3%nat|exists 6%nat]; (split; [lia|]; split; cbn [range part]; [clear M D1 C1 C2 C3 C4; lia|auto; lia]).
      + destruct L2 as [S0|S1'].
        * destruct L4 as [W0|W1]; [apply M; clear C1 C2 C3 C4 D1 D2 M; lia|].
          destruct (Z_lt_le_dec j swv) as [B|B]; [exfalso; clear D1 D2 M; lia|].
          destruct (Z_lt_le_dec j (V - nwv)); [exists 3%nat|exists 6%nat]; (split; [lia|]; split; cbn [range part]; [clear M D1 C1 C2 C3 C4; lia|auto; lia]).
        * destruct (Z_lt_le_dec i (U - seu)); [exists 1%nat|exists 2%nat]; (split; [lia|]; split; cbn [range part]; [clear M D2 C1 C2 C3 C4; lia|auto; lia]).
    - destruct L2 as [S0|S1']; [apply M; clear C1 C2 C3 C4 D1 D2 M; lia|].
      destruct (Z_lt_le_dec i swu) as [A|A]; [exists 0%nat; split; [lia|]; split; cbn [range part]; [clear M D1 D2 C2 C3 C4; lia|auto]|].
      destruct (Z_lt_le_dec i (U - seu)); [exists 1%nat|exists 2%nat]; (split; [lia|]; split; cbn [range part]; [clear M D2 C1 C2 C3 C4; lia|auto; lia]).
    - destruct L4 as [W0|W1]; [apply M; clear C1 C2 C3 C4 D1 D2 M; lia|].
      destruct (Z_lt_le_dec j swv) as [A|A]; [exists 0%nat; split; [lia|]; split; cbn [range part]; [clear M D1 D2 C1 C3 C4; lia|auto]|].
      destruct (Z_lt_le_dec j (V - nwv)); [exists 3%nat|exists 6%nat]; (split; [lia|]; split; cbn [range part]; [clear M D1 C1 C2 C3 C4; lia|auto; lia]).
    - apply M; clear C1 C2 C3 C4 D1 D2 M; lia.
  Qed.
End Nine.

(** mirror images *)
Definition flip_u (k : nat) : nat := match k with 0 => 2 | 2 => 0 | 3 => 5 | 5 => 3 | 6 => 8 | 8 => 6 | n => n end%nat.
Definition flip_v (k : nat) : nat := match k with 0 => 6 | 6 => 0 | 1 => 7 | 7 => 1 | 2 => 8 | 8 => 2 | n => n end%nat.
Lemma reg_flip_u U V du dv neu nwu seu swu sev nev swv nwv nl sl el wl k i j : (k < 9)%nat ->
  reg U V du dv nwu neu swu seu swv nwv sev nev nl sl wl el k (U - 1 - i) j ->
  reg U V du dv neu nwu seu swu sev nev swv nwv nl sl el wl (flip_u k) i j.
Proof. intros K. unfold reg. do 9 (destruct k as [|k]; [cbn [range part flip_u]; intros (A & B); split; lia|]); lia. Qed.
Lemma reg_flip_v U V du dv neu nwu seu swu sev nev swv nwv nl sl el wl k i j : (k < 9)%nat ->
  reg U V du dv seu swu neu nwu nev sev nwv swv sl nl el wl k i (V - 1 - j) ->
  reg U V du dv neu nwu seu swu sev nev swv nwv nl sl el wl (flip_v k) i j.
Proof. intros K. unfold reg. do 9 (destruct k as [|k]; [cbn [range part flip_v]; intros (A & B); split; lia|]); lia. Qed.
Lemma flip_lt k : (k < 9)%nat -> (flip_u k < 9)%nat /\ (flip_v k < 9)%nat.
Proof. intros K. do 9 (destruct k as [|k]; [cbn; lia|]). lia. Qed.

Lemma cover_all U V du dv neu nwu seu swu sev nev swv nwv nl sl el wl :
  0 <= du -> 0 <= dv -> 2 * du <= U -> 2 * dv <= V ->
  (nl = 0 \/ nl = dv) -> (sl = 0 \/ sl = dv) -> (el = 0 \/ el = du) -> (wl = 0 \/ wl = du) ->
  0 <= neu -> 0 <= nwu -> 0 <= seu -> 0 <= swu -> 0 <= sev -> 0 <= nev -> 0 <= swv -> 0 <= nwv ->
  neu + nwu <= U -> seu + swu <= U -> sev + nev <= V -> swv + nwv <= V ->
  fits du dv sl wl swu swv -> fits du dv sl el seu sev -> fits du dv nl wl nwu nwv -> fits du dv nl el neu nev ->
  forall i j, 0 <= i < U -> 0 <= j < V -> exists k, (k < 9)%nat /\ reg U V du dv neu nwu seu swu sev nev swv nwv nl sl el wl k i j.
Proof.
  intros. destruct (Z_lt_le_dec i (U - du)) as [I|I], (Z_lt_le_dec j (V - dv)) as [J|J].
  - apply cover_low; assumption || lia.
  - destruct (cover_low U V du dv seu swu neu nwu nev sev nwv swv sl nl el wl) with (i := i) (j := V - 1 - j) as (k & K & R); try assumption; try lia.
    exists (flip_v k). split; [now apply flip_lt|]. apply reg_flip_v; assumption.
  - destruct (cover_low U V du dv nwu neu swu seu swv nwv sev nev nl sl wl el) with (i := U - 1 - i) (j := j) as (k & K & R); try assumption; try lia.
    exists (flip_u k). split; [now apply flip_lt|]. apply reg_flip_u; assumption.
  - destruct (cover_low U V du dv swu seu nwu neu nwv swv nev sev sl nl wl el) with (i := U - 1 - i) (j := V - 1 - j) as (k & K & R); try assumption; try lia.
    exists (flip_v (flip_u k)). split; [apply flip_lt; now apply flip_lt|]. apply reg_flip_v; [now apply flip_lt|]. apply reg_flip_u; assumption.
Qed.

Lemma fits_of h v lh lv du dv : corner_fits h v lh lv du dv -> fits du dv (if h then dv else 0) (if v then du else 0) lh lv.
Proof. unfold corner_fits, fits. destruct h, v; intuition lia. Qed.

Lemma NoDup_concat {A} (L : list (list A)) :
  (forall k l, nth_error L k = Some l -> NoDup l) ->
  (forall k k' l l' x, (k < k')%nat -> nth_error L k = Some l -> nth_error L k' = Some l' -> In x l -> In x l' -> False) ->
  NoDup (concat L).
Proof.
  induction L as [|l L IH]; intros H1 H2; cbn; [constructor|]. apply NoDup_app_iff. split; [apply (H1 0%nat l eq_refl)|]. split.
  - apply IH; [intros k; apply (H1 (S k))|intros k k' a b x K E E'; apply (H2 (S k) (S k') a b x); [lia|exact E|exact E']].
  - intros x Hx H. apply in_concat in H as (l' & Hl & Hx'). apply In_nth_error in Hl as (k & E).
    apply (H2 0%nat (S k) l l' x); [lia|reflexivity|exact E|exact Hx|exact Hx'].
Qed.

Definition regC (c : pconf) : nat -> Z -> Z -> Prop :=
  let D := clamped c in
  reg (pU c) (pV c) (pdu c) (pdv c) (ne_u D) (nw_u D) (se_u D) (sw_u D) (se_v D) (ne_v D) (sw_v D) (nw_v D)
      (if pInt c North then pdv c else 0) (if pInt c South then pdv c else 0) (if pInt c East then pdu c else 0) (if pInt c West then pdu c else 0).

(** the nine loops *)
Lemma actions_split c : exists L, patchActions c = concat L /\ length L = 9%nat /\
  (forall k l, nth_error L k = Some l -> NoDup (map fst l)) /\
  (forall k l i j, nth_error L k = Some l -> In (i, j) (map fst l) -> regC c k i j) /\
  (pOne c = false -> forall k l i j, nth_error L k = Some l -> regC c k i j -> In (i, j) (map fst l)).
Proof.
  unfold patchActions, regC. cbv zeta. generalize (clamped c). intros D.
  match goal with |- exists _, ?a ++ ?b ++ ?c1 ++ ?d ++ ?e ++ ?f ++ ?g ++ ?h ++ ?i = _ /\ _ => exists [a; b; c1; d; e; f; g; h; i] end.
  split; [cbn [concat]; now rewrite app_nil_r|]. split; [reflexivity|]. split; [|split].
  - intros k l E. do 9 (destruct k as [|k]; [cbn in E; injection E as <-; apply loop2_nodup|]). destruct k; discriminate.
  - intros k l i j E H.
    destruct k as [|[|[|[|[|[|[|[|[|k]]]]]]]]]; cbn [nth_error] in E; [..|destruct k; discriminate];
      injection E as <-; apply loop2_fst_in in H as (J & I & N); unfold reg; cbn [range part]; (split; [split; assumption|]); try exact Logic.I.
    + destruct (Z.leb_spec (pdu c) i); [|lia]. destruct (Z.leb_spec (pdv c) j); [|lia]. cbn in N. congruence.
    + destruct (Z.ltb_spec i (pU c - pdu c)); [|lia]. destruct (Z.leb_spec (pdv c) j); [|lia]. cbn in N. congruence.
    + cbv beta in N. revert N. repeat match goal with |- context [if ?b then None else _] => destruct b eqn:?; [intros N; congruence|] end. intros _.
      clear J I. repeat split; lia.
    + destruct (Z.leb_spec (pdu c) i); [|lia]. destruct (Z.ltb_spec j (pV c - pdv c)); [|lia]. cbn in N. congruence.
    + destruct (Z.ltb_spec i (pU c - pdu c)); [|lia]. destruct (Z.ltb_spec j (pV c - pdv c)); [|lia]. cbn in N. congruence.
  - intros One k l i j E (R & P). rewrite One in *. cbn [andb orb] in *.
    destruct k as [|[|[|[|[|[|[|[|[|k]]]]]]]]]; cbn [nth_error] in E; [..|destruct k; discriminate];
      injection E as <-; apply loop2_fst_in; cbn [range part] in R, P; (split; [apply R|split; [apply R|]]).
    + rewrite if_none; [lia|somes].
    + destruct (pInt c South); discriminate.
    + rewrite if_none; [lia|]. rewrite andb_false_r. somes.
    + destruct (pInt c West); discriminate.
    + destruct P as (P1 & P2 & P3 & P4).
      repeat match goal with |- (if ?b then None else _) <> None => let B := fresh in assert (B : b = false) by lia; rewrite B; clear B end. discriminate.
    + rewrite andb_false_r. destruct (pInt c East); discriminate.
    + rewrite if_none; [lia|]. rewrite andb_false_r. somes.
    + rewrite andb_false_r. destruct (pInt c North); discriminate.
    + rewrite if_none; [lia|]. rewrite andb_false_r. somes.
Qed.

Lemma conf_bounds c : conf_ok c ->
  let D := clamped c in
  (0 <= ne_u D /\ 0 <= nw_u D /\ 0 <= se_u D /\ 0 <= sw_u D /\ 0 <= se_v D /\ 0 <= ne_v D /\ 0 <= sw_v D /\ 0 <= nw_v D) /\
  (ne_u D + nw_u D <= pU c /\ se_u D + sw_u D <= pU c /\ se_v D + ne_v D <= pV c /\ sw_v D + nw_v D <= pV c).
Proof.
  intros K D. destruct K as [Kdu Kdv KU KV Kpos Ksw Kse Knw Kne]. assert (0 <= pU c) by lia. assert (0 <= pV c) by lia.
  destruct (Kpos NE), (Kpos NW), (Kpos SE), (Kpos SW).
  pose proof (clampHalf_ok (pU c) (pH c NE) (pH c NW)). pose proof (clampHalf_ok (pU c) (pH c SE) (pH c SW)).
  pose proof (clampHalf_ok (pV c) (pW c SE) (pW c NE)). pose proof (clampHalf_ok (pV c) (pW c SW) (pW c NW)).
  unfold D, clamped. cbn [ne_u nw_u se_u sw_u se_v ne_v sw_v nw_v]. intuition lia.
Qed.

Lemma regC_disjoint c : conf_ok c -> forall k k' i j, (k < k')%nat -> (k' < 9)%nat -> regC c k i j -> regC c k' i j -> False.
Proof.
  intros K. pose proof (conf_bounds c K) as ((? & ? & ? & ? & ? & ? & ? & ?) & (? & ? & ? & ?)). destruct K as [Kdu Kdv KU KV Kpos Ksw Kse Knw Kne].
  apply fits_of in Ksw, Kse, Knw, Kne.
  assert (N1 : (if pInt c North then pdv c else 0) = 0 \/ (if pInt c North then pdv c else 0) = pdv c) by (destruct (pInt c North); auto).
  assert (N2 : (if pInt c South then pdv c else 0) = 0 \/ (if pInt c South then pdv c else 0) = pdv c) by (destruct (pInt c South); auto).
  assert (N3 : (if pInt c East then pdu c else 0) = 0 \/ (if pInt c East then pdu c else 0) = pdu c) by (destruct (pInt c East); auto).
  assert (N4 : (if pInt c West then pdu c else 0) = 0 \/ (if pInt c West then pdu c else 0) = pdu c) by (destruct (pInt c West); auto).
  intros k k' i j K K'. unfold regC.
  destruct k as [|k]; [destruct k' as [|k']; [lia|]; destruct k' as [|k']; [eapply dis_0_1; eassumption|]; destruct k' as [|k']; [eapply dis_0_2; eassumption|]; destruct k' as [|k']; [eapply dis_0_3; eassumption|]; destruct k' as [|k']; [eapply dis_0_4; eassumption|]; destruct k' as [|k']; [eapply dis_0_5; eassumption|]; destruct k' as [|k']; [eapply dis_0_6; eassumption|]; destruct k' as [|k']; [eapply dis_0_7; eassumption|]; destruct k' as [|k']; [eapply dis_0_8; eassumption|]; lia|].
  destruct k as [|k]; [destruct k' as [|k']; [lia|]; destruct k' as [|k']; [lia|]; destruct k' as [|k']; [eapply dis_1_2; eassumption|]; destruct k' as [|k']; [eapply dis_1_3; eassumption|]; destruct k' as [|k']; [eapply dis_1_4; eassumption|]; destruct k' as [|k']; [eapply dis_1_5; eassumption|]; destruct k' as [|k']; [eapply dis_1_6; eassumption|]; destruct k' as [|k']; [eapply dis_1_7; eassumption|]; destruct k' as [|k']; [eapply dis_1_8; eassumption|]; lia|].
  destruct k as [|k]; [destruct k' as [|k']; [lia|]; destruct k' as [|k']; [lia|]; destruct k' as [|k']; [lia|]; destruct k' as [|k']; [eapply dis_2_3; eassumption|]; destruct k' as [|k']; [eapply dis_2_4; eassumption|]; destruct k' as [|k']; [eapply dis_2_5; eassumption|]; destruct k' as [|k']; [eapply dis_2_6; eassumption|]; destruct k' as [|k']; [eapply dis_2_7; eassumption|]; destruct k' as [|k']; [eapply dis_2_8; eassumption|]; lia|].
  destruct k as [|k]; [destruct k' as [|k']; [lia|]; destruct k' as [|k']; [lia|]; destruct k' as [|k']; [lia|]; destruct k' as [|k']; [lia|]; destruct k' as [|k']; [eapply dis_3_4; eassumption|]; destruct k' as [|k']; [eapply dis_3_5; eassumption|]; destruct k' as [|k']; [eapply dis_3_6; eassumption|]; destruct k' as [|k']; [eapply dis_3_7; eassumption|]; destruct k' as [|k']; [eapply dis_3_8; eassumption|]; lia|].
  destruct k as [|k]; [destruct k' as [|k']; [lia|]; destruct k' as [|k']; [lia|]; destruct k' as [|k']; [lia|]; destruct k' as [|k']; [lia|]; destruct k' as [|k']; [lia|]; destruct k' as [|k']; [eapply dis_4_5; eassumption|]; destruct k' as [|k']; [eapply dis_4_6; eassumption|]; destruct k' as [|k']; [eapply dis_4_7; eassumption|]; destruct k' as [|k']; [eapply dis_4_8; eassumption|]; lia|].
  destruct k as [|k]; [destruct k' as [|k']; [lia|]; destruct k' as [|k']; [lia|]; destruct k' as [|k']; [lia|]; destruct k' as [|k']; [lia|]; destruct k' as [|k']; [lia|]; destruct k' as [|k']; [lia|]; destruct k' as [|k']; [eapply dis_5_6; eassumption|]; destruct k' as [|k']; [eapply dis_5_7; eassumption|]; destruct k' as [|k']; [eapply dis_5_8; eassumption|]; lia|].
  destruct k as [|k]; [destruct k' as [|k']; [lia|]; destruct k' as [|k']; [lia|]; destruct k' as [|k']; [lia|]; destruct k' as [|k']; [lia|]; destruct k' as [|k']; [lia|]; destruct k' as [|k']; [lia|]; destruct k' as [|k']; [lia|]; destruct k' as [|k']; [eapply dis_6_7; eassumption|]; destruct k' as [|k']; [eapply dis_6_8; eassumption|]; lia|].
  destruct k as [|k]; [destruct k' as [|k']; [lia|]; destruct k' as [|k']; [lia|]; destruct k' as [|k']; [lia|]; destruct k' as [|k']; [lia|]; destruct k' as [|k']; [lia|]; destruct k' as [|k']; [lia|]; destruct k' as [|k']; [lia|]; destruct k' as [|k']; [lia|]; destruct k' as [|k']; [eapply dis_7_8; eassumption|]; lia|].
  destruct k as [|k]; [destruct k' as [|k']; [lia|]; destruct k' as [|k']; [lia|]; destruct k' as [|k']; [lia|]; destruct k' as [|k']; [lia|]; destruct k' as [|k']; [lia|]; destruct k' as [|k']; [lia|]; destruct k' as [|k']; [lia|]; destruct k' as [|k']; [lia|]; destruct k' as [|k']; [lia|]; lia|].
  lia.
Qed.

Theorem regions_pf : forall c, conf_ok c ->
  NoDup (map fst (patchActions c)) /\ (forall x, In x (map fst (patchActions c)) -> in_patch c x) /\
  (pOne c = false -> forall x, in_patch c x -> In x (map fst (patchActions c))).
Proof.
  intros c K. destruct (actions_split c) as (L & E & LL & ND & IN1 & IN2).
  assert (LT : forall k l, nth_error L k = Some l -> (k < 9)%nat) by (intros k l H; rewrite <- LL; apply nth_error_Some; congruence).
  rewrite E, concat_map. split.
  - apply NoDup_concat.
    + intros k l H. rewrite nth_error_map in H. destruct (nth_error L k) eqn:F; [|discriminate]. injection H as <-. eauto.
    + intros k k' l l' (i, j) KK H H' I I'. rewrite nth_error_map in H, H'.
      destruct (nth_error L k) eqn:F; [|discriminate]. destruct (nth_error L k') eqn:F'; [|discriminate]. injection H as <-. injection H' as <-.
      eapply (regC_disjoint c K k k' i j); eauto.
  - split; [intros (i, j)|intros One (i, j); specialize (IN2 One)].
    + intros H. apply in_concat in H as (l & Hl & H). apply in_map_iff in Hl as (l0 & <- & Hl). apply In_nth_error in Hl as (k & F).
      pose proof (IN1 _ _ _ _ F H) as (R & _). pose proof (LT _ _ F) as K9. pose proof (conf_bounds c K) as ((? & ? & ? & ? & ? & ? & ? & ?) & (? & ? & ? & ?)).
      destruct K as [Kdu Kdv KU KV Kpos Ksw Kse Knw Kne]. unfold in_patch. cbn [fst snd].
      do 9 (destruct k as [|k]; [cbn [range] in R; repeat match type of R with context [if ?b then _ else _] => destruct b end; lia|]). lia.
    + intros (I & J). cbn [fst snd] in I, J. pose proof (conf_bounds c K) as ((? & ? & ? & ? & ? & ? & ? & ?) & (? & ? & ? & ?)).
      assert (C : exists k, (k < 9)%nat /\ regC c k i j).
      { destruct K as [Kdu Kdv KU KV Kpos Ksw Kse Knw Kne]. apply cover_all; try assumption; try (apply fits_of; assumption);
          repeat match goal with |- context [if ?b then _ else _] => destruct b end; auto. }
      destruct C as (k & K9 & R). destruct (nth_error L k) as [l|] eqn:F; [|apply nth_error_None in F; lia].
      apply in_concat. exists (map fst l). split; [apply in_map; eapply nth_error_In; exact F|]. eapply IN2; eauto.
Qed.

Lemma clampHalf_shared n a b : 0 <= n -> 0 <= a -> 0 <= b -> shared n a b (fst (clampHalf n a b)) (snd (clampHalf n a b)).
Proof.
  intros N A B. unfold clampHalf, shared. pose proof (Z.div_mod n 2 ltac:(lia)). pose proof (Z.mod_pos_bound n 2 ltac:(lia)). destruct (Z.ltb_spec n (a + b)); cbn [fst snd]; repeat split; lia.
Qed.
Theorem halves_pf c : 0 <= pU c -> 0 <= pV c -> (forall x, 0 <= pH c x /\ 0 <= pW c x) ->
  shared (pU c) (pH c NE) (pH c NW) (ne_u (clamped c)) (nw_u (clamped c)) /\ shared (pU c) (pH c SE) (pH c SW) (se_u (clamped c)) (sw_u (clamped c)) /\
  shared (pV c) (pW c SE) (pW c NE) (se_v (clamped c)) (ne_v (clamped c)) /\ shared (pV c) (pW c SW) (pW c NW) (sw_v (clamped c)) (nw_v (clamped c)).
Proof. intros U V H. unfold clamped. cbn [ne_u nw_u se_u sw_u se_v ne_v sw_v nw_v]. repeat split; apply clampHalf_shared; try assumption; apply H. Qed.
