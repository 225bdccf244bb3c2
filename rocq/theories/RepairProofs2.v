(** Proofs for C38, continued: one round of the loop. *)
From Coq Require Import Sorted.
From Verif Require Import Common TopoModel TopoSpec VertexModel VertexSpec RepairModel RepairSpec ListLemmas TopoProofs VertexProofs VertexProofs2 VertexProofs3 RepairProofs.
Open Scope nat_scope.

Definition opp (s : side) : side := match s with West => East | East => West | South => North | North => South end.

Section R.
Context (t : topo) (Hc : consistent t) (L : nat -> nat -> Z) (D : nat -> nat -> nat).

Lemma joined_sym p s q s' fl : joined_sides t p s q s' fl -> joined_sides t q s' p s fl.
Proof. intros (f & Hf & E & H). exists f. tauto. Qed.
Lemma joined_fun p s q s' fl q2 s2 fl2 : joined_sides t p s q s' fl -> joined_sides t p s q2 s2 fl2 -> q2 = q /\ s2 = s' /\ fl2 = fl.
Proof.
  intros (f & Hf & E & H) (g & Hg & E2 & H2). assert (f = g) by (apply (iface_unique t Hc f g (p, s)); tauto). subst g.
  pose proof (iface_ends_differ t Hc f Hf) as ND. destruct H as [(A & B)|(A & B)], H2 as [(A2 & B2)|(A2 & B2)]; try (exfalso; congruence); repeat split; congruence.
Qed.
Lemma joined_valid p s q s' fl : joined_sides t p s q s' fl -> p < tnp t /\ q < tnp t.
Proof.
  intros (f & Hf & _ & H). pose proof (end1_valid t Hc f true Hf) as A. pose proof (end2_valid t Hc f true Hf) as B. unfold validc, end1, end2 in A, B. cbn in A, B.
  destruct H as [(E & E')|(E & E')]; rewrite E, E' in *; cbn in *; tauto.
Qed.
Lemma joined_self p s s' fl : joined_sides t p s p s' fl -> s' = opp s.
Proof.
  intros (f & Hf & _ & H). destruct Hc as (_ & NA). destruct (NA f Hf) as [N|(E & N)].
  - destruct H as [(A & B)|(A & B)]; rewrite A, B in N; cbn in N; congruence.
  - destruct H as [(A & B)|(A & B)]; rewrite A, B in E, N; cbn in E, N; destruct s, s'; cbn in *; congruence.
Qed.
Lemma along_opp s : along (opp s) = along s. Proof. destruct s; reflexivity. Qed.
Lemma opp_opp s : opp (opp s) = s. Proof. destruct s; reflexivity. Qed.
Lemma along_lt s : along s < 2. Proof. destruct s; cbn; lia. Qed.

(** knot [x] of the neighbour, in the parameter of the side *)
Definition view (B : list vbase) (p : nat) (s : side) (q : nat) (s' : side) (fl : bool) (x : Z) : Prop :=
  has_knot B q (along s') (if fl then (L p (along s) - x)%Z else x).

Definition side_result (B : list vbase) p s (r : option (nat * (bool * list Z))) : Prop :=
  match r with
  | None => forall q s' fl, ~ joined_sides t p s q s' fl
  | Some (q, (e, l)) => exists s' fl, joined_sides t p s q s' fl /\
      (e = true <-> exists x, has_knot B p (along s) x /\ ~ view B p s q s' fl x) /\
      forall x, In x l <-> view B p s q s' fl x /\ ~ has_knot B p (along s) x
  end.

Lemma has_at B p b dir x : nth_error B p = Some b -> has_knot B p dir x <-> In x (knots b dir).
Proof. intros E. split; [intros (b' & E' & H); rewrite E in E'; now injection E' as <-|intros H; now exists b]. Qed.

Lemma getInterface_joined p s f : getInterface t (p, s) = Some f -> exists q s', iother f (p, s) = Ok (q, s') /\ joined_sides t p s q s' (ifflip f).
Proof.
  intros G. apply getInterface_some in G. destruct G as (Hf & H). unfold iother. destruct (ps_eqb (if1 f) (p, s)) eqn:E1.
  - apply ps_eqb_eq in E1. destruct (if2 f) as (q, s') eqn:E2. exists q, s'. split; [reflexivity|]. exists f. auto.
  - destruct H as [H|H]; [apply ps_eqb_eq in H; congruence|]. rewrite (proj2 (ps_eqb_eq _ _) H). destruct (if1 f) as (q, s') eqn:E2. exists q, s'. split; [reflexivity|]. exists f. auto.
Qed.

Lemma compareSide_spec B p b s : shaped t L D B -> nth_error B p = Some b -> exists r, compareSide t B b p s = Ok r /\ side_result B p s r.
Proof.
  intros (LB & SH & CO) E. unfold compareSide. destruct (getInterface t (p, s)) as [f|] eqn:G.
  - destruct (getInterface_joined p s f G) as (q & s' & O & J). rewrite O. cbn [bind fst snd]. destruct (joined_valid _ _ _ _ _ J) as (_ & Vq). rewrite <- LB in Vq.
    destruct (nth_error B q) as [b'|] eqn:Eq; [|apply nth_error_None in Eq; lia]. unfold vget. rewrite Eq. cbn [bind].
    destruct (SH p b E (along s) (along_lt s)) as (_ & mid & SO). destruct (SH q b' Eq (along s') (along_lt s')) as (_ & mid' & SO'). destruct (CO _ _ _ _ _ J) as (EL & ED). rewrite <- EL, <- ED in SO'.
    change (1 - side_dir s) with (along s). change (1 - side_dir s') with (along s').
    set (kN := if ifflip f then kreverse (knots b' (along s')) else knots b' (along s')).
    assert (SN : exists m, simple_open (D p (along s)) (L p (along s)) m kN) by (unfold kN; destruct (ifflip f); [eexists; apply simple_reverse; exact SO'|eexists; exact SO']). destruct SN as (mN & SN).
    destruct (cmp_simple _ _ _ _ _ _ SO SN) as (e & l & C & HE & HL). rewrite C. cbn [bind]. eexists. split; [reflexivity|]. exists s', (ifflip f). split; [exact J|].
    assert (V : forall x, In x kN <-> view B p s q s' (ifflip f) x).
    { intros x. unfold view. rewrite (has_at B q b' _ _ Eq). unfold kN. destruct (ifflip f); [|reflexivity]. unfold kreverse. rewrite <- in_rev, in_map_iff.
      rewrite (simple_hd_last _ _ _ _ SO'). split; [intros (y & <- & Hy)|intros Hy; exists (L p (along s) - x)%Z; split; [lia|exact Hy]]. replace (L p (along s) - (L p (along s) - y))%Z with y by lia. exact Hy. }
    split.
    + rewrite HE. split; intros (x & X & Y); exists x; rewrite V, (has_at B p b _ _ E) in *; tauto.
    + intros x. rewrite HL, V, (has_at B p b _ _ E). reflexivity.
  - exists None. split; [reflexivity|]. intros q s' fl (f & Hf & _ & H). rewrite (getInterface_of t Hc f (p, s) Hf) in G; [discriminate|tauto].
Qed.

Definition wanted_knot (B : list vbase) (p dir : nat) (x : Z) : Prop :=
  ~ has_knot B p dir x /\ exists s q s' fl, along s = dir /\ joined_sides t p s q s' fl /\ view B p s q s' fl x.
Definition flagged (B : list vbase) (p q : nat) : Prop :=
  exists s s' fl, joined_sides t p s q s' fl /\
    ((exists x, has_knot B p (along s) x /\ ~ view B p s q s' fl x) \/
     (exists x q2 s2 fl2, ~ has_knot B p (along s) x /\ joined_sides t p (opp s) q2 s2 fl2 /\ view B p (opp s) q2 s2 fl2 x)).

Lemma missing_spec B p s r : side_result B p s r -> forall x, In x (missing r) <-> ~ has_knot B p (along s) x /\ exists q s' fl, joined_sides t p s q s' fl /\ view B p s q s' fl x.
Proof.
  intros H x. destruct r as [(q & e & l)|]; cbn [missing side_result] in *.
  - destruct H as (s' & fl & J & _ & HL). rewrite HL. split.
    + intros (V & N). split; [exact N|]. now exists q, s', fl.
    + intros (N & q2 & s2 & fl2 & J2 & V). destruct (joined_fun _ _ _ _ _ _ _ _ J J2) as (-> & -> & ->). now split.
  - split; [intros []|]. intros (_ & q & s' & fl & J & _). exact (H _ _ _ J).
Qed.
Lemma check_spec B p s r o : side_result B p s r -> side_result B p (opp s) o -> forall q, In q (check r o) <->
  exists s' fl, joined_sides t p s q s' fl /\
    ((exists x, has_knot B p (along s) x /\ ~ view B p s q s' fl x) \/
     (exists x q2 s2 fl2, ~ has_knot B p (along s) x /\ joined_sides t p (opp s) q2 s2 fl2 /\ view B p (opp s) q2 s2 fl2 x)).
Proof.
  intros HR HO q. pose proof (missing_spec B p (opp s) o HO) as M. rewrite along_opp in M.
  assert (MN : (match missing o with [] => false | _ => true end) = true <-> exists x, In x (missing o)).
  { destruct (missing o) as [|y m]; [split; [discriminate|intros (x & [])]|split; [intros _; exists y; now left|reflexivity]]. }
  destruct r as [(q0 & e & l)|]; cbn [check side_result extra] in *.
  - destruct HR as (s' & fl & J & HE & _). destruct (e || _) eqn:C.
    + cbn [In]. split.
      * intros [<-|[]]. exists s', fl. split; [exact J|]. apply orb_prop in C. destruct C as [C|C]; [left; now apply HE|right].
        apply MN in C. destruct C as (x & Hx). apply M in Hx. destruct Hx as (N & q2 & s2 & fl2 & J2 & V). now exists x, q2, s2, fl2.
      * intros (s2 & fl2 & J2 & _). left. destruct (joined_fun _ _ _ _ _ _ _ _ J J2) as (-> & _). reflexivity.
    + split; [intros []|]. intros (s2 & fl2 & J2 & H). destruct (joined_fun _ _ _ _ _ _ _ _ J J2) as (-> & -> & ->). apply orb_false_iff in C. destruct C as (C1 & C2).
      destruct H as [H|(x & q2 & s2 & fl2 & N & J3 & V)]; [apply HE in H; congruence|]. assert (K : exists x, In x (missing o)) by (exists x; apply M; split; [exact N|now exists q2, s2, fl2]). apply MN in K. congruence.
  - split; [intros []|]. intros (s' & fl & J & _). exact (HR _ _ _ J).
Qed.

Lemma match_spec B p : shaped t L D B -> p < tnp t -> exists i0 i1 chk, knotsMatchNeighbours t B p = Ok (i0, i1, chk) /\
  NoDup i0 /\ NoDup i1 /\ (forall x, In x i0 <-> wanted_knot B p 0 x) /\ (forall x, In x i1 <-> wanted_knot B p 1 x) /\
  (forall q, In q chk <-> flagged B p q).
Proof.
  intros SH V. assert (V' : p < length B) by (destruct SH as (-> & _); exact V). destruct (nth_error B p) as [b|] eqn:E; [|apply nth_error_None in E; lia].
  unfold knotsMatchNeighbours, vget. rewrite E. cbn [bind].
  destruct (compareSide_spec B p b West SH E) as (w & -> & W). destruct (compareSide_spec B p b East SH E) as (e & -> & EA).
  destruct (compareSide_spec B p b South SH E) as (s & -> & S). destruct (compareSide_spec B p b North SH E) as (n & -> & N). cbn [bind].
  assert (ND : forall l, NoDup (sortUnique l)).
  { intros l. destruct (sortUnique_spec l) as (ST & _). clear - ST. induction ST as [|x m ST IH F]; constructor; [|exact IH]. intros C. rewrite Forall_forall in F. specialize (F _ C). lia. }
  eexists _, _, _. split; [reflexivity|]. split; [apply ND|]. split; [apply ND|].
  assert (MS := fun s r H x => missing_spec B p s r H x).
  split; [|split].
  - intros x. rewrite (proj2 (sortUnique_spec _)), in_app_iff, (MS South s S), (MS North n N). unfold wanted_knot. split.
    + intros [(H & q & s' & fl & J & U)|(H & q & s' & fl & J & U)]; (split; [exact H|]); [exists South, q, s', fl|exists North, q, s', fl]; auto.
    + intros (H & sd & q & s' & fl & A & J & U). destruct sd; cbn in A; try discriminate; [left|right]; (split; [exact H|]); now exists q, s', fl.
  - intros x. rewrite (proj2 (sortUnique_spec _)), in_app_iff, (MS West w W), (MS East e EA). unfold wanted_knot. split.
    + intros [(H & q & s' & fl & J & U)|(H & q & s' & fl & J & U)]; (split; [exact H|]); [exists West, q, s', fl|exists East, q, s', fl]; auto.
    + intros (H & sd & q & s' & fl & A & J & U). destruct sd; cbn in A; try discriminate; [left|right]; (split; [exact H|]); now exists q, s', fl.
  - intros q. rewrite !in_app_iff, (check_spec B p West w e W EA), (check_spec B p East e w EA W), (check_spec B p South s n S N), (check_spec B p North n s N S). unfold flagged. split.
    + intros [(s' & fl & H)|[(s' & fl & H)|[(s' & fl & H)|(s' & fl & H)]]]; [exists West|exists East|exists South|exists North]; exists s', fl; exact H.
    + intros (sd & s' & fl & H). destruct sd; [left|right; left|right; right; left|right; right; right]; now exists s', fl.
Qed.

(** ** One round *)
Definition next (B : list vbase) (p : nat) (i0 i1 : list Z) : list vbase :=
  match nth_error B p with Some b => upd B p (insertKnots b i0 i1) | None => B end.

Lemma nth_upd {A} (l : list A) i v j : i < length l -> nth_error (upd l i v) j = if j =? i then Some v else nth_error l j.
Proof.
  revert i j. induction l as [|a l IH]; intros i j H; [cbn in H; lia|]. destruct i as [|i], j as [|j]; cbn [upd nth_error Nat.eqb]; try reflexivity. apply IH. cbn in H. lia.
Qed.

Lemma next_has B p i0 i1 dir q x : p < length B -> dir < 2 -> has_knot (next B p i0 i1) q dir x <-> has_knot B q dir x \/ (q = p /\ In x (match dir with 0 => i0 | _ => i1 end)).
Proof.
  intros V DL. unfold next. destruct (nth_error B p) as [b|] eqn:E; [|apply nth_error_None in E; lia]. unfold has_knot at 1. rewrite nth_upd by exact V. destruct (Nat.eqb_spec q p) as [->|N].
  - rewrite (has_at B p b _ _ E). destruct dir as [|[|dir]]; [| |lia]; cbn [knots insertKnots vk0 vk1].
    + split; [intros (b' & [= <-] & H); cbn [knots insertKnots vk0] in H; apply insert_in in H; tauto|intros H; eexists; split; [reflexivity|]; cbn [knots insertKnots vk0]; apply insert_in; tauto].
    + split; [intros (b' & [= <-] & H); cbn [knots insertKnots vk1] in H; apply insert_in in H; tauto|intros H; eexists; split; [reflexivity|]; cbn [knots insertKnots vk1]; apply insert_in; tauto].
  - split; [intros H; now left|intros [H|(A & _)]; [exact H|contradiction]].
Qed.

Lemma shaped_range B p dir x : shaped t L D B -> dir < 2 -> has_knot B p dir x -> (0 <= x <= L p dir)%Z.
Proof.
  intros (_ & SH & _) DL (b & E & H). destruct (SH p b E dir DL) as (_ & mid & SO). apply (simple_in _ _ _ _ x SO) in H. apply simple_inside in SO. destruct SO as (_ & P & _ & I). destruct H as [->|[->|H]]; [lia|lia|]. specialize (I x H). lia.
Qed.
Lemma shaped_ends B p dir : shaped t L D B -> dir < 2 -> p < tnp t -> has_knot B p dir 0%Z /\ has_knot B p dir (L p dir).
Proof.
  intros (LB & SH & _) DL V. rewrite <- LB in V. destruct (nth_error B p) as [b|] eqn:E; [|apply nth_error_None in E; lia]. destruct (SH p b E dir DL) as (_ & mid & SO).
  split; exists b; (split; [exact E|]); apply (simple_in _ _ _ _ _ SO); tauto.
Qed.
Lemma wanted_range B p dir x : shaped t L D B -> p < tnp t -> wanted_knot B p dir x -> dir < 2 /\ (0 < x < L p dir)%Z.
Proof.
  intros SH V (N & s & q & s' & fl & <- & J & U). split; [apply along_lt|]. pose proof (shaped_ends B p (along s) SH (along_lt s) V) as (H0 & HL).
  unfold view in U. apply (shaped_range B q (along s') _ SH (along_lt s')) in U. destruct (proj2 (proj2 SH) _ _ _ _ _ J) as (EL & _). rewrite <- EL in U.
  assert (x <> 0%Z) by (intros ->; contradiction). assert (x <> L p (along s)) by (intros ->; contradiction). destruct fl; lia.
Qed.

Lemma next_shaped B p i0 i1 : shaped t L D B -> p < tnp t -> NoDup i0 -> NoDup i1 -> (forall x, In x i0 <-> wanted_knot B p 0 x) -> (forall x, In x i1 <-> wanted_knot B p 1 x) ->
  shaped t L D (next B p i0 i1).
Proof.
  intros SH V N0 N1 H0 H1. pose proof SH as (LB & S1 & CO). unfold next. destruct (nth_error B p) as [b|] eqn:E; [|exact SH]. split; [now rewrite upd_length|]. split; [|exact CO].
  intros q b' Eq dir DL. rewrite nth_upd in Eq by lia. destruct (Nat.eqb_spec q p) as [->|NE]; [|now apply S1]. injection Eq as <-. destruct (S1 p b E dir DL) as (DG & mid & SO).
  destruct dir as [|[|dir]]; [| |lia]; cbn [degree knots insertKnots vk0 vk1 vd0 vd1] in *.
  - split; [exact DG|]. apply (insert_simple _ _ i0 mid _ SO N0). intros y Hy. apply H0 in Hy. split; [apply (wanted_range _ _ _ _ SH V Hy)|]. intros C. apply (proj1 Hy). now exists b.
  - split; [exact DG|]. apply (insert_simple _ _ i1 mid _ SO N1). intros y Hy. apply H1 in Hy. split; [apply (wanted_range _ _ _ _ SH V Hy)|]. intros C. apply (proj1 Hy). now exists b.
Qed.

(** ** What holds between the rounds *)
Definition agree (B : list vbase) p s q s' fl : Prop := forall x, has_knot B p (along s) x <-> view B p s q s' fl x.
Definition pending (B : list vbase) (C : list nat) : Prop :=
  forall p s q s' fl, joined_sides t p s q s' fl -> agree B p s q s' fl \/ In p C \/ In q C.

Lemma view_back B p s q s' fl x : shaped t L D B -> joined_sides t p s q s' fl ->
  view B q s' p s fl (if fl then (L p (along s) - x)%Z else x) <-> has_knot B p (along s) x.
Proof.
  intros SH J. destruct (proj2 (proj2 SH) _ _ _ _ _ J) as (EL & _). unfold view. rewrite <- EL. destruct fl; [|reflexivity]. replace (L p (along s) - (L p (along s) - x))%Z with x by lia. reflexivity.
Qed.
Lemma view_there B p s q s' fl x : shaped t L D B -> joined_sides t p s q s' fl ->
  view B p s q s' fl (if fl then (L p (along s) - x)%Z else x) <-> has_knot B q (along s') x.
Proof. intros SH J. unfold view. destruct fl; [|reflexivity]. replace (L p (along s) - (L p (along s) - x))%Z with x by lia. reflexivity. Qed.
Lemma agree_sym B p s q s' fl : shaped t L D B -> joined_sides t p s q s' fl -> agree B p s q s' fl -> agree B q s' p s fl.
Proof.
  intros SH J A x. rewrite <- (view_there B p s q s' fl x SH J). rewrite <- (A _). destruct (proj2 (proj2 SH) _ _ _ _ _ J) as (EL & _). unfold view. rewrite EL. reflexivity.
Qed.

Lemma round B p C i0 i1 chk : shaped t L D B -> p < tnp t -> (forall x, In x i0 <-> wanted_knot B p 0 x) -> (forall x, In x i1 <-> wanted_knot B p 1 x) ->
  (forall q, In q chk <-> flagged B p q) -> NoDup i0 -> NoDup i1 -> pending B (p :: C) -> forall C', (forall q, In q C' <-> In q chk \/ In q C) -> pending (next B p i0 i1) C'.
Proof.
  intros SH V H0 H1 HC N0 N1 PE C' HC'. pose proof (next_shaped B p i0 i1 SH V N0 N1 H0 H1) as SH'. assert (VB : p < length B) by (destruct SH as (-> & _); exact V).
  assert (NH : forall q dir x, dir < 2 -> has_knot (next B p i0 i1) q dir x <-> has_knot B q dir x \/ (q = p /\ wanted_knot B p dir x)).
  { intros q dir x DL. rewrite (next_has B p i0 i1 dir q x VB DL). destruct dir as [|[|]]; [rewrite H0; reflexivity|rewrite H1; reflexivity|lia]. }
  assert (MAIN : forall s q s' fl, joined_sides t p s q s' fl -> agree (next B p i0 i1) p s q s' fl \/ In q C').
  { intros s q s' fl J. destruct (in_dec Nat.eq_dec q chk) as [I|NI]; [right; apply HC'; now left|left].
    assert (NF : ~ flagged B p q) by (intros F; apply NI, HC, F).
    assert (NE : forall x, has_knot B p (along s) x -> ~ ~ view B p s q s' fl x) by (intros x X Y; apply NF; exists s, s', fl; split; [exact J|left; now exists x]).
    assert (NM : forall x q2 s2 fl2, ~ has_knot B p (along s) x -> joined_sides t p (opp s) q2 s2 fl2 -> ~ view B p (opp s) q2 s2 fl2 x) by (intros x q2 s2 fl2 X J2 Y; apply NF; exists s, s', fl; split; [exact J|right; now exists x, q2, s2, fl2]).
    assert (DV : forall q dir x, has_knot B q dir x \/ ~ has_knot B q dir x).
    { intros q0 dir x. unfold has_knot. destruct (nth_error B q0) as [b|]; [|right; intros (b & E & _); discriminate]. destruct (in_dec Z.eq_dec x (knots b dir)) as [I|I]; [left; now exists b|right; intros (b' & E & I'); injection E as <-; contradiction]. }
    assert (OWN : forall x, has_knot B p (along s) x -> view B p s q s' fl x) by (intros x X; destruct (DV q (along s') (if fl then (L p (along s) - x)%Z else x)) as [Y|Y]; [exact Y|exfalso; exact (NE x X Y)]).
    (* knots wanted in this direction come from this neighbour *)
    assert (WK : forall x, wanted_knot B p (along s) x -> view B p s q s' fl x).
    { intros x (N & sd & q2 & s2 & fl2 & A & J2 & U). assert (SD : sd = s \/ sd = opp s) by (destruct sd, s; cbn in A |- *; try discriminate; auto). destruct SD as [->| ->].
      - destruct (joined_fun _ _ _ _ _ _ _ _ J J2) as (-> & -> & ->). exact U.
      - exfalso. exact (NM x q2 s2 fl2 N J2 U). }
    intros x. unfold view. rewrite !NH by apply along_lt. destruct (Nat.eq_dec q p) as [->|NQ].
    - pose proof (joined_self _ _ _ _ J) as ES. subst s'. rewrite along_opp.
      assert (NW : forall y, ~ wanted_knot B p (along s) y).
      { intros y W. pose proof (WK y W) as U. apply (NM y p s fl (proj1 W)); [now apply joined_sym|]. unfold view in *. rewrite along_opp in *. exact U. }
      specialize (OWN x). unfold view in OWN. rewrite along_opp in OWN. split.
      + intros [X|(_ & W)]; [left; exact (OWN X)|exfalso; exact (NW _ W)].
      + intros [X|(_ & W)]; [|exfalso; exact (NW _ W)]. left. destruct (DV p (along s) x) as [Y|Y]; [exact Y|exfalso]. apply (NW x). split; [exact Y|]. exists s, p, (opp s), fl. split; [reflexivity|]. split; [exact J|]. unfold view. rewrite along_opp. exact X.
    - split.
      + intros [X|(_ & W)]; left; [exact (OWN x X)|exact (WK x W)].
      + intros [X|(Q & _)]; [|contradiction]. destruct (DV p (along s) x) as [Y|Y]; [now left|right]. split; [reflexivity|]. split; [exact Y|]. now exists s, q, s', fl. }
  intros a s q s' fl J. destruct (Nat.eq_dec a p) as [->|NA]; [destruct (MAIN s q s' fl J); tauto|]. destruct (Nat.eq_dec q p) as [->|NQ].
  - destruct (MAIN s' a s fl (joined_sym _ _ _ _ _ J)) as [A|A]; [left|tauto]. apply (agree_sym _ p s' a s fl SH' (joined_sym _ _ _ _ _ J) A).
  - destruct (PE a s q s' fl J) as [A|[[A|A]|[A|A]]]; try congruence; [left|right; left; apply HC'; now right|right; right; apply HC'; now right].
    intros x. unfold view. rewrite !NH by apply along_lt. specialize (A x). unfold view in A. split; intros [X|(Q & _)]; try contradiction; left; now apply A.
Qed.
End R.
