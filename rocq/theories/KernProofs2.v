(** Proofs for C61: the matrix. *)
From Coq Require Import Reals Lra ZifyBool.
From Verif Require Import Common SplineModel SplineSpec SurfGDSpec KernModel KernSpec KernProofs.
Open Scope R_scope.

Lemma foldM_seq {S} (P : nat -> S -> Prop) f n : forall a s, P a s -> (forall i s, (a <= i < a + n)%nat -> P i s -> exists s', f s i = Ok s' /\ P (Datatypes.S i) s') -> exists s', foldM f (seq a n) s = Ok s' /\ P (a + n)%nat s'.
Proof.
  induction n as [|n IH]; intros a s H0 H; cbn [seq foldM].
  - exists s. rewrite Nat.add_0_r. auto.
  - destruct (H a s ltac:(lia) H0) as (s' & E & P'). rewrite E. cbn [bind]. destruct (IH (Datatypes.S a) s' P') as (s'' & E' & P''); [intros i t L; apply H; lia|]. exists s''. split; [exact E'|]. replace (a + Datatypes.S n)%nat with (Datatypes.S a + n)%nat by lia. exact P''.
Qed.
Lemma foldM_list {A S} (P : S -> list A -> Prop) (f : S -> A -> res S) : forall l done s, P s done -> (forall x done s, In x l -> P s done -> exists s', f s x = Ok s' /\ P s' (done ++ [x])) -> exists s', foldM f l s = Ok s' /\ P s' (done ++ l).
Proof.
  induction l as [|x l IH]; intros done s H0 H; cbn [foldM].
  - exists s. rewrite app_nil_r. auto.
  - destruct (H x done s (or_introl eq_refl) H0) as (s' & E & P'). rewrite E. cbn [bind]. destruct (IH (done ++ [x]) s' P') as (s'' & E' & P''); [intros y d t I; apply H; right; exact I|]. exists s''. split; [exact E'|]. rewrite <- app_assoc in P''. exact P''.
Qed.

Section Rows.
Context (second : bool) (ps : list vpatch).

Lemma put_ok np p j k r m : nth_error ps np = Some p -> (k < vdu p * vdv p)%nat -> (r < krows m)%nat -> (j < 6)%nat ->
  put ps np j k r m = Ok (mkKM (krows m) (fun r' j' => if ((r' =? r) && (j' =? j))%nat then vcoef p j k else kval m r' j')).
Proof.
  intros E K R J. unfold put, vget, coefAt, kset. rewrite E. cbn [bind]. replace (k <? vdu p * vdv p)%nat with true by lia. cbn [bind]. replace ((r <? krows m) && (j <? 6))%nat with true by lia. reflexivity.
Qed.

Lemma two_rows np p k1 k2 r1 r2 m : nth_error ps np = Some p -> (k1 < vdu p * vdv p)%nat -> (k2 < vdu p * vdv p)%nat -> (r1 < krows m)%nat -> (second = false -> r2 < krows m)%nat -> r1 <> r2 ->
  exists m', foldM (fun m j => do m <- put ps np j k1 r1 m; if second then Ok m else put ps np j k2 r2 m) (seq 0 6) m = Ok m' /\ krows m' = krows m /\
    forall r j, (j < 6)%nat -> kval m' r j = if (r =? r1)%nat then vcoef p j k1 else if negb second && (r =? r2)%nat then vcoef p j k2 else kval m r j.
Proof.
  intros E K1 K2 R1 R2 NE.
  destruct (foldM_seq (fun a m' => krows m' = krows m /\ forall r j, kval m' r j = if ((j <? a) && (r =? r1))%nat then vcoef p j k1 else if ((j <? a) && (negb second && (r =? r2)))%nat then vcoef p j k2 else kval m r j)
    (fun m j => do m <- put ps np j k1 r1 m; if second then Ok m else put ps np j k2 r2 m) 6 0 m) as (m' & F & (R & V)).
  - split; [reflexivity|]. intros r j. reflexivity.
  - intros i m1 L (RM & V). rewrite (put_ok np p i k1 r1 m1 E K1 ltac:(lia) ltac:(lia)). cbn [bind]. destruct second eqn:SC.
    + eexists. split; [reflexivity|]. cbn [krows kval]. split; [exact RM|]. intros r j. rewrite V. cbn [negb andb]. destruct (Nat.eqb_spec r r1) as [->|]; destruct (Nat.eqb_spec j i) as [->|]; cbn [andb]; repeat match goal with |- context [(?a <? ?b)%nat] => destruct (Nat.ltb_spec a b) end; cbn [andb]; try lia; reflexivity.
    + rewrite (put_ok np p i k2 r2 _ E K2) by (cbn [krows]; specialize (R2 eq_refl); lia). eexists. split; [reflexivity|]. cbn [krows kval]. split; [exact RM|]. intros r j. rewrite V. cbn [negb andb].
      destruct (Nat.eqb_spec r r1) as [X|X]; destruct (Nat.eqb_spec j i) as [Y|Y]; destruct (Nat.eqb_spec r r2) as [Z|Z]; cbn [andb]; repeat match goal with |- context [(?a <? ?b)%nat] => destruct (Nat.ltb_spec a b) end; cbn [andb]; try lia; subst; try lia; reflexivity.
  - exists m'. split; [exact F|]. split; [exact R|]. intros r j L. rewrite V. replace (j <? 0 + 6)%nat with true by lia. reflexivity.
Qed.

Lemma block np p k1 k2 n s s2 m (b : nat -> nat) : nth_error ps np = Some p -> (forall i, (i < n)%nat -> k1 i < vdu p * vdv p)%nat -> (forall i, (i < n)%nat -> k2 i < vdu p * vdv p)%nat -> (s + n <= krows m)%nat -> (second = false -> s2 + n <= krows m)%nat -> (s + n <= s2)%nat ->
  (forall i, b i = s2 + i)%nat ->
  exists m', foldM (fun m i => foldM (fun m j => do m <- put ps np j (k1 i) (s + i) m; if second then Ok m else put ps np j (k2 i) (b i) m) (seq 0 6) m) (seq 0 n) m = Ok m' /\ krows m' = krows m /\
    forall r j, (j < 6)%nat -> kval m' r j = if ((s <=? r) && (r <? s + n))%nat then vcoef p j (k1 (r - s)%nat) else if negb second && ((s2 <=? r) && (r <? s2 + n))%nat then vcoef p j (k2 (r - s2)%nat) else kval m r j.
Proof.
  intros E K1 K2 R1 R2 NE B.
  destruct (foldM_seq (fun a m' => krows m' = krows m /\ forall r j, (j < 6)%nat -> kval m' r j = if ((s <=? r) && (r <? s + a))%nat then vcoef p j (k1 (r - s)%nat) else if negb second && ((s2 <=? r) && (r <? s2 + a))%nat then vcoef p j (k2 (r - s2)%nat) else kval m r j)
    (fun m i => foldM (fun m j => do m <- put ps np j (k1 i) (s + i) m; if second then Ok m else put ps np j (k2 i) (b i) m) (seq 0 6) m) n 0 m) as (m' & F & (R & V)).
  - split; [reflexivity|]. intros r j L. replace ((s <=? r) && (r <? s + 0))%nat with false by lia. replace ((s2 <=? r) && (r <? s2 + 0))%nat with false by lia. rewrite andb_false_r. reflexivity.
  - intros i m1 L (RM & V). destruct (two_rows np p (k1 i) (k2 i) (s + i) (b i) m1 E (K1 i ltac:(lia)) (K2 i ltac:(lia))) as (m' & F & R & V'); [lia|intros S; specialize (R2 S); rewrite B; lia|rewrite B; lia|].
    exists m'. split; [exact F|]. split; [lia|]. intros r j Lj. rewrite V', V, B by exact Lj.
    destruct (Nat.eqb_spec r (s + i)) as [->|N1].
    + replace ((s <=? s + i) && (s + i <? s + S i))%nat with true by lia. replace (s + i - s)%nat with i by lia. reflexivity.
    + destruct (Nat.eqb_spec r (s2 + i)) as [->|N2].
      * replace ((s <=? s2 + i) && (s2 + i <? s + S i))%nat with false by lia. replace ((s <=? s2 + i) && (s2 + i <? s + i))%nat with false by lia. replace ((s2 <=? s2 + i) && (s2 + i <? s2 + S i))%nat with true by lia. replace ((s2 <=? s2 + i) && (s2 + i <? s2 + i))%nat with false by lia. replace (s2 + i - s2)%nat with i by lia.
        destruct second; reflexivity.
      * rewrite andb_false_r. replace (r <? s + S i)%nat with (r <? s + i)%nat by lia. replace (r <? s2 + S i)%nat with (r <? s2 + i)%nat by lia. reflexivity.
  - exists m'. split; [exact F|]. split; [exact R|]. exact V.
Qed.

(** the matrix starts with the rows [L] and is zero below *)
Definition agrees (m : kmat) (L : list (nat -> R)) : Prop :=
  forall r j, (j < 6)%nat -> kval m r j = nth r L (fun _ => 0) j.
Definition row (p : vpatch) (k : nat) (j : nat) : R := vcoef p j k.
Definition blockRows (p : vpatch) (k1 k2 : nat -> nat) (n : nat) : list (nat -> R) :=
  map (fun i => row p (k1 i)) (seq 0 n) ++ (if second then [] else map (fun i => row p (k2 i)) (seq 0 n)).
Lemma blockRows_length p k1 k2 n : length (blockRows p k1 k2 n) = (n + (if second then 0 else n))%nat.
Proof. unfold blockRows. rewrite app_length, map_length, seq_length. destruct second; [reflexivity|]. rewrite map_length, seq_length. reflexivity. Qed.
Lemma nth_map_seq {A} (f : nat -> A) n i d : (i < n)%nat -> nth i (map f (seq 0 n)) d = f i.
Proof. intros L. rewrite (nth_indep _ d (f 0%nat)) by (rewrite map_length, seq_length; exact L). rewrite map_nth, seq_nth by exact L. reflexivity. Qed.

Lemma block_agrees np p k1 k2 n L m (b : nat -> nat) : nth_error ps np = Some p -> (forall i, (i < n)%nat -> k1 i < vdu p * vdv p)%nat -> (forall i, (i < n)%nat -> k2 i < vdu p * vdv p)%nat ->
  (length L + (n + (if second then 0 else n)) <= krows m)%nat -> (forall i, b i = length L + n + i)%nat -> agrees m L ->
  exists m', foldM (fun m i => foldM (fun m j => do m <- put ps np j (k1 i) (length L + i) m; if second then Ok m else put ps np j (k2 i) (b i) m) (seq 0 6) m) (seq 0 n) m = Ok m' /\ krows m' = krows m /\ agrees m' (L ++ blockRows p k1 k2 n).
Proof.
  intros E K1 K2 R B A. destruct (block np p k1 k2 n (length L) (length L + n) m b E K1 K2) as (m' & F & RM & V); [lia|intros S; rewrite S in R; lia|lia|exact B|].
  exists m'. split; [exact F|]. split; [exact RM|]. intros r j Lj. rewrite (V r j Lj). unfold blockRows.
  destruct (Nat.leb_spec (length L) r) as [G|G]; cbn [andb].
  - rewrite (app_nth2 L) by lia. destruct (Nat.ltb_spec r (length L + n)) as [G'|G'].
    + rewrite app_nth1 by (rewrite map_length, seq_length; lia). rewrite nth_map_seq by lia. reflexivity.
    + rewrite app_nth2 by (rewrite map_length, seq_length; lia). rewrite map_length, seq_length. replace (length L + n <=? r)%nat with true by lia. cbn [andb]. destruct second; cbn [negb andb].
      * rewrite A by exact Lj. rewrite nth_overflow by lia. destruct (r - length L - n)%nat; reflexivity.
      * destruct (Nat.ltb_spec r (length L + n + n)) as [G2|G2].
        -- rewrite nth_map_seq by lia. unfold row. f_equal. f_equal. lia.
        -- rewrite A by exact Lj. rewrite nth_overflow by lia. rewrite nth_overflow by (rewrite map_length, seq_length; lia). reflexivity.
  - replace (length L + n <=? r)%nat with false by lia. cbn [andb]. rewrite andb_false_r. rewrite app_nth1 by exact G. apply A. exact Lj.
Qed.

(** ** The rows of a side and of a patch between interfaces *)
Definition sideBlock (b : bside) (p : vpatch) : list (nat -> R) :=
  if (bsside b <? 3)%nat then blockRows p (fun i => i * bsu b)%nat (fun i => i * bsu b + 1)%nat (bsv b) else blockRows p (fun i => i) (fun i => i + bsu b)%nat (bsu b).
Definition wellb (b : bside) (p : vpatch) : Prop := nth_error ps (bspatch b) = Some p /\ bsu b = vdu p /\ bsv b = vdv p /\ (2 <= vdu p)%nat /\ (2 <= vdv p)%nat.

Lemma sideRows_ok b p m L : wellb b p -> (length L + length (sideBlock b p) <= krows m)%nat -> agrees m L ->
  exists m', sideRows second ps (m, length L) b = Ok (m', length (L ++ sideBlock b p)) /\ krows m' = krows m /\ agrees m' (L ++ sideBlock b p).
Proof.
  intros (E & U & V & U2 & V2) R A. unfold sideRows, sideBlock in *. destruct (bsside b <? 3)%nat.
  - rewrite blockRows_length in R. destruct (block_agrees (bspatch b) p (fun i => i * bsu b)%nat (fun i => i * bsu b + 1)%nat (bsv b) L m (fun i => bsv b + length L + i)%nat E) as (m' & F & RM & A'); [intros i Li; rewrite U; nia|intros i Li; rewrite U; nia|exact R|intros; lia|exact A|].
    exists m'. rewrite F. cbn [bind]. rewrite app_length, blockRows_length. split; [f_equal; f_equal; lia|]. split; assumption.
  - rewrite blockRows_length in R. destruct (block_agrees (bspatch b) p (fun i => i)%nat (fun i => i + bsu b)%nat (bsu b) L m (fun i => bsu b + length L + i)%nat E) as (m' & F & RM & A'); [intros i Li; nia|intros i Li; nia|exact R|intros; lia|exact A|].
    exists m'. rewrite F. cbn [bind]. rewrite app_length, blockRows_length. split; [f_equal; f_equal; lia|]. split; assumption.
Qed.
End Rows.

Lemma single_row ps np p k r m : nth_error ps np = Some p -> (k < vdu p * vdv p)%nat -> (r < krows m)%nat ->
  exists m', foldM (fun m j => do q <- Ok np; put ps q j k r m) (seq 0 6) m = Ok m' /\ krows m' = krows m /\
    forall r' j, (j < 6)%nat -> kval m' r' j = if (r' =? r)%nat then vcoef p j k else kval m r' j.
Proof.
  intros E K R. destruct (two_rows true ps np p k k r (S r) m E K K R ltac:(discriminate) ltac:(lia)) as (m' & F & RM & V). exists m'. split; [|split; [exact RM|]].
  - rewrite <- F. clear. generalize (seq 0 6). intros l. revert m. induction l as [|j l IH]; intros m; [reflexivity|]. cbn [foldM bind]. destruct (put ps np j k r m); cbn [bind]; [apply IH|reflexivity].
  - intros r' j L. rewrite (V r' j L). cbn [negb andb]. reflexivity.
Qed.

Section Matrix.
Context (second : bool) (ps : list vpatch).
Definition ifaceBlock (p : vpatch) : list (nat -> R) :=
  if second then [row p 0] else blockRows second p (fun i => i) (fun i => i + vdu p)%nat 2.

Lemma ifaceRows_ok ids index np p du q pq m L : nth_error ps np = Some p -> du = vdu p -> (2 <= vdu p)%nat -> (2 <= vdv p)%nat ->
  (second = true -> nth_error ids index = Some q /\ nth_error ps q = Some pq /\ (2 <= vdu pq)%nat /\ (2 <= vdv pq)%nat) ->
  let p' := if second then pq else p in
  (length L + length (ifaceBlock p') <= krows m)%nat -> agrees m L ->
  exists m', ifaceRows second ps ids (m, length L) (index, (np, du)) = Ok (m', length (L ++ ifaceBlock p')) /\ krows m' = krows m /\ agrees m' (L ++ ifaceBlock p').
Proof.
  intros E D U V Q p' R A. unfold ifaceRows, ifaceBlock, p' in *. destruct second eqn:SC.
  - destruct (Q eq_refl) as (Q1 & Q2 & Q3 & Q4). cbn [length] in R. destruct (single_row ps q pq 0 (length L) m Q2 ltac:(nia) ltac:(lia)) as (m' & F & RM & VV).
    exists m'. unfold vget. rewrite Q1. change (match Some q with Some a => Ok a | None => Err end) with (Ok q). rewrite F. cbn [bind]. rewrite app_length. cbn [length]. split; [reflexivity|]. split; [exact RM|].
    intros r j Lj. rewrite (VV r j Lj). destruct (Nat.eqb_spec r (length L)) as [->|NE]; [rewrite app_nth2, Nat.sub_diag by lia; reflexivity|]. rewrite (A r j Lj). destruct (le_lt_dec (length L) r) as [G|G].
    + rewrite (app_nth2 L) by lia. rewrite nth_overflow by lia. rewrite nth_overflow by (cbn; lia). reflexivity.
    + rewrite app_nth1 by exact G. reflexivity.
  - rewrite blockRows_length in R. subst du.
    destruct (block_agrees false ps np p (fun i => i) (fun i => i + vdu p)%nat 2 L m (fun i => length L + 2 + i)%nat E) as (m' & F & RM & A'); [intros i Li; nia|intros i Li; nia|exact R|intros; lia|exact A|].
    exists m'. cbv beta iota zeta in F. rewrite F. cbn [bind]. rewrite app_length, blockRows_length. split; [reflexivity|]. split; assumption.
Qed.
End Matrix.

(** ** What is collected *)
Definition sidesE (e : nat * vpatch) : list bside :=
  (if vin3 (snd e) then [] else [mkBS 3 (fst e) (vdu (snd e)) (vdv (snd e))]) ++ (if vin1 (snd e) then [] else [mkBS 1 (fst e) (vdu (snd e)) (vdv (snd e))]).
Definition ifE (e : nat * vpatch) : list (nat * nat) := if vin1 (snd e) && vin3 (snd e) then [(fst e, vdu (snd e))] else [].
Definition slen (second : bool) (b : bside) : nat := let n := if (bsside b <? 3)%nat then bsv b else bsu b in (n + (if second then 0 else n))%nat.

Lemma collectFrom_eq second ps : forall np c, let c' := collectFrom second ps np c in
  cside c' = cside c ++ flat_map sidesE (combine (seq np (length ps)) ps) /\ ciface c' = ciface c ++ flat_map ifE (combine (seq np (length ps)) ps) /\
  (cdim c' + list_sum (map (slen second) (cside c)) + length (ciface c) * (if second then 1 else 4) = cdim c + list_sum (map (slen second) (cside c')) + length (ciface c') * (if second then 1 else 4))%nat.
Proof.
  induction ps as [|p ps IH]; intros np c; cbn [collectFrom length seq combine flat_map].
  - rewrite !app_nil_r. repeat split; reflexivity.
  - specialize (IH (S np) (collectPatch second c np p)). cbv zeta in IH. destruct IH as (A & B & D). cbv zeta.
    assert (CP : cside (collectPatch second c np p) = cside c ++ sidesE (np, p) /\ ciface (collectPatch second c np p) = ciface c ++ ifE (np, p) /\
      (cdim (collectPatch second c np p) = cdim c + list_sum (map (slen second) (sidesE (np, p))) + length (ifE (np, p)) * (if second then 1 else 4))%nat).
    { unfold collectPatch, sidesE, ifE, slen. cbn [fst snd]. destruct (vin3 p), (vin1 p), second; cbn; rewrite ?app_nil_r, <- ?app_assoc; cbn; repeat split; try reflexivity; lia. }
    destruct CP as (P1 & P2 & P3). split; [rewrite A, P1, app_assoc; reflexivity|]. split; [rewrite B, P2, app_assoc; reflexivity|].
    rewrite P1, P2, P3, map_app, list_sum_app, app_length in D. lia.
Qed.
Lemma collect_eq second ps : cside (collect second ps) = flat_map sidesE (combine (seq 0 (length ps)) ps) /\ ciface (collect second ps) = flat_map ifE (combine (seq 0 (length ps)) ps) /\
  (cdim (collect second ps) = list_sum (map (slen second) (cside (collect second ps))) + length (ciface (collect second ps)) * (if second then 1 else 4))%nat.
Proof.
  unfold collect. destruct (collectFrom_eq second ps 0 (mkCol [] [] 0)) as (A & B & D). cbn in A, B, D. split; [exact A|]. split; [exact B|]. rewrite !Nat.add_0_r in D. exact D.
Qed.
Lemma in_enum {A} (l : list A) : forall a i x, In (i, x) (combine (seq a (length l)) l) <-> (a <= i)%nat /\ nth_error l (i - a) = Some x.
Proof.
  induction l as [|y l IH]; intros a i x; cbn [length seq combine In].
  - split; [tauto|]. intros (_ & H). destruct (i - a)%nat; discriminate.
  - rewrite IH. split.
    + intros [H|(H1 & H2)].
      * injection H as -> ->. rewrite Nat.sub_diag. split; [lia|reflexivity].
      * split; [lia|]. replace (i - a)%nat with (S (i - S a)) by lia. exact H2.
    + intros (H1 & H2). destruct (Nat.eq_dec a i) as [->|NE].
      * left. rewrite Nat.sub_diag in H2. cbn in H2. congruence.
      * right. split; [lia|]. replace (i - a)%nat with (S (i - S a)) in H2 by lia. exact H2.
Qed.
Lemma in_sides second ps b : In b (cside (collect second ps)) <-> exists np p, nth_error ps np = Some p /\ ((vin3 p = false /\ b = mkBS 3 np (vdu p) (vdv p)) \/ (vin1 p = false /\ b = mkBS 1 np (vdu p) (vdv p))).
Proof.
  destruct (collect_eq second ps) as (-> & _ & _). rewrite in_flat_map. split.
  - intros ((np & p) & I & J). apply in_enum in I. destruct I as (_ & I). rewrite Nat.sub_0_r in I. exists np, p. split; [exact I|]. unfold sidesE in J. cbn [fst snd] in J. apply in_app_or in J. destruct J as [J|J].
    + left. destruct (vin3 p); [destruct J|]. destruct J as [J|[]]. auto.
    + right. destruct (vin1 p); [destruct J|]. destruct J as [J|[]]. auto.
  - intros (np & p & I & J). exists (np, p). split; [apply in_enum; rewrite Nat.sub_0_r; split; [lia|exact I]|]. unfold sidesE. cbn [fst snd]. apply in_or_app. destruct J as [(E & ->)|(E & ->)]; rewrite E; [left|right]; left; reflexivity.
Qed.
Lemma in_ifaces second ps e : In e (ciface (collect second ps)) <-> exists p, nth_error ps (fst e) = Some p /\ vin1 p = true /\ vin3 p = true /\ snd e = vdu p.
Proof.
  destruct (collect_eq second ps) as (_ & -> & _). rewrite in_flat_map. split.
  - intros ((np & p) & I & J). apply in_enum in I. destruct I as (_ & I). rewrite Nat.sub_0_r in I. unfold ifE in J. cbn [fst snd] in J. destruct (vin1 p) eqn:E1; [|destruct J]. destruct (vin3 p) eqn:E3; [|destruct J]. destruct J as [<-|[]]. exists p. auto.
  - intros (p & I & E1 & E3 & D). exists (fst e, p). split; [apply in_enum; rewrite Nat.sub_0_r; split; [lia|exact I]|]. unfold ifE. cbn [fst snd]. rewrite E1, E3. left. rewrite <- D. symmetry. apply surjective_pairing.
Qed.
Lemma flat_map_enum_length {A B} (f : nat * A -> list B) (g : A -> nat) (l : list A) : (forall i x, length (f (i, x)) = g x) -> forall a, length (flat_map f (combine (seq a (length l)) l)) = list_sum (map g l).
Proof. intros H. induction l as [|x l IH]; intros a; [reflexivity|]. cbn [length seq combine flat_map map]. rewrite app_length, H, IH. reflexivity. Qed.
Lemma sides_length second ps : length (cside (collect second ps)) = boundary_sides ps.
Proof.
  destruct (collect_eq second ps) as (-> & _ & _). rewrite (flat_map_enum_length sidesE (fun p => ((if vin3 p then 0 else 1) + (if vin1 p then 0 else 1))%nat)).
  - unfold boundary_sides. induction ps as [|p ps IH]; [reflexivity|]. cbn [map filter]. change (list_sum (?a :: ?l)) with (a + list_sum l)%nat. destruct (vin3 p), (vin1 p); cbn [negb length]; lia.
  - intros i p. unfold sidesE. cbn [fst snd]. destruct (vin3 p), (vin1 p); reflexivity.
Qed.
Lemma ifaces_length second ps : length (ciface (collect second ps)) = between ps.
Proof.
  destruct (collect_eq second ps) as (_ & -> & _). rewrite (flat_map_enum_length ifE (fun p => if vin1 p && vin3 p then 1 else 0)%nat).
  - unfold between. induction ps as [|p ps IH]; [reflexivity|]. cbn [map filter]. change (list_sum (?a :: ?l)) with (a + list_sum l)%nat. destruct (vin1 p && vin3 p); cbn [length]; lia.
  - intros i p. unfold ifE. cbn [fst snd]. destruct (vin1 p && vin3 p); reflexivity.
Qed.

(** ** The theorem *)
Lemma flat_map_snoc {A B} (f : A -> list B) l x : flat_map f (l ++ [x]) = flat_map f l ++ f x.
Proof. induction l as [|y l IH]; cbn [app flat_map]; [rewrite app_nil_r; reflexivity|]. rewrite IH, app_assoc. reflexivity. Qed.
Lemma flat_map_len_prefix {A B} (f : A -> list B) l x m : (length (flat_map f l) + length (f x) <= length (flat_map f (l ++ x :: m)))%nat.
Proof. rewrite flat_map_app. cbn [flat_map]. rewrite !app_length. lia. Qed.
Lemma foldM_split {A S} (P : S -> list A -> Prop) (f : S -> A -> res S) : forall l done s, P s done -> (forall x pre post s, done ++ l = pre ++ x :: post -> In x l -> P s pre -> exists s', f s x = Ok s' /\ P s' (pre ++ [x])) -> exists s', foldM f l s = Ok s' /\ P s' (done ++ l).
Proof.
  induction l as [|x l IH]; intros done s H0 H; cbn [foldM].
  - exists s. rewrite app_nil_r. auto.
  - destruct (H x done l s eq_refl (or_introl eq_refl) H0) as (s' & E & P'). rewrite E. cbn [bind]. destruct (IH (done ++ [x]) s' P') as (s'' & E' & P'').
    + intros y pre post t EQ J. rewrite <- app_assoc in EQ. apply (H y pre post t EQ). right. exact J.
    + exists s''. split; [exact E'|]. rewrite <- app_assoc in P''. exact P''.
Qed.

Section All.
Context (second : bool) (ps : list vpatch).
Context (SZ : forall p, In p ps -> (2 <= vdu p)%nat /\ (2 <= vdv p)%nat).
Definition dp : vpatch := mkVP 0 0 (fun _ _ => 0) false false.
Definition pat (np : nat) : vpatch := nth np ps dp.
Lemma pat_ok np p : nth_error ps np = Some p -> pat np = p.
Proof. intros E. apply nth_error_nth. exact E. Qed.
Definition sB (b : bside) : list (nat -> R) := sideBlock second b (pat (bspatch b)).
Let sides := cside (collect second ps).
Let ifaces := ciface (collect second ps).
Let ids := map bspatch sides.
Definition iB (e : nat * (nat * nat)) : list (nat -> R) := ifaceBlock second (if second then pat (nth (fst e) (map bspatch (cside (collect second ps))) 0%nat) else pat (fst (snd e))).

Lemma sB_length b : length (sB b) = slen second b.
Proof. unfold sB, sideBlock, slen. destruct (bsside b <? 3)%nat; apply blockRows_length. Qed.
Lemma iB_length e : length (iB e) = (if second then 1 else 4)%nat.
Proof. unfold iB, ifaceBlock. destruct second; [reflexivity|]. rewrite blockRows_length. reflexivity. Qed.
Lemma len_sides l : length (flat_map sB l) = list_sum (map (slen second) l).
Proof. induction l as [|b l IH]; [reflexivity|]. cbn [flat_map map]. rewrite app_length, sB_length, IH. reflexivity. Qed.
Lemma len_ifaces l : length (flat_map iB l) = (length l * (if second then 1 else 4))%nat.
Proof. induction l as [|b l IH]; [reflexivity|]. cbn [flat_map length]. rewrite app_length, iB_length, IH. lia. Qed.
Lemma well b : In b sides -> wellb ps b (pat (bspatch b)).
Proof.
  intros I. apply in_sides in I. destruct I as (np & p & E & J). destruct (SZ p (nth_error_In _ _ E)) as (U & V). unfold wellb. destruct J as [(_ & ->)|(_ & ->)]; cbn [bspatch bsu bsv]; rewrite (pat_ok _ _ E); auto.
Qed.

Definition allRows : list (nat -> R) := flat_map sB sides ++ flat_map iB (combine (seq 0 (length ifaces)) ifaces).
Lemma coefs_ok : second = false \/ (between ps <= boundary_sides ps)%nat ->
  exists M, coefsCorner second ps = Ok M /\ krows M = length allRows /\ agrees M allRows.
Proof.
  intros OKS. unfold coefsCorner. fold sides ifaces. cbv zeta.
  assert (DIM : cdim (collect second ps) = length allRows).
  { unfold allRows. rewrite app_length, len_sides, len_ifaces. destruct (collect_eq second ps) as (_ & _ & ->). rewrite combine_length, seq_length, Nat.min_id. reflexivity. }
  rewrite DIM.
  destruct (foldM_split (fun st done => let '(m, s) := st in s = length (flat_map sB done) /\ krows m = length allRows /\ agrees m (flat_map sB done)) (sideRows second ps) sides [] (mkKM (length allRows) (fun _ _ => 0), 0%nat)) as ((m1 & s1) & F1 & S1 & R1 & A1).
  { split; [reflexivity|]. split; [reflexivity|]. intros r j L. destruct r; reflexivity. }
  { intros b pre post (m & s) EQ I (S & R & A). subst s. cbn [app] in EQ.
    destruct (sideRows_ok second ps b (pat (bspatch b)) m (flat_map sB pre) (well b I)) as (m' & F & RM & A').
    - rewrite R. unfold allRows. rewrite app_length. fold (sB b). pose proof (flat_map_len_prefix sB pre b post) as X. rewrite <- EQ in X. lia.
    - exact A.
    - exists (m', length (flat_map sB pre ++ sideBlock second b (pat (bspatch b)))). split; [exact F|]. rewrite flat_map_snoc. fold (sB b). split; [reflexivity|]. split; [lia|exact A']. }
  cbn [app] in S1, A1. rewrite F1. cbn [bind]. set (ei := combine (seq 0 (length ifaces)) ifaces) in *.
  destruct (foldM_split (fun st done => let '(m, s) := st in s = length (flat_map sB sides ++ flat_map iB done) /\ krows m = length allRows /\ agrees m (flat_map sB sides ++ flat_map iB done)) (ifaceRows second ps ids) ei [] (m1, s1)) as ((m2 & s2) & F2 & S2 & R2 & A2).
  { cbn [flat_map]. rewrite app_nil_r. auto. }
  { intros e pre post (m & s) EQ I (S & R & A). subst s. cbn [app] in EQ. destruct e as (ix & (np & du)). pose proof I as I'. apply in_enum in I'. destruct I' as (_ & I'). rewrite Nat.sub_0_r in I'. pose proof (nth_error_In _ _ I') as I2. apply in_ifaces in I2. destruct I2 as (p & E & E1 & E3 & D). cbn [fst snd] in E, D. destruct (SZ p (nth_error_In _ _ E)) as (U & V).
    destruct (ifaceRows_ok second ps ids ix np p du (nth ix ids 0%nat) (pat (nth ix ids 0%nat)) m (flat_map sB sides ++ flat_map iB pre) E D U V) as (m' & F & RM & A').
    - intros SC. destruct OKS as [O|O]; [congruence|]. assert (LI : (ix < length ids)%nat).
      { unfold ids. rewrite map_length. unfold sides. rewrite sides_length. rewrite <- (ifaces_length second ps) in O. fold ifaces in O. assert (nth_error ifaces ix <> None) as X by congruence. apply nth_error_Some in X. lia. }
      split; [apply nth_error_nth'; exact LI|]. assert (IB : In (nth ix ids 0%nat) ids) by (apply nth_In; exact LI). unfold ids in IB at 2. apply in_map_iff in IB. destruct IB as (b & EB & IB). destruct (well b IB) as (W1 & _ & _ & W2 & W3). rewrite <- EB. auto.
    - rewrite R, app_length. unfold allRows. rewrite app_length. fold ei. pose proof (flat_map_len_prefix iB pre (ix, (np, du)) post) as X. rewrite <- EQ in X. rewrite iB_length in X. replace (length (ifaceBlock second (if second then pat (nth ix ids 0%nat) else p))) with (length (iB (ix, (np, du)))) by (unfold iB; cbn [fst snd]; rewrite (pat_ok _ _ E); reflexivity). rewrite iB_length. lia.
    - exact A.
    - eexists. split; [exact F|]. rewrite flat_map_snoc. assert (IE : iB (ix, (np, du)) = ifaceBlock second (if second then pat (nth ix ids 0%nat) else p)) by (unfold iB; cbn [fst snd]; rewrite (pat_ok _ _ E); reflexivity). rewrite IE, app_assoc. split; [reflexivity|]. split; [lia|exact A']. }
  cbn [app] in A2. fold ids. rewrite F2. cbn [bind fst]. exists m2. split; [reflexivity|]. split; [exact R2|exact A2].
Qed.

Definition vanishes (x : nat -> R) (r : nat -> R) : Prop := sumTo 6 (fun j => r j * x j) = 0.
Lemma kernel_rows M x : krows M = length allRows -> agrees M allRows -> (in_kernel M x <-> Forall (vanishes x) allRows).
Proof.
  intros R A. unfold in_kernel. rewrite R, Forall_forall. split.
  - intros H r I. destruct (In_nth _ _ (fun _ => 0) I) as (i & L & <-). specialize (H i L). unfold vanishes. etransitivity; [|exact H]. apply sumTo_ext. intros j Lj. rewrite A by exact Lj. reflexivity.
  - intros H i L. specialize (H (nth i allRows (fun _ => 0)) (nth_In _ _ L)). unfold vanishes in H. etransitivity; [|exact H]. apply sumTo_ext. intros j Lj. rewrite A by exact Lj. reflexivity.
Qed.
Lemma blockRows_vanish x p k1 k2 n : Forall (vanishes x) (blockRows second p k1 k2 n) <-> forall i, (i < n)%nat -> comb p x (k1 i) = 0 /\ (second = false -> comb p x (k2 i) = 0).
Proof.
  unfold blockRows. rewrite Forall_app, !Forall_forall. split.
  - intros (H1 & H2) i L. split; [apply (H1 (row p (k1 i))); apply in_map_iff; exists i; split; [reflexivity|apply in_seq; lia]|]. intros S. rewrite S in H2. apply (H2 (row p (k2 i))). apply in_map_iff. exists i. split; [reflexivity|apply in_seq; lia].
  - intros H. split; intros r I.
    + apply in_map_iff in I. destruct I as (i & <- & I). apply in_seq in I. apply (H i); lia.
    + destruct second eqn:S; [destruct I|]. apply in_map_iff in I. destruct I as (i & <- & I). apply in_seq in I. apply (H i); [lia|reflexivity].
Qed.
Lemma iB_vanish x ix np p du : second = false -> nth_error ps np = Some p ->
  (Forall (vanishes x) (iB (ix, (np, du))) <-> comb p x 0 = 0 /\ comb p x 1 = 0 /\ comb p x (vdu p) = 0 /\ comb p x (1 + vdu p) = 0).
Proof.
  intros S E. unfold iB, ifaceBlock. cbn [fst snd]. rewrite (pat_ok _ _ E). replace (if second then [row (if second then _ else p) 0] else blockRows second (if second then _ else p) (fun i => i) (fun i => (i + vdu (if second then _ else p))%nat) 2) with (blockRows second p (fun i => i) (fun i => (i + vdu p)%nat) 2) by (rewrite S; reflexivity).
  rewrite blockRows_vanish. split.
  - intros H. destruct (H 0%nat ltac:(lia)) as (A & B). destruct (H 1%nat ltac:(lia)) as (C & D). specialize (B S). specialize (D S). auto.
  - intros (A & B & C & D) i L. destruct i as [|[|i]]; [| |lia]; split; auto.
Qed.
Lemma rows_meet x : (second = false \/ (between ps <= boundary_sides ps)%nat) -> (Forall (vanishes x) allRows <-> forall p, In p ps -> meets second p x).
Proof.
  intros OKS. unfold allRows. rewrite Forall_app, !Forall_flat_map, !Forall_forall. split.
  - intros (H1 & H2) p I. destruct (In_nth_error _ _ I) as (np & E). split; [|split].
    + intros W i L. assert (J : In (mkBS 3 np (vdu p) (vdv p)) sides) by (apply in_sides; exists np, p; auto). specialize (H1 _ J). unfold sB, sideBlock in H1. cbn [bsside bspatch bsu Nat.ltb Nat.leb] in H1. rewrite (pat_ok _ _ E) in H1. rewrite blockRows_vanish in H1. apply (H1 i L).
    + intros W i L. assert (J : In (mkBS 1 np (vdu p) (vdv p)) sides) by (apply in_sides; exists np, p; auto). specialize (H1 _ J). unfold sB, sideBlock in H1. cbn [bsside bspatch bsu bsv Nat.ltb Nat.leb] in H1. rewrite (pat_ok _ _ E) in H1. rewrite blockRows_vanish in H1. apply (H1 i L).
    + intros W1 W3 SC. assert (J : In (np, vdu p) ifaces) by (apply in_ifaces; exists p; auto). destruct (In_nth_error _ _ J) as (ix & N). assert (J2 : In (ix, (np, vdu p)) (combine (seq 0 (length ifaces)) ifaces)) by (apply in_enum; rewrite Nat.sub_0_r; split; [lia|exact N]). specialize (H2 _ J2). rewrite (iB_vanish x ix np p (vdu p)) in H2 by assumption. exact H2.
  - intros H. split.
    + intros b I. pose proof I as I'. apply in_sides in I'. destruct I' as (np & p & E & J). destruct (H p (nth_error_In _ _ E)) as (M3 & M1 & _). unfold sB, sideBlock. destruct J as [(V & ->)|(V & ->)]; cbn [bsside bspatch bsu bsv Nat.ltb Nat.leb]; rewrite (pat_ok _ _ E), blockRows_vanish; auto.
    + intros (ix & (np & du)) I. apply in_enum in I. destruct I as (_ & I). rewrite Nat.sub_0_r in I. destruct (Bool.bool_dec second false) as [SC|SC].
      * pose proof (nth_error_In _ _ I) as I2. apply in_ifaces in I2. destruct I2 as (p & E & E1 & E3 & D). cbn [fst snd] in E. apply (iB_vanish x ix np p du SC E). apply (H p (nth_error_In _ _ E)); assumption.
      * destruct OKS as [O|O]; [congruence|]. assert (ST : second = true) by (destruct second; congruence). assert (LI : (ix < length ids)%nat).
        { unfold ids. rewrite map_length. unfold sides. rewrite sides_length. rewrite <- (ifaces_length second ps) in O. assert (nth_error ifaces ix <> None) as X by congruence. apply nth_error_Some in X. unfold ifaces in X. lia. }
        assert (IB : In (nth ix ids 0%nat) ids) by (apply nth_In; exact LI). unfold ids in IB at 2. apply in_map_iff in IB. destruct IB as (b & EB & IB). apply in_sides in IB. destruct IB as (nq & q & E & J). destruct (SZ q (nth_error_In _ _ E)) as (U & V). destruct (H q (nth_error_In _ _ E)) as (M3 & M1 & _).
        assert (Z : comb q x 0 = 0). { destruct J as [(W & _)|(W & _)]; [apply (M3 W 0%nat); lia|apply (M1 W 0%nat); lia]. }
        assert (PQ : pat (nth ix ids 0%nat) = q). { rewrite <- EB. destruct J as [(_ & ->)|(_ & ->)]; apply pat_ok; exact E. }
        unfold iB, ifaceBlock. cbn [fst snd]. fold sides ids. rewrite PQ. replace (if second then [row (if second then q else pat np) 0] else _) with [row q 0] by (rewrite ST; reflexivity). constructor; [exact Z|constructor].
Qed.
Lemma matrix_pf : second = false \/ (between ps <= boundary_sides ps)%nat ->
  exists M, coefsCorner second ps = Ok M /\ forall x, in_kernel M x <-> forall p, In p ps -> meets second p x.
Proof.
  intros O. destruct (coefs_ok O) as (M & F & R & A). exists M. split; [exact F|]. intros x. rewrite (kernel_rows M x R A). apply rows_meet. exact O.
Qed.
End All.
Theorem kern_matrix_pf : forall second ps, (forall p, In p ps -> (2 <= vdu p)%nat /\ (2 <= vdv p)%nat) -> second = false \/ (between ps <= boundary_sides ps)%nat ->
  exists M, coefsCorner second ps = Ok M /\ forall x, in_kernel M x <-> forall p, In p ps -> meets second p x.
Proof. intros second ps. apply matrix_pf. Qed.
