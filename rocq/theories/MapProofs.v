(** Proofs for C31, C32, C33. *)
From Verif Require Import Common ListLemmas TopoModel MapModel MapSpec.
Open Scope Z_scope.

(** ** C31 *)

Lemma foldM_seq_sum {A} (bs : list A) (w : A -> Z) p acc :
  (p <= length bs)%nat ->
  foldM (fun index i => do b <- vget bs i; Ok (index + w b)) (seq 0 p) acc = Ok (acc + sumZ (map w (firstn p bs))).
Proof.
  induction p as [|p IH]; intros H; [cbn; f_equal; lia|].
  rewrite seq_S, foldM_app, IH by lia. cbn [bind foldM plus].
  assert (E : exists b, nth_error bs p = Some b). { destruct (nth_error bs p) eqn:E; [eauto|]. apply nth_error_None in E. lia. }
  destruct E as (b & E). unfold vget. rewrite E. cbn [bind].
  assert (F : firstn (S p) bs = firstn p bs ++ [b]).
  { clear IH H. revert p E. induction bs as [|a r IHr]; intros [|p] E; try discriminate; cbn in *; [congruence|]. f_equal. now apply IHr. }
  rewrite F, map_app. f_equal. cbn [map]. generalize (w b), (map w (firstn p bs)). intros z l.
  enough (H0 : sumZ (l ++ [z]) = sumZ l + z) by lia. induction l as [|x l IHl]; cbn; lia.
Qed.

Lemma before_sum bs p : before bs p = sumZ (map mb_size (firstn p bs)).
Proof. revert bs. induction p as [|p IH]; intros [|b r]; cbn; try reflexivity. now rewrite IH. Qed.

Lemma firstLocalIndex_ok bs p : (p <= length bs)%nat -> firstLocalIndex bs p = Ok (before bs p).
Proof. intros H. unfold firstLocalIndex. rewrite foldM_seq_sum by exact H. now rewrite before_sum. Qed.

Lemma foldM_err {A S} (f : S -> A -> res S) l1 x l2 s : (forall s', f s' x = Err) -> foldM f (l1 ++ x :: l2) s = Err.
Proof.
  intros H. rewrite foldM_app. destruct (foldM f l1 s); [|reflexivity]. cbn. now rewrite H.
Qed.

Lemma firstLocalIndex_err bs p : (length bs < p)%nat -> firstLocalIndex bs p = Err.
Proof.
  intros H. unfold firstLocalIndex.
  assert (E : seq 0 p = seq 0 (length bs) ++ length bs :: seq (S (length bs)) (p - S (length bs))).
  { replace p with (length bs + S (p - S (length bs)))%nat at 1 by lia. now rewrite seq_app. }
  rewrite E. apply foldM_err. intros s. unfold vget. rewrite (proj2 (nth_error_None bs (length bs))) by lia. reflexivity.
Qed.

Lemma foldM_seq_diff (bs : list mbase) p acc :
  (p <= length bs)%nat ->
  foldM (fun index i => do b <- vget bs i; Ok (index - mb_size b)) (seq 0 p) acc = Ok (acc - before bs p).
Proof.
  intros H. transitivity (foldM (fun index i => do b <- vget bs i; Ok (index + (fun b => - mb_size b) b)) (seq 0 p) acc); [reflexivity|].
  rewrite (foldM_seq_sum bs (fun b => - mb_size b)) by exact H. f_equal. rewrite before_sum.
  clear H. generalize (firstn p bs). intros l. induction l as [|b l IH]; cbn; lia.
Qed.

Lemma getPatch_le bs l : (getPatch bs l <= length bs)%nat.
Proof. revert l. induction bs as [|b r IH]; intros l; cbn; [lia|]. destruct (mb_size b <=? l); [|lia]. specialize (IH (l - mb_size b)). lia. Qed.

Lemma getPatchIndex_ok bs l : getPatchIndex bs l = Ok (l - before bs (getPatch bs l)).
Proof. unfold getPatchIndex. apply foldM_seq_diff, getPatch_le. Qed.

Lemma getPatch_spec bs : (forall b, In b bs -> 0 <= mb_size b) -> forall p k b,
  nth_error bs p = Some b -> 0 <= k < mb_size b -> getPatch bs (before bs p + k) = p.
Proof.
  induction bs as [|b0 r IH]; intros P p k b E K; [destruct p; discriminate|].
  destruct p as [|p].
  - injection E as <-. cbn. destruct (Z.leb_spec (mb_size b0) k); [unfold mb_size in *; lia|reflexivity].
  - cbn [before getPatch]. cbn in E.
    assert (B : 0 <= before r p).
    { clear -P. assert (Q : forall b, In b r -> 0 <= mb_size b) by (intros; apply P; now right). clear P.
      revert p. induction r as [|b r IH]; intros [|p]; cbn; try lia.
      pose proof (Q b (or_introl eq_refl)). unfold mb_size in H. specialize (IH (fun x Hx => Q x (or_intror Hx)) p). lia. }
    fold (mb_size b0). destruct (Z.leb_spec (mb_size b0) (mb_size b0 + before r p + k)); [|lia].
    f_equal. replace (mb_size b0 + before r p + k - mb_size b0) with (before r p + k) by lia.
    apply (IH (fun x Hx => P x (or_intror Hx)) p k b E K).
Qed.

Lemma getPatch_inv bs : forall l, 0 <= l -> (getPatch bs l < length bs)%nat ->
  exists b, nth_error bs (getPatch bs l) = Some b /\ 0 <= l - before bs (getPatch bs l) < mb_size b.
Proof.
  induction bs as [|b0 r IH]; intros l L H; [cbn in H; lia|].
  cbn [getPatch] in *. destruct (Z.leb_spec (mb_size b0) l).
  - destruct (IH (l - mb_size b0)) as (b & E & K); [lia|cbn in H; lia|]. exists b. split; [exact E|].
    cbn [before]. fold (mb_size b0). lia.
  - exists b0. split; [reflexivity|]. cbn. lia.
Qed.

Lemma getPatch_end bs : (forall b, In b bs -> 0 <= mb_size b) -> forall l, 0 <= l ->
  (getPatch bs l = length bs <-> before bs (length bs) <= l).
Proof.
  induction bs as [|b0 r IH]; intros P l L; [cbn; lia|].
  cbn [getPatch length before]. fold (mb_size b0).
  destruct (Z.leb_spec (mb_size b0) l).
  - assert (I : getPatch r (l - mb_size b0) = length r <-> before r (length r) <= l - mb_size b0) by (apply IH; [intros; apply P; now right|lia]).
    lia.
  - assert (B : 0 <= before r (length r)).
    { assert (Q : forall b, In b r -> 0 <= mb_size b) by (intros; apply P; now right). clear -Q.
      induction r as [|b r IH]; cbn; [lia|]. pose proof (Q b (or_introl eq_refl)). unfold mb_size in H.
      specialize (IH (fun x Hx => Q x (or_intror Hx))). lia. }
    split; [discriminate|lia].
Qed.

Lemma nrOfLocals_before bs : nrOfLocals bs = before bs (length bs).
Proof.
  unfold nrOfLocals. assert (G : forall l acc, fold_left (fun s b => s + mb_size b) l acc = acc + before l (length l)).
  { induction l as [|b r IH]; intros acc; cbn; [lia|]. rewrite IH. unfold mb_size. lia. }
  apply (G bs 0).
Qed.

Lemma before_S bs p b : nth_error bs p = Some b -> before bs (S p) = before bs p + mb_size b.
Proof.
  revert p. induction bs as [|b0 r IH]; intros [|p] E; try discriminate.
  - injection E as ->. cbn. unfold mb_size. destruct r; cbn; lia.
  - cbn in E. cbn [before]. rewrite <- Z.add_assoc. f_equal. rewrite <- (IH p E). reflexivity.
Qed.

Theorem numbering_pf : forall bs, (forall b, In b bs -> 0 <= mb_size b) ->
  (forall p b k, nth_error bs p = Some b -> 0 <= k < mb_size b ->
     exists l f, firstLocalIndex bs p = Ok f /\ l = f + k /\ 0 <= l < nrOfLocals bs /\
       getPatch bs l = p /\ getPatchIndex bs l = Ok k) /\
  (forall l, 0 <= l < nrOfLocals bs ->
     exists b k f, nth_error bs (getPatch bs l) = Some b /\ getPatchIndex bs l = Ok k /\ 0 <= k < mb_size b /\
       firstLocalIndex bs (getPatch bs l) = Ok f /\ f + k = l) /\
  (forall p b, nth_error bs p = Some b ->
     exists f g, firstLocalIndex bs p = Ok f /\ lastLocalIndex bs p = Ok g /\ firstLocalIndex bs (S p) = Ok (g + 1) /\ g + 1 = f + mb_size b) /\
  firstLocalIndex bs 0 = Ok 0 /\ firstLocalIndex bs (length bs) = Ok (nrOfLocals bs) /\
  (forall p, (length bs < p)%nat -> firstLocalIndex bs p = Err) /\
  (forall l, nrOfLocals bs <= l -> getPatch bs l = length bs).
Proof.
  intros bs P.
  assert (POS : forall p, 0 <= before bs p).
  { intros p. rewrite before_sum. assert (Q : forall b, In b (firstn p bs) -> 0 <= mb_size b).
    { intros b Hb. apply P. rewrite <- (firstn_skipn p bs). apply in_or_app. now left. }
    induction (firstn p bs) as [|b r IH]; cbn; [lia|]. pose proof (Q b (or_introl eq_refl)). specialize (IH (fun x Hx => Q x (or_intror Hx))). lia. }
  assert (LT : forall p b, nth_error bs p = Some b -> (p < length bs)%nat) by (intros p b E; apply nth_error_Some; congruence).
  split; [|split; [|split; [|split; [|split; [|split]]]]].
  - intros p b k E K. exists (before bs p + k), (before bs p).
    pose proof (LT _ _ E). pose proof (getPatch_spec bs P p k b E K) as G. pose proof (POS p).
    split; [apply firstLocalIndex_ok; lia|]. split; [reflexivity|].
    split; [|split; [exact G|rewrite getPatchIndex_ok, G; f_equal; lia]].
    split; [lia|]. rewrite nrOfLocals_before. destruct (Z_lt_ge_dec (before bs p + k) (before bs (length bs))) as [|N]; [assumption|].
    exfalso. assert (getPatch bs (before bs p + k) = length bs) by (apply getPatch_end; [exact P|lia|lia]). lia.
  - intros l L. assert (H : (getPatch bs l < length bs)%nat).
    { pose proof (getPatch_le bs l). destruct (Nat.eq_dec (getPatch bs l) (length bs)) as [N|]; [|lia].
      rewrite nrOfLocals_before in L. apply (getPatch_end bs P) in N; lia. }
    destruct (getPatch_inv bs l) as (b & E & K); [lia|exact H|].
    exists b, (l - before bs (getPatch bs l)), (before bs (getPatch bs l)). split; [exact E|]. split; [apply getPatchIndex_ok|].
    split; [exact K|]. split; [apply firstLocalIndex_ok; lia|lia].
  - intros p b E. pose proof (LT _ _ E). exists (before bs p), (before bs p + mb_size b - 1).
    unfold lastLocalIndex. rewrite !firstLocalIndex_ok by lia. cbn [bind]. unfold vget. rewrite E. cbn [bind].
    rewrite (before_S bs p b E). split; [reflexivity|]. split; [reflexivity|]. split; [f_equal|]; lia.
  - reflexivity.
  - rewrite firstLocalIndex_ok by lia. now rewrite nrOfLocals_before.
  - apply firstLocalIndex_err.
  - intros l L. rewrite nrOfLocals_before in L. apply getPatch_end; [exact P| |exact L]. specialize (POS (length bs)). lia.
Qed.

(** ** C32 *)

(** all points in the order of the loop: the first coordinate runs fastest *)
Fixpoint enum (lengths : list Z) : list (list Z) :=
  match lengths with
  | [] => [[]]
  | l :: ls => flat_map (fun ps => map (fun x => x :: ps) (zrange 0 (l + 1))) (enum ls)
  end.

(** the points that come after [p] (including it) *)
Fixpoint rest_from (lengths p : list Z) : list (list Z) :=
  match lengths, p with
  | l :: ls, x :: ps => map (fun y => y :: ps) (zrange x (l + 1)) ++ flat_map (fun qs => map (fun y => y :: qs) (zrange 0 (l + 1))) (tl (rest_from ls ps))
  | _, _ => [[]]
  end.

Lemma zrange_in a b x : In x (zrange a b) <-> a <= x < b.
Proof.
  unfold zrange. rewrite in_map_iff. split.
  - intros (k & <- & K). apply in_seq in K. lia.
  - intros H. exists (Z.to_nat (x - a)). split; [lia|]. apply in_seq. lia.
Qed.

Lemma NoDup_map_inj {A B} (f : A -> B) l : (forall x y, In x l -> In y l -> f x = f y -> x = y) -> NoDup l -> NoDup (map f l).
Proof.
  intros I. induction 1 as [|x l N D IH]; cbn; constructor.
  - intros H. apply in_map_iff in H as (y & E & Hy). apply I in E; [subst; contradiction|now right|now left].
  - apply IH. intros y z Hy Hz. apply I; now right.
Qed.

Lemma zrange_nodup a b : NoDup (zrange a b).
Proof. unfold zrange. apply NoDup_map_inj; [intros; lia|apply seq_NoDup]. Qed.

Lemma zrange_cons a b : a < b -> zrange a b = a :: zrange (a + 1) b.
Proof.
  intros H. unfold zrange. replace (Z.to_nat (b - a)) with (S (Z.to_nat (b - (a + 1)))) by lia.
  cbn [seq map]. f_equal; [lia|]. rewrite <- seq_shift, map_map. apply map_ext. intros k. lia.
Qed.

Lemma zrange_nil a b : b <= a -> zrange a b = [].
Proof. intros H. unfold zrange. now replace (Z.to_nat (b - a)) with 0%nat by lia. Qed.

Lemma zrange_length a b : length (zrange a b) = Z.to_nat (b - a).
Proof. unfold zrange. now rewrite map_length, seq_length. Qed.

Lemma rest_from_step lengths p : in_box lengths p ->
  let '(more, q) := nextPoint lengths p in
  if more then in_box lengths q /\ rest_from lengths p = p :: rest_from lengths q
  else rest_from lengths p = [p] /\ q = map (fun _ => 0) lengths.
Proof.
  revert p. induction lengths as [|l ls IH]; intros p B; inversion B; subst.
  - cbn. split; reflexivity.
  - cbn [nextPoint]. destruct (Z.leb_spec (y + 1) l).
    + split; [constructor; [lia|assumption]|]. cbn [rest_from]. rewrite (zrange_cons y) by lia. reflexivity.
    + specialize (IH l' H3). destruct (nextPoint ls l') as (more, q). destruct more.
      * destruct IH as (Bq & R). split; [constructor; [lia|assumption]|].
        cbn [rest_from]. rewrite R. assert (y = l) by lia. subst y. rewrite (zrange_cons l (l + 1)) by lia. rewrite (zrange_nil (l + 1)) by lia.
        cbn [map app tl]. f_equal. destruct (rest_from ls q) eqn:E.
        { exfalso. clear -E Bq. destruct ls, q; try discriminate; inversion Bq. cbn in E. rewrite (zrange_cons z0) in E by lia. discriminate. }
        assert (l0 = q).
        { clear -E Bq. revert q l0 l1 E Bq. destruct ls as [|l ls]; intros [|x q] a b E Bq; inversion Bq; subst; [now injection E|].
          cbn in E. rewrite (zrange_cons x) in E by lia. now injection E. }
        subst. reflexivity.
      * destruct IH as (R & ->). split; [|reflexivity].
        cbn [rest_from]. rewrite R. assert (y = l) by lia. subst y. rewrite (zrange_cons l (l + 1)) by lia. rewrite (zrange_nil (l + 1)) by lia. reflexivity.
Qed.

Lemma blockPoints_rest lengths : forall fuel p, in_box lengths p -> (length (rest_from lengths p) <= fuel)%nat ->
  blockPoints fuel lengths p = Ok (rest_from lengths p).
Proof.
  induction fuel as [|f IH]; intros p B F.
  - pose proof (rest_from_step lengths p B) as R. destruct (nextPoint lengths p) as ([|] & q); destruct R as (R & R2).
    + rewrite R2 in F. cbn in F. lia.
    + rewrite R in F. cbn in F. lia.
  - cbn [blockPoints]. pose proof (rest_from_step lengths p B) as R. destruct (nextPoint lengths p) as ([|] & q).
    + destruct R as (Bq & R). rewrite R in F |- *. cbn in F. rewrite IH by (assumption || lia). reflexivity.
    + destruct R as (R & _). now rewrite R.
Qed.

Lemma enum_zero lengths : (forall l, In l lengths -> 0 <= l) -> enum lengths = rest_from lengths (map (fun _ => 0) lengths) /\ in_box lengths (map (fun _ => 0) lengths).
Proof.
  induction lengths as [|l ls IH]; intros P; [split; [reflexivity|constructor]|].
  destruct IH as (E & B); [intros; apply P; now right|]. pose proof (P l (or_introl eq_refl)). split; [|constructor; [lia|exact B]].
  cbn [enum rest_from map]. rewrite E.
  assert (H0 : exists r, rest_from ls (map (fun _ => 0) ls) = map (fun _ => 0) ls :: r).
  { pose proof (rest_from_step ls _ B) as R. destruct (nextPoint ls _) as ([|] & q); destruct R as (R1 & R2); eauto. }
  destruct H0 as (r & ->). reflexivity.
Qed.

Lemma enum_in lengths p : In p (enum lengths) <-> in_box lengths p.
Proof.
  revert p. induction lengths as [|l ls IH]; intros p; cbn [enum].
  - split; [intros [<-|[]]; constructor|intros H; inversion H; now left].
  - rewrite in_flat_map. split.
    + intros (ps & Hps & H). apply in_map_iff in H as (x & <- & Hx). apply zrange_in in Hx. constructor; [lia|now apply IH].
    + intros H. inversion H; subst. exists l'. split; [now apply IH|]. apply in_map_iff. exists y. split; [reflexivity|]. apply zrange_in. lia.
Qed.

Lemma NoDup_flat_map_disj {A B} (f : A -> list B) l :
  NoDup l -> (forall a, In a l -> NoDup (f a)) -> (forall a b x, In a l -> In b l -> In x (f a) -> In x (f b) -> a = b) -> NoDup (flat_map f l).
Proof.
  induction 1 as [|a l N D IH]; intros H1 H2; cbn; [constructor|].
  apply NoDup_app_iff. split; [apply H1; now left|]. split.
  - apply IH; [intros; apply H1; now right|intros b c x Hb Hc; apply H2; now right].
  - intros x Hx H. apply in_flat_map in H as (b & Hb & Hxb). assert (a = b) by (eapply H2; [now left|now right|exact Hx|exact Hxb]). subst. contradiction.
Qed.

Lemma enum_nodup lengths : NoDup (enum lengths).
Proof.
  induction lengths as [|l ls IH]; cbn; [repeat constructor; intros []|].
  apply NoDup_flat_map_disj; [exact IH| |].
  - intros ps _. apply NoDup_map_inj; [intros x y _ _ E; now injection E|apply zrange_nodup].
  - intros a b x _ _ Ha Hb. apply in_map_iff in Ha as (? & <- & _). apply in_map_iff in Hb as (? & E & _). now injection E.
Qed.

Lemma enum_length lengths : length (enum lengths) = box_size lengths.
Proof.
  induction lengths as [|l ls IH]; [reflexivity|]. cbn [enum box_size]. rewrite <- IH. clear IH.
  induction (enum ls) as [|ps r IH]; cbn; [lia|]. rewrite app_length, map_length, zrange_length, IH. replace (l + 1 - 0) with (l + 1) by lia. lia.
Qed.

Theorem block_points_pf : forall lengths, (forall l, In l lengths -> 0 <= l) ->
  exists pts, blockPoints (box_size lengths) lengths (map (fun _ => 0) lengths) = Ok pts /\
    NoDup pts /\ length pts = box_size lengths /\ (forall p, In p pts <-> in_box lengths p) /\
    nth_error pts 0 = Some (map (fun _ => 0) lengths).
Proof.
  intros lengths P. destruct (enum_zero lengths P) as (E & B). exists (enum lengths). split.
  - rewrite blockPoints_rest; [now rewrite E|exact B|]. rewrite <- E, enum_length. lia.
  - split; [apply enum_nodup|]. split; [apply enum_length|]. split; [intros; apply enum_in|].
    rewrite E. pose proof (rest_from_step lengths _ B) as R. destruct (nextPoint lengths _) as ([|] & q); destruct R as (R1 & R2).
    + now rewrite R2.
    + now rewrite R1.
Qed.

(** ** C33 *)

Lemma loop2_in j0 j1 i0 i1 f i j a : In ((i, j), a) (loop2 j0 j1 i0 i1 f) <-> j0 <= j < j1 /\ i0 <= i < i1 /\ f i j = Some a.
Proof.
  unfold loop2. rewrite in_flat_map. split.
  - intros (j' & Hj & H). apply in_flat_map in H as (i' & Hi & H). apply zrange_in in Hj, Hi.
    destruct (f i' j') eqn:E; [|destruct H]. destruct H as [H|[]]. injection H as -> -> ->. auto.
  - intros (Hj & Hi & E). exists j. split; [now apply zrange_in|]. apply in_flat_map. exists i. split; [now apply zrange_in|]. rewrite E. now left.
Qed.

Lemma map_flat_map {A B C} (g : B -> C) (f : A -> list B) l : map g (flat_map f l) = flat_map (fun a => map g (f a)) l.
Proof. induction l as [|a l IH]; cbn; [reflexivity|]. now rewrite map_app, IH. Qed.

Lemma loop2_nodup j0 j1 i0 i1 f : NoDup (map fst (loop2 j0 j1 i0 i1 f)).
Proof.
  unfold loop2. rewrite map_flat_map. apply NoDup_flat_map_disj; [apply zrange_nodup| |].
  - intros j _. rewrite map_flat_map. apply NoDup_flat_map_disj; [apply zrange_nodup| |].
    + intros i _. destruct (f i j); cbn; repeat constructor; intros [].
    + intros a b x _ _ Ha Hb. destruct (f a j), (f b j); cbn in *; try contradiction. destruct Ha as [<-|[]], Hb as [E|[]]. now injection E.
  - intros a b x _ _ Ha Hb. rewrite map_flat_map in Ha, Hb. apply in_flat_map in Ha as (i & _ & Ha), Hb as (k & _ & Hb).
    destruct (f i a), (f k b); cbn in *; try contradiction. destruct Ha as [<-|[]], Hb as [E|[]]. now injection E.
Qed.
