(** Proofs for C84. *)
From Coq Require Import Reals Lra ZifyBool FunctionalExtensionality.
From Verif Require Import Common ListLemmas TopoModel RefModel RefSpec ThbModel ThbSpec.
Open Scope R_scope.

(** ** boxes *)
Lemma scale_go add fac n : (n mod 5 = 0)%nat -> forall bs k, (k mod 5 = 0)%nat -> (k + length (flat_map flat bs) <= n)%nat ->
  map (fun iz : nat * Z => let (i, z) := iz in if (i <? n)%nat then (if (i mod 5 =? 0)%nat then (z + add)%Z else (z * fac)%Z) else z) (combine (seq k (length (flat_map flat bs))) (flat_map flat bs)) =
  flat_map flat (map (fun b => mkBox (blev b + add) (blo0 b * fac) (blo1 b * fac) (bup0 b * fac) (bup1 b * fac)) bs).
Proof.
  intros N. induction bs as [|b bs IH]; intros k K L; [reflexivity|]. cbn [flat_map flat map app length seq combine] in L |- *.
  assert (Q : forall j, (j < 5)%nat -> ((k + j) mod 5 = j)%nat). { intros j J. rewrite Nat.add_mod, K by lia. cbn [Nat.add]. rewrite Nat.mod_mod by lia. apply Nat.mod_small. lia. }
  replace (S k) with (k + 1)%nat by lia. replace (S (k + 1)) with (k + 2)%nat by lia. replace (S (k + 2)) with (k + 3)%nat by lia. replace (S (k + 3)) with (k + 4)%nat by lia. replace (S (k + 4)) with (k + 5)%nat by lia.
  rewrite K, !Q by lia. cbn [Nat.eqb]. repeat (rewrite (proj2 (Nat.ltb_lt _ n)) by lia). cbn [blev blo0 blo1 bup0 bup1]. do 5 f_equal. apply IH; [|lia].
  rewrite Nat.add_mod, K by lia. reflexivity.
Qed.
Lemma flat_len bs : length (flat_map flat bs) = (5 * length bs)%nat.
Proof. induction bs as [|b bs IH]; [reflexivity|]. cbn [flat_map flat app length]. rewrite IH. lia. Qed.
Lemma scale_ok add fac bs : scaleBoxes add fac (flat_map flat bs) = flat_map flat (map (fun b => mkBox (blev b + add) (blo0 b * fac) (blo1 b * fac) (bup0 b * fac) (bup1 b * fac)) bs).
Proof.
  unfold scaleBoxes. assert (E : (5 * (length (flat_map flat bs) / 5) = length (flat_map flat bs))%nat).
  { rewrite flat_len, (Nat.mul_comm 5 (length bs)), Nat.div_mul by lia. lia. }
  rewrite E. apply scale_go; [|reflexivity|lia]. rewrite flat_len, Nat.mul_comm. apply Nat.mod_mul. lia.
Qed.
Lemma at_level_up l x a : (0 <= a)%Z -> at_level (l + a) (x * 2 ^ a) = at_level l x.
Proof.
  intros P. unfold at_level. rewrite mult_IZR. replace (IZR (2 ^ a)) with (powerRZ 2 a).
  - replace (- (l + a))%Z with (- l + - a)%Z by lia. rewrite powerRZ_add by lra. assert (K : powerRZ 2 a * powerRZ 2 (- a) = 1) by (rewrite <- powerRZ_add by lra; replace (a + - a)%Z with 0%Z by lia; reflexivity). transitivity (IZR x * powerRZ 2 (- l) * (powerRZ 2 a * powerRZ 2 (- a))); [ring|rewrite K; ring].
  - rewrite <- (Z2Nat.id a P). generalize (Z.to_nat a) as k. intros k. rewrite <- pow_powerRZ. rewrite pow_IZR. reflexivity.
Qed.
Theorem boxes_pf : forall bs,
  (exists bs', scaleBoxes 1 2 (flat_map flat bs) = flat_map flat bs' /\ map region bs' = map region bs /\ map blev bs' = map (fun b => (blev b + 1)%Z) bs) /\
  (exists bs', scaleBoxes 2 4 (flat_map flat bs) = flat_map flat bs' /\ map region bs' = map region bs /\ map blev bs' = map (fun b => (blev b + 2)%Z) bs).
Proof.
  intros bs. assert (G : forall a, (0 <= a)%Z -> exists bs', scaleBoxes a (2 ^ a) (flat_map flat bs) = flat_map flat bs' /\ map region bs' = map region bs /\ map blev bs' = map (fun b => (blev b + a)%Z) bs).
  { intros a P. eexists. split; [apply scale_ok|]. rewrite !map_map. split; [|reflexivity]. apply map_ext. intros b. unfold region. cbn [blev blo0 blo1 bup0 bup1]. now rewrite !at_level_up. }
  split; [exact (G 1%Z ltac:(lia))|exact (G 2%Z ltac:(lia))].
Qed.

(** ** sums *)
Lemma rs_ext n f g : (forall i, (i < n)%nat -> f i = g i) -> rsumTo n f = rsumTo n g.
Proof. induction n as [|n IH]; intros H; [reflexivity|]. cbn. rewrite IH, (H n) by (intros; try apply H; lia). reflexivity. Qed.
Lemma rs_0 n f : (forall i, (i < n)%nat -> f i = 0) -> rsumTo n f = 0.
Proof. induction n as [|n IH]; intros H; [reflexivity|]. cbn. rewrite IH, (H n) by (intros; try apply H; lia). ring. Qed.
Lemma rs_app n m f : rsumTo (n + m) f = rsumTo n f + rsumTo m (fun i => f (n + i)%nat).
Proof. induction m as [|m IH]; [rewrite Nat.add_0_r; cbn; ring|]. rewrite Nat.add_succ_r. cbn [rsumTo]. rewrite IH. ring. Qed.
Lemma rs_add n f g : rsumTo n (fun i => f i + g i) = rsumTo n f + rsumTo n g.
Proof. induction n as [|n IH]; cbn; [ring|]. rewrite IH. ring. Qed.
Lemma rs_scal n a f : rsumTo n (fun i => a * f i) = a * rsumTo n f.
Proof. induction n as [|n IH]; cbn; [ring|]. rewrite IH. ring. Qed.
Lemma rs_swap n m f : rsumTo n (fun i => rsumTo m (fun j => f i j)) = rsumTo m (fun j => rsumTo n (fun i => f i j)).
Proof. induction n as [|n IH]; cbn; [symmetry; now apply rs_0|]. rewrite IH, <- rs_add. reflexivity. Qed.

(** ** entries *)
Lemma coeff_cons t l r c : spcoeff (t :: l) r c = if (fst (fst t) =? r)%nat && (snd (fst t) =? c)%nat then snd t + spcoeff l r c else spcoeff l r c.
Proof. reflexivity. Qed.
Lemma coeff_app l k r c : spcoeff (l ++ k) r c = spcoeff l r c + spcoeff k r c.
Proof. induction l as [|t l IH]; cbn [app]; [cbn; ring|]. rewrite !coeff_cons, IH. destruct (_ && _); ring. Qed.
Lemma coeff_out l r c : (forall t, In t l -> fst (fst t) <> r \/ snd (fst t) <> c) -> spcoeff l r c = 0.
Proof. induction l as [|t l IH]; intros H; [reflexivity|]. rewrite coeff_cons. pose proof (H t (or_introl eq_refl)). replace (_ && _) with false by lia. apply IH. intros u I. apply H. now right. Qed.
Definition shift (rows cols : nat) (t : nat * nat * R) : nat * nat * R := ((fst (fst t) + rows)%nat, (snd (fst t) + cols)%nat, snd t).
Lemma coeff_shift l rows cols r c : spcoeff (map (shift rows cols) l) (rows + r) (cols + c) = spcoeff l r c.
Proof. induction l as [|t l IH]; [reflexivity|]. cbn [map]. rewrite !coeff_cons, IH. unfold shift. cbn [fst snd]. replace (fst (fst t) + rows =? rows + r)%nat with (fst (fst t) =? r)%nat by lia. replace (snd (fst t) + cols =? cols + c)%nat with (snd (fst t) =? c)%nat by lia. reflexivity. Qed.

(** ** the loop *)
Section Refine.
Context {B X : Type}.
Variable refineT : B -> list Z -> res (B * spm).
Variable size : B -> nat.
Variable value : B -> nat -> X -> R.
Notation transfers := (transfers size value).
Notation sum_of := (sum_of size).
Notation first_of := (first_of size).
Notation spline := (spline size value).

(** the triplets of blocks one after the other *)
Fixpoint blocks (rows cols : nat) (ms : list spm) : list (nat * nat * R) :=
  match ms with [] => [] | m :: r => map (shift rows cols) (sptrip m) ++ blocks (rows + sprows m) (cols + spcols m) r end.
Lemma loop_ok add fac boxes : forall bs k done rows cols trip,
  (forall i b, nth_error bs i = Some b -> exists el r, nth_error boxes (k + i) = Some el /\ refineT b (scaleBoxes add fac el) = Ok r) ->
  exists out, foldM (thbStep B refineT add fac boxes) (combine (seq k (length bs)) bs) (done, rows, cols, trip) =
     Ok (done ++ map fst out, (rows + sumN (map (fun o => sprows (snd o)) out))%nat, (cols + sumN (map (fun o => spcols (snd o)) out))%nat, trip ++ blocks rows cols (map snd out)) /\
    length out = length bs /\ forall i b, nth_error bs i = Some b -> exists el r, nth_error boxes (k + i) = Some el /\ refineT b (scaleBoxes add fac el) = Ok r /\ nth_error out i = Some r.
Proof.
  induction bs as [|b bs IH]; intros k done rows cols trip H.
  - exists []. cbn. rewrite !app_nil_r, !Nat.add_0_r. split; [reflexivity|]. split; [reflexivity|]. intros [|i] b E; discriminate.
  - destruct (H 0%nat b eq_refl) as (el & r & E & F). rewrite Nat.add_0_r in E.
    destruct (IH (S k) (done ++ [fst r]) (rows + sprows (snd r))%nat (cols + spcols (snd r))%nat (trip ++ map (shift rows cols) (sptrip (snd r)))) as (out & O & L & P).
    { intros i b' E'. destruct (H (S i) b' E') as (el' & r' & X1 & X2). exists el', r'. split; [|exact X2]. now replace (S k + i)%nat with (k + S i)%nat by lia. }
    exists (r :: out). split; [|split].
    + cbn [length seq combine foldM]. unfold thbStep at 1. cbn [fst snd]. unfold vget. rewrite E. cbn [bind]. rewrite F. cbn [bind]. refine (eq_trans O _). cbn [map sumN fold_right blocks]. rewrite <- !app_assoc. cbn [app].
      do 2 f_equal. { f_equal; [f_equal|]; unfold sumN; cbn [map fold_right]; lia. }
    + cbn. now rewrite L.
    + intros [|i] b' E'; [injection E' as <-; exists el, r; rewrite Nat.add_0_r; auto|]. destruct (P i b' E') as (el' & r' & X1 & X2 & X3). exists el', r'. replace (k + S i)%nat with (S k + i)%nat by lia. auto.
Qed.
Lemma blocks_in ms : (forall m, In m ms -> inside m) -> forall rows cols t, In t (blocks rows cols ms) ->
  (rows <= fst (fst t) < rows + sumN (map sprows ms))%nat /\ (cols <= snd (fst t) < cols + sumN (map spcols ms))%nat.
Proof.
  induction ms as [|m ms IH]; intros IN rows cols t I; [destruct I|]. cbn [blocks] in I. unfold sumN in *. cbn [map fold_right]. apply in_app_or in I as [I|I].
  - apply in_map_iff in I as (u & <- & U). destruct (IN m (or_introl eq_refl) u U). cbn. lia.
  - pose proof (IH (fun m' M => IN m' (or_intror M)) _ _ _ I). lia.
Qed.
(** the entry belongs to one block or vanishes *)
Lemma blocks_apply ms : (forall m, In m ms -> inside m) -> forall rows cols p m i c, nth_error ms p = Some m -> (i < sprows m)%nat ->
  rsumTo (cols + sumN (map spcols ms)) (fun j => spcoeff (blocks rows cols ms) (rows + sumN (map sprows (firstn p ms)) + i) j * c j) = apply m (fun j => c (cols + sumN (map spcols (firstn p ms)) + j)%nat) i.
Proof.
  induction ms as [|m0 ms IH]; intros IN rows cols p m i c E Li; [destruct p; discriminate|].
  assert (IN' : forall m, In m ms -> inside m) by (intros m' M; apply IN; now right). destruct p as [|p].
  - injection E as <-. cbn [firstn map blocks]. change (sumN (@nil nat)) with 0%nat. rewrite !Nat.add_0_r. replace (sumN (spcols m0 :: map spcols ms)) with (spcols m0 + sumN (map spcols ms))%nat by reflexivity.
    rewrite Nat.add_assoc, rs_app, (rs_app cols). rewrite (rs_0 cols), (rs_0 (sumN _)).
    + unfold apply, entries. rewrite Rplus_0_l, Rplus_0_r. apply rs_ext. intros j J. rewrite coeff_app, coeff_shift, (coeff_out (blocks _ _ _)); [ring|].
      intros t T. pose proof (blocks_in ms IN' _ _ _ T). lia.
    + intros j J. rewrite coeff_app, !coeff_out; [ring| |].
      * intros t T. pose proof (blocks_in ms IN' _ _ _ T). lia.
      * intros t T. apply in_map_iff in T as (u & <- & U). destruct (IN m0 (or_introl eq_refl) u U). cbn. lia.
    + intros j J. rewrite coeff_app, !coeff_out; [ring| |].
      * intros t T. pose proof (blocks_in ms IN' _ _ _ T). lia.
      * intros t T. apply in_map_iff in T as (u & <- & U). cbn. lia.
  - cbn [nth_error] in E. cbn [firstn map blocks]. replace (sumN (spcols m0 :: map spcols ms)) with (spcols m0 + sumN (map spcols ms))%nat by reflexivity.
    replace (sumN (sprows m0 :: map sprows (firstn p ms))) with (sprows m0 + sumN (map sprows (firstn p ms)))%nat by reflexivity. replace (sumN (spcols m0 :: map spcols (firstn p ms))) with (spcols m0 + sumN (map spcols (firstn p ms)))%nat by reflexivity.
    rewrite !Nat.add_assoc. rewrite <- (IH IN' (rows + sprows m0)%nat (cols + spcols m0)%nat p m i c E Li). apply rs_ext. intros j J. rewrite coeff_app, (coeff_out (map _ _)); [ring|].
    intros t T. apply in_map_iff in T as (u & <- & U). destruct (IN m0 (or_introl eq_refl) u U). cbn. lia.
Qed.

Theorem make_pf : forall add fac bases boxes,
  (forall p b, nth_error bases p = Some b -> exists el b' m, nth_error boxes p = Some el /\ refineT b (scaleBoxes add fac el) = Ok (b', m) /\ transfers b b' m) ->
  exists fine T, makeTHB B refineT add fac bases boxes = Ok (fine, T) /\ length fine = length bases /\
    (forall p b el, nth_error bases p = Some b -> nth_error boxes p = Some el -> exists b' m, nth_error fine p = Some b' /\ refineT b (scaleBoxes add fac el) = Ok (b', m)) /\
    sprows T = sum_of fine /\ spcols T = sum_of bases /\ inside T /\
    (forall c p x, on_patch size value fine (apply T c) p x = on_patch size value bases c p x) /\
    (forall A r p x, on_patch size value fine (times_tr A T r) p x = on_patch size value bases (A r) p x).
Proof.
  intros add fac bases boxes H.
  destruct (loop_ok add fac boxes bases 0 [] 0 0 []) as (out & O & L & P).
  { intros i b E. destruct (H i b E) as (el & b' & m & X1 & X2 & _). exists el, (b', m). auto. }
  assert (TR : forall p b o, nth_error bases p = Some b -> nth_error out p = Some o -> transfers b (fst o) (snd o)).
  { intros p b o E1 E2. destruct (H p b E1) as (el & b' & m & X1 & X2 & X3). destruct (P p b E1) as (el' & r & Y1 & Y2 & Y3). cbn [Nat.add] in Y1. rewrite X1 in Y1. injection Y1 as <-. rewrite X2 in Y2. injection Y2 as <-. rewrite E2 in Y3. injection Y3 as ->. exact X3. }
  assert (IN : forall m, In m (map snd out) -> inside m).
  { intros m M. apply in_map_iff in M as (o & <- & M). apply In_nth_error in M as (p & M). destruct (nth_error bases p) as [b|] eqn:E; [destruct (TR p b o E M) as (_ & _ & I & _); exact I|]. apply nth_error_None in E. assert (p < length out)%nat by (apply nth_error_Some; congruence). lia. }
  assert (SZ : forall k, map sprows (firstn k (map snd out)) = map size (firstn k (map fst out)) /\ map spcols (firstn k (map snd out)) = map size (firstn k bases)).
  { clear -TR L. revert bases TR L. induction out as [|o out IH]; intros [|b bs] TR L [|k]; try discriminate L; try (split; reflexivity). cbn [map firstn].
    destruct (TR 0%nat b o eq_refl eq_refl) as (E1 & E2 & _). destruct (IH bs (fun p => TR (S p)) ltac:(cbn in L; lia) k) as (F1 & F2). rewrite E1, E2, F1, F2. split; reflexivity. }
  assert (SR : sumN (map sprows (map snd out)) = sum_of (map fst out) /\ sumN (map spcols (map snd out)) = sum_of bases).
  { destruct (SZ (length out)) as (E1 & E2). unfold ThbSpec.sum_of. rewrite <- (firstn_all (map snd out)), <- (firstn_all (map fst out)), !map_length. rewrite E1, E2. split; [reflexivity|]. rewrite L, firstn_all. reflexivity. }
  destruct SR as (SR & SC).
  set (T := mkSpm (sum_of (map fst out)) (sum_of bases) (blocks 0 0 (map snd out))).
  assert (AP : forall c p x, on_patch size value (map fst out) (apply T c) p x = on_patch size value bases c p x).
  { intros c p x. unfold on_patch. rewrite nth_error_map. destruct (nth_error bases p) as [b|] eqn:E.
    - destruct (P p b E) as (el & r & _ & _ & E3). rewrite E3. cbn [option_map]. f_equal. destruct (TR p b r E E3) as (R1 & R2 & _ & R4). rewrite <- R4. unfold ThbSpec.spline. apply rs_ext. intros i Li. f_equal.
      unfold ThbSpec.first_of. destruct (SZ p) as (Z1 & Z2). rewrite <- Z1, <- Z2. unfold apply at 1, entries, T. cbn [spcols sptrip]. rewrite <- SC.
      assert (E4 : nth_error (map snd out) p = Some (snd r)) by (rewrite nth_error_map, E3; reflexivity).
      refine (eq_trans _ (blocks_apply (map snd out) IN 0 0 p (snd r) i c E4 ltac:(lia))). reflexivity.
    - destruct (nth_error out p) as [o|] eqn:E3; [|reflexivity]. apply nth_error_None in E. assert (p < length out)%nat by (apply nth_error_Some; congruence). lia. }
  exists (map fst out), T. split; [|split; [|split; [|split; [reflexivity|split; [reflexivity|split; [|split; [exact AP|]]]]]]].
  - unfold makeTHB. rewrite O. cbn [bind app Nat.add]. unfold fromTriplets. replace (forallb _ _) with true.
    + cbn [ensure bind]. unfold T. rewrite <- SR, <- SC, !map_map. reflexivity.
    + symmetry. apply forallb_forall. intros t I. pose proof (blocks_in _ IN _ _ _ I) as Q. rewrite !map_map in Q. lia.
  - now rewrite map_length.
  - intros p b el E1 E2. destruct (P p b E1) as (el' & r & Y1 & Y2 & Y3). cbn [Nat.add] in Y1. rewrite E2 in Y1. injection Y1 as <-. exists (fst r), (snd r). rewrite nth_error_map, Y3. split; [reflexivity|]. rewrite Y2. now destruct r.
  - intros t I. cbn [T sprows spcols sptrip] in *. pose proof (blocks_in _ IN _ _ _ I) as Q. rewrite SR, SC in Q. lia.
  - intros A r p x. rewrite <- AP. f_equal. extensionality i. unfold times_tr, apply. apply rs_ext. intros j _. ring.
Qed.
End Refine.

(** ** sums of columns *)
Theorem columns_pf : forall (m : spm) (A : nat -> nat -> R) nr, (forall i, (i < sprows m)%nat -> rsumTo (spcols m) (entries m i) = 1) -> (forall j, (j < spcols m)%nat -> rsumTo nr (fun r => A r j) = 1) ->
  forall i, (i < sprows m)%nat -> rsumTo nr (fun r => times_tr A m r i) = 1.
Proof.
  intros m A nr HR HC i Li. unfold times_tr. rewrite rs_swap. rewrite <- (HR i Li). apply rs_ext. intros j J. transitivity (entries m i j * rsumTo nr (fun r => A r j)); [|rewrite (HC j J); ring]. rewrite <- rs_scal. apply rs_ext. intros. ring.
Qed.

(** ** _initBasis *)
Theorem init_basis_pf : forall B (refineT : B -> list Z -> res (B * spm)) bases boxes rs, initBasis B refineT bases boxes = Ok rs ->
  length rs = length bases /\ forall p b, nth_error bases p = Some b -> exists el r, nth_error boxes p = Some el /\ nth_error rs p = Some r /\ refineT b (scaleBoxes 1 2 el) = Ok r.
Proof.
  intros B refineT bases boxes. unfold initBasis. assert (G : forall bs k rs, mapM (fun pb : nat * B => do el <- vget boxes (fst pb); refineT (snd pb) (scaleBoxes 1 2 el)) (combine (seq k (length bs)) bs) = Ok rs ->
    length rs = length bs /\ forall p b, nth_error bs p = Some b -> exists el r, nth_error boxes (k + p) = Some el /\ nth_error rs p = Some r /\ refineT b (scaleBoxes 1 2 el) = Ok r).
  { induction bs as [|b bs IH]; intros k rs E; cbn in E.
    - injection E as <-. split; [reflexivity|]. intros [|p] b' Q; discriminate.
    - unfold vget at 1 in E. destruct (nth_error boxes k) as [el|] eqn:EB; [|discriminate]. cbn [bind] in E. destruct (refineT b (scaleBoxes 1 2 el)) as [r|] eqn:ER; [|discriminate]. cbn [bind] in E. destruct (mapM _ _) as [rs'|] eqn:EM; [|discriminate]. cbn [bind] in E. injection E as <-.
      destruct (IH (S k) rs' EM) as (L & P). split; [cbn; now rewrite L|]. intros [|p] b' Q.
      + injection Q as <-. exists el, r. rewrite Nat.add_0_r. auto.
      + destruct (P p b' Q) as (el' & r' & X1 & X2 & X3). exists el', r'. replace (k + S p)%nat with (S k + p)%nat by lia. auto. }
  intros rs E. exact (G bases 0%nat rs E).
Qed.

(** ** _initTHB *)
Lemma init_fold {A} (f : A -> A) bs : forall acc, fold_left (fun acc b => match fst b with KTensor => acc ++ [f (snd b)] | KThb => acc ++ [snd b] | KOther => acc end) bs acc =
  acc ++ flat_map (fun b : bkind * A => match fst b with KTensor => [f (snd b)] | KThb => [snd b] | KOther => [] end) bs.
Proof. induction bs as [|[k a] bs IH]; intros acc; cbn; [now rewrite app_nil_r|]. rewrite IH. destruct k; cbn; rewrite <- ?app_assoc; reflexivity. Qed.
Theorem init_pf : forall A (f : A -> A) bs, (forall b, In b bs -> fst b <> KOther) ->
  initTHB f bs = initTHBac f bs /\ length (initTHB f bs) = length bs /\ forall p k a, nth_error bs p = Some (k, a) -> nth_error (initTHB f bs) p = Some (match k with KTensor => f a | _ => a end).
Proof.
  intros A f bs H. assert (E : initTHB f bs = initTHBac f bs).
  { unfold initTHB, initTHBac. rewrite init_fold. cbn [app]. induction bs as [|[k a] bs IH]; [reflexivity|]. cbn. rewrite IH by (intros b I; apply H; now right). pose proof (H (k, a) (or_introl eq_refl)) as Q. destruct k; [reflexivity|reflexivity|now destruct Q]. }
  split; [exact E|]. rewrite E. unfold initTHBac. split; [apply map_length|]. intros p k a Q. rewrite nth_error_map, Q. cbn. now destruct k.
Qed.
Theorem init_refuted_pf : exists (bs : list (bkind * nat)) f, nth_error bs 1 = Some (KTensor, 20%nat) /\ nth_error (initTHB f bs) 0 = Some 21%nat /\ nth_error (initTHB f bs) 1 = None.
Proof. exists [(KOther, 10%nat); (KTensor, 20%nat)], S. repeat split. Qed.

(** ** sums of rows *)
Lemma locate ms : forall i, (i < sumN (map sprows ms))%nat -> exists p m k, nth_error ms p = Some m /\ (k < sprows m)%nat /\ i = (sumN (map sprows (firstn p ms)) + k)%nat.
Proof.
  induction ms as [|m ms IH]; intros i L; [cbn in L; lia|]. change (sumN (map sprows (m :: ms))) with (sprows m + sumN (map sprows ms))%nat in L. destruct (Nat.lt_ge_cases i (sprows m)) as [Q|Q].
  - exists 0%nat, m, i. repeat split; [exact Q].
  - destruct (IH (i - sprows m)%nat ltac:(lia)) as (p & m' & k & E1 & E2 & E3). exists (S p), m', k. split; [exact E1|]. split; [exact E2|]. cbn [firstn map]. change (sumN (sprows m :: map sprows (firstn p ms))) with (sprows m + sumN (map sprows (firstn p ms)))%nat. lia.
Qed.
Theorem rows_pf : forall B (refineT : B -> list Z -> res (B * spm)) add fac bases boxes,
  (forall p b, nth_error bases p = Some b -> exists el b' m, nth_error boxes p = Some el /\ refineT b (scaleBoxes add fac el) = Ok (b', m) /\ inside m /\ stochastic m) ->
  exists fine T, makeTHB B refineT add fac bases boxes = Ok (fine, T) /\ stochastic T.
Proof.
  intros B refineT add fac bases boxes H. destruct (loop_ok refineT add fac boxes bases 0 [] 0 0 []) as (out & O & L & P).
  { intros i b E. destruct (H i b E) as (el & b' & m & X1 & X2 & _). exists el, (b', m). auto. }
  assert (G : forall m, In m (map snd out) -> inside m /\ stochastic m).
  { intros m M. apply in_map_iff in M as (o & <- & M). apply In_nth_error in M as (p & M). destruct (nth_error bases p) as [b|] eqn:E.
    - destruct (H p b E) as (el & b' & m & X1 & X2 & X3). destruct (P p b E) as (el' & r & Y1 & Y2 & Y3). cbn [Nat.add] in Y1. rewrite X1 in Y1. injection Y1 as <-. rewrite X2 in Y2. injection Y2 as <-. rewrite M in Y3. injection Y3 as ->. exact X3.
    - apply nth_error_None in E. assert (p < length out)%nat by (apply nth_error_Some; congruence). lia. }
  assert (IN : forall m, In m (map snd out) -> inside m) by (intros m M; apply G, M).
  eexists. eexists. split.
  - unfold makeTHB. rewrite O. cbn [bind app Nat.add]. unfold fromTriplets. replace (forallb _ _) with true; [reflexivity|].
    symmetry. apply forallb_forall. intros t I. pose proof (blocks_in _ IN _ _ _ I) as Q. rewrite !map_map in Q. lia.
  - intros i Li. cbn [sprows spcols] in *. unfold entries. cbn [sptrip]. rewrite <- map_map with (f := snd) (g := sprows) in Li. destruct (locate _ i Li) as (p & m & k & E1 & E2 & ->).
    rewrite <- map_map with (f := snd) (g := spcols). destruct (G m ltac:(eapply nth_error_In, E1)) as (_ & ST). rewrite <- (ST k E2).
    pose proof (blocks_apply (map snd out) IN 0 0 p m k (fun _ => 1) E1 E2) as Q. cbn [Nat.add] in Q. unfold apply in Q. rewrite (rs_ext _ (entries m k) (fun j => entries m k j * 1)) by (intros; ring). rewrite <- Q. apply rs_ext. intros. ring.
Qed.

(** ** the boxes of _refBoxes *)
Theorem corner_boxes_pf : forall I nel l, exists bs, flat_map (box_of I nel) l = flat_map flat bs /\ Forall (fun b => blev b = 0%Z) bs /\ (length bs <= length l)%nat.
Proof.
  intros I nel l. induction l as [|c l (bs & E & F & L)]; [exists []; repeat split; auto|]. cbn [flat_map]. rewrite E. unfold box_of at 1. destruct (nth_error (rfdirs I) (fst c)) as [[K0 K1]|].
  - unfold box_at. match goal with |- exists _, [?a; ?b; ?c; ?d; ?e] ++ _ = _ /\ _ => exists (mkBox a b c d e :: bs) end. split; [reflexivity|]. split; [constructor; [reflexivity|exact F]|cbn; lia].
  - exists bs. split; [reflexivity|]. split; [exact F|cbn; lia].
Qed.
