(** Proofs for C82: the solution. *)
From Coq Require Import Reals Lra ZifyBool.
From Verif Require Import Common SurfGDSpec SurfGDProofs KernProofs KernProofs2 ListLemmas AsmModel AsmSpec AsmProofs AsmProofs2 BihModel BihSpec BihProofs.
Open Scope R_scope.

(** ** Combinations *)
Lemma comb_ext act v c d : (forall a, In a act -> c a = d a) -> comb act v c = comb act v d.
Proof. intros H. unfold comb. apply sumTo_ext. intros p Lp. f_equal. apply H, nth_In, Lp. Qed.
Lemma comb_add act v c d : comb act v (fun i => c i + d i) = comb act v c + comb act v d.
Proof. unfold comb. rewrite <- sumTo_add. apply sumTo_ext. intros; ring. Qed.
Lemma comb_scal act v a c : comb act v (fun i => a * c i) = a * comb act v c.
Proof. unfold comb. rewrite <- sumTo_scal. apply sumTo_ext. intros; ring. Qed.
Lemma comb_sub act v c d : comb act v (fun i => c i - d i) = comb act v c - comb act v d.
Proof. replace (comb act v c - comb act v d) with (comb act v c + (-1) * comb act v d) by ring. rewrite <- comb_scal, <- comb_add. apply comb_ext. intros; ring. Qed.
Lemma comb_single n act v d : (forall a, In a act -> (a < n)%nat) -> comb act v d = sumTo n (fun i => d i * comb act v (single i)).
Proof.
  intros A. unfold comb.
  transitivity (sumTo (length act) (fun p => sumTo n (fun i => d i * (v p * single i (nth p act 0%nat))))).
  - apply sumTo_ext. intros p Lp. set (a := nth p act 0%nat). rewrite (sumTo_single _ _ a).
    + unfold single. rewrite Nat.eqb_refl. ring.
    + apply A, nth_In, Lp.
    + intros i _ N. unfold single. replace (a =? i)%nat with false by lia. ring.
  - rewrite sumTo_swap. apply sumTo_ext. intros i _. now rewrite sumTo_scal.
Qed.
Lemma gv_single m i act v : free m i -> (forall a, In a act -> (a < msize m)%nat) -> gv m (gi m i) act v = comb act v (single i).
Proof.
  intros F A. unfold gv, comb. apply sumTo_ext. intros p Lp. rewrite Rmult_comm. f_equal. unfold hit, single. set (a := nth p act 0%nat).
  assert (X : (a < msize m)%nat) by (apply A, nth_In, Lp). destruct (mfixed m a) eqn:Fa; cbn [negb andb].
  - destruct (Nat.eqb_spec a i) as [->|]; [|reflexivity]. destruct F. congruence.
  - destruct (Nat.eqb_spec (gi m a) (gi m i)) as [E|E]; destruct (Nat.eqb_spec a i) as [E'|E']; try reflexivity.
    + exfalso. apply E'. apply (gi_inj m); [now split|exact F|exact E].
    + exfalso. apply E. now rewrite E'.
Qed.
Lemma gv_sum m sol act v : (forall a, In a act -> (a < msize m)%nat) -> sumTo (mfree m) (fun h => gv m h act v * sol h) = comb act v (coef m sol).
Proof.
  intros A. unfold gv, comb.
  transitivity (sumTo (mfree m) (fun h => sumTo (length act) (fun p => v p * (hit m act p h * sol h)))).
  - apply sumTo_ext. intros h _. rewrite Rmult_comm, <- sumTo_scal. apply sumTo_ext. intros; ring.
  - rewrite sumTo_swap. apply sumTo_ext. intros p Lp. rewrite sumTo_scal. f_equal. apply hit_sum; [exact Lp|apply A, nth_In, Lp].
Qed.

(** ** The equations *)
Definition knodes_ok (n : nat) (l : list (list nat * knode)) : Prop := forall k, In k l -> forall a, In a (fst k) -> (a < n)%nat.
Lemma jobs_nodes n l : jobs_ok n l -> knodes_ok n (jobsM l) /\ knodes_ok n (jobsR l).
Proof.
  intros O. split; intros k K a I; apply in_flat_map in K; destruct K as (j & J & K); destruct j as [e|e]; try destruct K; apply in_map_iff in K; destruct K as (q & <- & _); now apply (O _ a J).
Qed.
Definition lhs (jobs : list job) (c d : nat -> R) : R := total (fun n => kw (snd n) * (comb (fst n) (kD (snd n)) c * comb (fst n) (kD (snd n)) d)) (jobsM jobs).
Definition rhs (jobs : list job) (d : nat -> R) : R := total (fun n => kw (snd n) * (comb (fst n) (kV (snd n)) d * kf (snd n))) (jobsR jobs).

Lemma equation m elim jobs X sol c : jobs_ok (msize m) jobs -> descr m elim jobs X -> solves (mfree m) (smat X) (srhs X) sol ->
  (forall i, (i < msize m)%nat -> c i = coef m sol i + fixv m elim i) -> forall i, free m i -> lhs jobs c (single i) = rhs jobs (single i).
Proof.
  intros O (D1 & D2) H C i F. destruct (jobs_nodes _ _ O) as (OM & OR). assert (G : (gi m i < mfree m)%nat) by (apply Nat.ltb_lt; rewrite gi_free by apply F; destruct F as (_ & ->); reflexivity).
  specialize (H (gi m i) G). rewrite D1 in H. set (g := gi m i) in *.
  assert (A1 : sumTo (mfree m) (fun h => smat X g h * sol h) = total (fun n => kw (snd n) * (gv m g (fst n) (kD (snd n)) * comb (fst n) (kD (snd n)) (coef m sol))) (jobsM jobs)).
  { transitivity (sumTo (mfree m) (fun h => total (fun n => kw (snd n) * (gv m g (fst n) (kD (snd n)) * gv m h (fst n) (kD (snd n))) * sol h) (jobsM jobs))).
    - apply sumTo_ext. intros h _. rewrite D2. rewrite Rmult_comm, <- total_scal. apply total_ext. intros; ring.
    - rewrite sumTo_total. apply total_ext. intros n Hn. rewrite <- (gv_sum m sol) by now apply OM. rewrite <- Rmult_assoc, <- sumTo_scal. apply sumTo_ext. intros; ring. }
  rewrite A1 in H. unfold lhs, rhs.
  transitivity (total (fun n => kw (snd n) * (gv m g (fst n) (kD (snd n)) * comb (fst n) (kD (snd n)) (coef m sol))) (jobsM jobs) + total (fun n => kw (snd n) * (gv m g (fst n) (kD (snd n)) * comb (fst n) (kD (snd n)) (fixv m elim))) (jobsM jobs)).
  - rewrite <- total_add. apply total_ext. intros n Hn. unfold g. rewrite gv_single by (try exact F; now apply OM).
    rewrite (comb_ext (fst n) (kD (snd n)) c (fun i => coef m sol i + fixv m elim i)) by (intros a I; apply C; now apply (OM n)). rewrite comb_add. ring.
  - rewrite H. rewrite (total_ext (fun n => kw (snd n) * (comb (fst n) (kV (snd n)) (single i) * kf (snd n))) (fun n => kw (snd n) * (gv m g (fst n) (kV (snd n)) * kf (snd n)))); [ring|].
    intros n Hn. unfold g. rewrite gv_single by (try exact F; now apply OR). reflexivity.
Qed.
Lemma equation_all m jobs c : jobs_ok (msize m) jobs -> (forall i, free m i -> lhs jobs c (single i) = rhs jobs (single i)) ->
  forall d, (forall i, (i < msize m)%nat -> mfixed m i = true -> d i = 0) -> lhs jobs c d = rhs jobs d.
Proof.
  intros O H d A. destruct (jobs_nodes _ _ O) as (OM & OR).
  transitivity (sumTo (msize m) (fun i => d i * lhs jobs c (single i))).
  - unfold lhs. transitivity (sumTo (msize m) (fun i => total (fun n => d i * (kw (snd n) * (comb (fst n) (kD (snd n)) c * comb (fst n) (kD (snd n)) (single i)))) (jobsM jobs))).
    + rewrite sumTo_total. apply total_ext. intros n Hn. rewrite (comb_single (msize m) _ _ d) by now apply OM. rewrite <- Rmult_assoc, <- sumTo_scal. apply sumTo_ext. intros; ring.
    + apply sumTo_ext. intros i _. apply total_scal.
  - transitivity (sumTo (msize m) (fun i => d i * rhs jobs (single i))).
    + apply sumTo_ext. intros i Li. destruct (mfixed m i) eqn:F; [rewrite (A i Li F); ring|]. rewrite H by now split. reflexivity.
    + unfold rhs. transitivity (sumTo (msize m) (fun i => total (fun n => d i * (kw (snd n) * (comb (fst n) (kV (snd n)) (single i) * kf (snd n)))) (jobsR jobs))).
      * apply sumTo_ext. intros i _. now rewrite total_scal.
      * rewrite sumTo_total. apply total_ext. intros n Hn. rewrite (comb_single (msize m) _ _ d) by now apply OR.
        transitivity (kw (snd n) * kf (snd n) * sumTo (msize m) (fun i => d i * comb (fst n) (kV (snd n)) (single i))); [rewrite <- sumTo_scal; apply sumTo_ext; intros; ring|ring].
Qed.

(** ** The two systems in terms of the boundary and of the interior *)
Lemma flat_nil {A B} (l : list A) : flat_map (fun _ : A => @nil B) l = [].
Proof. induction l; [reflexivity|assumption]. Qed.
Lemma flat_map_map {A B C} (f : B -> list C) (g : A -> B) l : flat_map f (map g l) = flat_map (fun x => f (g x)) l.
Proof. induction l as [|a l IH]; [reflexivity|]. cbn. now rewrite IH. Qed.
Lemma total_flat {A B} (f : B -> R) (g : A -> list B) l : total f (flat_map g l) = total (fun x => total f (g x)) l.
Proof. induction l as [|a l IH]; [reflexivity|]. cbn. now rewrite total_app, IH. Qed.
Lemma total_elems {A} (conv : list nat * list A -> kelem) (w : A -> knode) (f : list nat * knode -> R) els :
  (forall e, conv e = mkKE (fst e) (map w (snd e))) ->
  total f (flat_map (fun e => map (fun k => (kact (conv e), k)) (knodes (conv e))) els) = total (fun n => f (fst n, w (snd n))) (nodes els).
Proof.
  intros H. unfold nodes. rewrite !total_flat. apply total_ext. intros e _. rewrite H. cbn [kact knodes]. rewrite map_map, !total_map. reflexivity.
Qed.

Definition lhsB (dir neu : list belem) (c d : nat -> R) : R :=
  total (fun n => bw (snd n) * (comb (fst n) (btr (snd n)) c * comb (fst n) (btr (snd n)) d)) (nodes dir) + / 100000 * total (fun n => bw (snd n) * (comb (fst n) (bdn (snd n)) c * comb (fst n) (bdn (snd n)) d)) (nodes neu).
Definition rhsB (dir neu : list belem) (d : nat -> R) : R :=
  total (fun n => bw (snd n) * (comb (fst n) (btr (snd n)) d * bg (snd n))) (nodes dir) + / 100000 * total (fun n => bw (snd n) * (comb (fst n) (bdn (snd n)) d * bgn (snd n))) (nodes neu).

Lemma proj_lhs dir neu c d : lhs (projJobs dir neu) c d = lhsB dir neu c d.
Proof.
  unfold lhs, lhsB, jobsM, projJobs. rewrite !flat_map_app, !flat_map_map, !flat_nil. cbn [app]. rewrite app_nil_r, total_app. f_equal.
  - rewrite (total_elems dirElem (fun k => mkKN (bw k) (btr k) (btr k) (bg k)) _ dir) by reflexivity. reflexivity.
  - rewrite (total_elems neuElem (fun k => mkKN (lambda * bw k) (bdn k) (bdn k) (bgn k)) _ neu) by reflexivity. rewrite <- total_scal. apply total_ext. intros n _. cbn [fst snd kw kD]. unfold lambda. field.
Qed.
Lemma proj_rhs dir neu d : rhs (projJobs dir neu) d = rhsB dir neu d.
Proof.
  unfold rhs, rhsB, jobsR, projJobs. rewrite !flat_map_app, !flat_map_map, !flat_nil. cbn [app]. rewrite total_app. f_equal.
  - rewrite (total_elems dirElem (fun k => mkKN (bw k) (btr k) (btr k) (bg k)) _ dir) by reflexivity. reflexivity.
  - rewrite (total_elems neuElem (fun k => mkKN (lambda * bw k) (bdn k) (bdn k) (bgn k)) _ neu) by reflexivity. rewrite <- total_scal. apply total_ext. intros n _. cbn [fst snd kw kV kf]. unfold lambda. field.
Qed.
Lemma bih_lhs els lap c d : lhs (bihJobs els lap) c d = bilinear els c d.
Proof.
  unfold lhs, bilinear, jobsM, bihJobs. rewrite flat_map_app, flat_map_map, flat_nil, app_nil_r.
  etransitivity; [|etransitivity; [apply (total_elems intElem (fun k => mkKN (iw k) (ilap k) (ival k) (isrc k)) (fun n => kw (snd n) * (comb (fst n) (kD (snd n)) c * comb (fst n) (kD (snd n)) d)) els); reflexivity|reflexivity]].
  f_equal. induction els as [|e els IH]; [reflexivity|]. cbn [flat_map app]. now rewrite IH.
Qed.
Lemma bih_rhs els lap d : rhs (bihJobs els lap) d = load els lap d.
Proof.
  unfold rhs, load, jobsR, bihJobs. rewrite flat_map_app, flat_map_map, total_app. f_equal.
  - etransitivity; [|etransitivity; [apply (total_elems intElem (fun k => mkKN (iw k) (ilap k) (ival k) (isrc k)) (fun n => kw (snd n) * (comb (fst n) (kV (snd n)) d * kf (snd n))) els); reflexivity|reflexivity]].
    f_equal. induction els as [|e els IH]; [reflexivity|]. cbn [flat_map app]. now rewrite IH.
  - rewrite (total_elems lapElem (fun k => mkKN (bw k) (bdn k) (bdn k) (bg k)) _ lap) by reflexivity. reflexivity.
Qed.

(** ** Existence of the coefficients *)
Lemma coefs_ok m fixed y : length fixed = (msize m - mfree m)%nat -> exists c, bihCoefs m fixed y = Ok c /\ length c = msize m /\
  forall i, (i < msize m)%nat -> nth i c 0 = coef m y i + fixv m (fun k => nth k fixed 0) i.
Proof.
  intros LF. unfold bihCoefs. destruct (mapM_ok_all (fun i => do g <- mindex m i; if (g <? mfree m)%nat then Ok (y g) else vget fixed (g - mfree m)) (fun i x => (i < msize m)%nat -> x = coef m y i + fixv m (fun k => nth k fixed 0) i) (seq 0 (msize m))) as (c & E & L & P).
  - intros i x Hx. assert (Li : (i < msize m)%nat) by (rewrite <- (seq_length (msize m) 0); apply nth_error_Some; congruence).
    assert (x = i) as -> by (apply (nth_error_nth _ _ 0%nat) in Hx; rewrite seq_nth in Hx by exact Li; lia).
    rewrite (mindex_ok m i Li). cbn [bind]. rewrite (gi_free m i Li). unfold coef, fixv. destruct (mfixed m i) eqn:F; cbn [negb].
    + assert (K : (gi m i - mfree m < length fixed)%nat).
      { rewrite LF. destruct (bdy_ok m) as (mb & EB & _). destruct (bdy_numbers m mb EB) as (_ & _ & N & G). destruct (G i Li F) as (A & B & C). lia. }
      unfold vget. rewrite (nth_error_nth' fixed 0 K). eexists. split; [reflexivity|]. intros _. ring.
    + eexists. split; [reflexivity|]. intros _. ring.
  - exists c. rewrite seq_length in L. split; [exact E|]. split; [exact L|]. intros i Li. apply (P i); [apply nth_error_nth'; lia|exact Li].
Qed.

Lemma acts_jobs n dir neu : acts_ok n dir -> acts_ok n neu -> jobs_ok n (projJobs dir neu).
Proof.
  intros A B j a I J. unfold projJobs in I. rewrite !in_app_iff, !in_map_iff in I. destruct I as [(e & <- & I)|[(e & <- & I)|[(e & <- & I)|(e & <- & I)]]]; cbn [jact kact dirElem neuElem] in J; [now apply (A e a)|now apply (A e a)|now apply (B e a)|now apply (B e a)].
Qed.
Lemma acts_jobs2 n els lap : acts_ok n els -> acts_ok n lap -> jobs_ok n (bihJobs els lap).
Proof.
  intros A B j a I J. unfold bihJobs in I. rewrite in_app_iff, in_flat_map, in_map_iff in I. destruct I as [(e & I & [<-|[<-|[]]])|(e & <- & I)]; cbn [jact kact intElem lapElem] in J; [now apply (A e a)|now apply (A e a)|now apply (B e a)].
Qed.

Lemma solve_core solver n dirIx neuIx dir neu lap els : indices_ok n dirIx neuIx -> acts_ok n dir -> acts_ok n neu -> acts_ok n lap -> acts_ok n els ->
  solver_good solver n dirIx neuIx dir neu lap els ->
  exists c b, bihSolve solver n dirIx neuIx dir neu lap els = Ok c /\ length c = n /\ outer dirIx neuIx b /\ (forall i, prescribed dirIx neuIx i -> b i = nth i c 0) /\
    (forall d, outer dirIx neuIx d -> lhsB dir neu b d = rhsB dir neu d) /\
    (forall d, inner dirIx neuIx d -> bilinear els (fun i => nth i c 0) d = load els lap d).
Proof.
  intros IX AD AN AL AE SG. destruct (mapper_pf n dirIx neuIx) as ((MO & _) & MP). destruct (MO IX) as (m & EM). destruct (MP m EM) as (SM & FM). clear MO MP.
  destruct (bdy_ok m) as (mb & EB & _). destruct (bdy_numbers m mb EB) as (SB & FB & NB & GB). destruct (SG m mb EM EB) as (S1 & S2). clear SG.
  unfold bihSolve. rewrite EM. cbn [bind]. unfold project in *. rewrite EB in *. cbn [bind] in *.
  destruct (run_jobs mb (fun _ => 0) (projJobs dir neu)) as (X & EX & DX); [rewrite SB, SM; now apply acts_jobs|]. rewrite EX in *. cbn [bind] in *. specialize (S1 X eq_refl).
  set (x := solver (mfree mb) (smat X) (srhs X)) in *. set (fixed := map x (seq 0 (mfree mb))) in *. specialize (S2 fixed).
  assert (LF : length fixed = (msize m - mfree m)%nat) by (unfold fixed; now rewrite map_length, seq_length, NB).
  assert (NF : forall k, (k < mfree mb)%nat -> nth k fixed 0 = x k).
  { intros k K. unfold fixed. rewrite (nth_indep _ 0 (x 0%nat)) by (rewrite map_length, seq_length; exact K). rewrite map_nth, seq_nth by exact K. reflexivity. }
  unfold bihSystem in *. rewrite LF, Nat.eqb_refl in *. cbn [ensure bind] in *.
  destruct (run_jobs m (fun k => nth k fixed 0) (bihJobs els lap)) as (Y & EY & DY); [rewrite SM; now apply acts_jobs2|]. rewrite EY in *. cbn [bind]. specialize (S2 Y eq_refl eq_refl).
  set (y := solver (mfree m) (smat Y) (srhs Y)) in *. destruct (coefs_ok m fixed y LF) as (c & EC & LC & PC). exists c, (fun i => if (i <? n)%nat then coef mb x i else 0).
  split; [exact EC|]. split; [congruence|].
  assert (OUT : forall i, (i < n)%nat -> ~ prescribed dirIx neuIx i -> coef mb x i = 0).
  { intros i L N. unfold coef. rewrite FB by lia. destruct (mfixed m i) eqn:F; [exfalso; apply N, FM, F|reflexivity]. }
  split; [|split; [|split]].
  - intros i N. destruct (Nat.ltb_spec i n) as [L|L]; [now apply OUT|reflexivity].
  - intros i P. pose proof (IX i P) as L. replace (i <? n)%nat with true by lia. rewrite PC by lia. apply FM in P. unfold coef, fixv. rewrite FB by lia. rewrite P. cbn [negb].
    destruct (GB i ltac:(lia) P) as (A & B & C). rewrite NF by lia. rewrite <- A. ring.
  - intros d OD. rewrite <- proj_lhs, <- proj_rhs. apply (equation_all mb); [rewrite SB, SM; now apply acts_jobs| |].
    + intros i F. apply (equation mb (fun _ => 0) _ X x); [rewrite SB, SM; now apply acts_jobs|exact DX|exact S1| |exact F].
      intros j J. cbv beta. replace (j <? n)%nat with true by lia. unfold fixv. destruct (mfixed mb j); ring.
    + intros i L F. apply OD. intros P. apply FM in P. rewrite FB in F by lia. rewrite P in F. discriminate.
  - intros d OD. rewrite <- (bih_lhs els lap), <- bih_rhs. apply (equation_all m); [rewrite SM; now apply acts_jobs2| |].
    + intros i F. apply (equation m (fun k => nth k fixed 0) _ Y y); [rewrite SM; now apply acts_jobs2|exact DY|exact S2|exact PC|exact F].
    + intros i L F. apply OD, FM, F.
Qed.

(** ** Minima *)
Lemma cost_split dir neu b d : bdyCost dir neu d = bdyCost dir neu b + 2 * (lhsB dir neu b (fun i => d i - b i) - rhsB dir neu (fun i => d i - b i)) +
  (total (fun n => bw (snd n) * (comb (fst n) (btr (snd n)) (fun i => d i - b i) * comb (fst n) (btr (snd n)) (fun i => d i - b i))) (nodes dir) +
   / 100000 * total (fun n => bw (snd n) * (comb (fst n) (bdn (snd n)) (fun i => d i - b i) * comb (fst n) (bdn (snd n)) (fun i => d i - b i))) (nodes neu)).
Proof.
  unfold bdyCost, lhsB, rhsB, valueGap, slopeGap.
  assert (Q : forall A (w g : A -> R) (act : A -> list nat) (v : A -> nat -> R) l,
    total (fun n => w n * ((comb (act n) (v n) d - g n) * (comb (act n) (v n) d - g n))) l =
    total (fun n => w n * ((comb (act n) (v n) b - g n) * (comb (act n) (v n) b - g n))) l +
    2 * (total (fun n => w n * (comb (act n) (v n) b * comb (act n) (v n) (fun i => d i - b i))) l - total (fun n => w n * (comb (act n) (v n) (fun i => d i - b i) * g n)) l) +
    total (fun n => w n * (comb (act n) (v n) (fun i => d i - b i) * comb (act n) (v n) (fun i => d i - b i))) l).
  { intros A w g act v l. rewrite <- total_sub, <- total_scal, <- !total_add. apply total_ext. intros k _. rewrite comb_sub. ring. }
  rewrite (Q _ (fun n => bw (snd n)) (fun n => bg (snd n)) fst (fun n => btr (snd n)) (nodes dir)), (Q _ (fun n => bw (snd n)) (fun n => bgn (snd n)) fst (fun n => bdn (snd n)) (nodes neu)). ring.
Qed.
Lemma sq_pos x : 0 <= x * x.
Proof. pose proof (Rle_0_sqr x) as H. exact H. Qed.

Lemma bil_lin els c d e : bilinear els c (fun i => d i - e i) = bilinear els c d - bilinear els c e.
Proof. unfold bilinear. rewrite <- total_sub. apply total_ext. intros n _. rewrite comb_sub. ring. Qed.
Lemma bil_sym els c d : bilinear els c d = bilinear els d c.
Proof. unfold bilinear. apply total_ext. intros n _. ring. Qed.
Lemma load_lin els lap d e : load els lap (fun i => d i - e i) = load els lap d - load els lap e.
Proof.
  unfold load. assert (Q : forall A (w g : A -> R) (act : A -> list nat) (v : A -> nat -> R) l, total (fun n => w n * (comb (act n) (v n) (fun i => d i - e i) * g n)) l =
    total (fun n => w n * (comb (act n) (v n) d * g n)) l - total (fun n => w n * (comb (act n) (v n) e * g n)) l).
  { intros A w g act v l. rewrite <- total_sub. apply total_ext. intros k _. rewrite comb_sub. ring. }
  rewrite (Q _ (fun n => iw (snd n)) (fun n => isrc (snd n)) fst (fun n => ival (snd n)) (nodes els)), (Q _ (fun n => bw (snd n)) (fun n => bg (snd n)) fst (fun n => bdn (snd n)) (nodes lap)). ring.
Qed.

Theorem solve_pf : forall solver n dirIx neuIx dir neu lap els, indices_ok n dirIx neuIx -> acts_ok n dir -> acts_ok n neu -> acts_ok n lap -> acts_ok n els ->
  solver_good solver n dirIx neuIx dir neu lap els ->
  exists c, bihSolve solver n dirIx neuIx dir neu lap els = Ok c /\ length c = n /\
    (exists b, outer dirIx neuIx b /\ (forall i, prescribed dirIx neuIx i -> b i = nth i c 0) /\
       (positive dir neu els -> forall d, outer dirIx neuIx d -> bdyCost dir neu b <= bdyCost dir neu d)) /\
    (forall d, inner dirIx neuIx d -> bilinear els (fun i => nth i c 0) d = load els lap d) /\
    (positive dir neu els -> forall d, (forall i, prescribed dirIx neuIx i -> d i = nth i c 0) -> energy els lap (fun i => nth i c 0) <= energy els lap d).
Proof.
  intros solver n dirIx neuIx dir neu lap els IX AD AN AL AE SG.
  destruct (solve_core solver n dirIx neuIx dir neu lap els IX AD AN AL AE SG) as (c & b & E & L & OB & PB & EQB & EQ).
  exists c. split; [exact E|]. split; [exact L|]. split; [exists b; split; [exact OB|]; split; [exact PB|]|split; [exact EQ|]].
  - intros (P1 & P2 & _) d OD. rewrite (cost_split dir neu b d). rewrite EQB by (intros i N; now rewrite (OB i N), (OD i N), Rminus_diag_eq).
    assert (0 <= total (fun n => bw (snd n) * (comb (fst n) (btr (snd n)) (fun i => d i - b i) * comb (fst n) (btr (snd n)) (fun i => d i - b i))) (nodes dir)) by (apply total_nonneg; intros k K; apply Rmult_le_pos; [apply Rlt_le, P1, K|apply sq_pos]).
    assert (0 <= total (fun n => bw (snd n) * (comb (fst n) (bdn (snd n)) (fun i => d i - b i) * comb (fst n) (bdn (snd n)) (fun i => d i - b i))) (nodes neu)) by (apply total_nonneg; intros k K; apply Rmult_le_pos; [apply Rlt_le, P2, K|apply sq_pos]).
    lra.
  - intros (_ & _ & P3) d AG. set (u := fun i => nth i c 0) in *. set (e := fun i => d i - u i).
    assert (IE : bilinear els u e = load els lap e) by (apply EQ; intros i P; unfold e; rewrite (AG i P); unfold u; ring).
    unfold energy. assert (Q : bilinear els d d = bilinear els u u + 2 * bilinear els u e + bilinear els e e).
    { assert (B1 : bilinear els e e = bilinear els e d - bilinear els e u) by apply bil_lin. assert (B2 : bilinear els e d = bilinear els d d - bilinear els d u) by (rewrite bil_sym; unfold e; rewrite bil_lin; now rewrite (bil_sym els d u)).
      assert (B3 : bilinear els u e = bilinear els u d - bilinear els u u) by apply bil_lin. rewrite (bil_sym els d u) in B2. rewrite (bil_sym els e u) in B1. lra. }
    assert (LE : load els lap e = load els lap d - load els lap u) by apply load_lin.
    assert (0 <= bilinear els e e) by (unfold bilinear; apply total_nonneg; intros k K; apply Rmult_le_pos; [apply Rlt_le, P3, K|apply sq_pos]). lra.
Qed.

Theorem exact_pf : forall solver n dirIx neuIx dir neu lap els v, indices_ok n dirIx neuIx -> acts_ok n dir -> acts_ok n neu -> acts_ok n lap -> acts_ok n els ->
  solver_good solver n dirIx neuIx dir neu lap els -> positive dir neu els -> visible n dirIx neuIx dir neu els -> is_solution dirIx neuIx dir neu lap els v ->
  exists c, bihSolve solver n dirIx neuIx dir neu lap els = Ok c /\ length c = n /\ forall i, (i < n)%nat -> nth i c 0 = v i.
Proof.
  intros solver n dirIx neuIx dir neu lap els v IX AD AN AL AE SG (P1 & P2 & P3) (V1 & V2) ((b' & OB' & PB' & G1 & G2) & EQV).
  destruct (solve_core solver n dirIx neuIx dir neu lap els IX AD AN AL AE SG) as (c & b & E & L & OB & PB & EQB & EQ). exists c. split; [exact E|]. split; [exact L|].
  assert (NN : forall (A : Type) (w f : A -> R) l, (forall k, In k l -> 0 < w k) -> 0 <= total (fun k => w k * (f k * f k)) l) by (intros A w f l W; apply total_nonneg; intros k K; apply Rmult_le_pos; [apply Rlt_le, W, K|apply sq_pos]).
  assert (ZZ : forall (A : Type) (w f : A -> R) l, (forall k, In k l -> 0 < w k) -> total (fun k => w k * (f k * f k)) l = 0 -> forall k, In k l -> f k = 0).
  { intros A w f l W Z k K. assert (X : w k * (f k * f k) = 0) by (apply (total_pos_zero (fun k => w k * (f k * f k)) l); [intros q Q; apply Rmult_le_pos; [apply Rlt_le, W, Q|apply sq_pos]|exact Z|exact K]).
    specialize (W k K). apply Rmult_integral in X. destruct X as [X|X]; [lra|]. apply Rmult_integral in X. tauto. }
  assert (BB : forall i, (i < n)%nat -> b' i - b i = 0).
  { pose proof (cost_split dir neu b b') as C. rewrite EQB in C by (intros i N; now rewrite (OB i N), (OB' i N), Rminus_diag_eq).
    assert (Z : bdyCost dir neu b' = 0).
    { unfold bdyCost. rewrite (total_ext _ (fun _ => 0) (nodes dir)), (total_ext _ (fun _ => 0) (nodes neu)), !total_zero; [ring| |]; intros k K; [rewrite (G2 k K)|rewrite (G1 k K)]; ring. }
    assert (Z2 : 0 <= bdyCost dir neu b) by (unfold bdyCost; pose proof (NN _ (fun n => bw (snd n)) (valueGap b) (nodes dir) P1); pose proof (NN _ (fun n => bw (snd n)) (slopeGap b) (nodes neu) P2); cbv beta in *; lra).
    pose proof (NN _ (fun n => bw (snd n)) (fun n => comb (fst n) (btr (snd n)) (fun i => b' i - b i)) (nodes dir) P1) as N1. pose proof (NN _ (fun n => bw (snd n)) (fun n => comb (fst n) (bdn (snd n)) (fun i => b' i - b i)) (nodes neu) P2) as N2. cbv beta in N1, N2.
    apply (V1 (fun i => b' i - b i)).
    - intros i N. rewrite (OB i N), (OB' i N). ring.
    - apply (ZZ _ (fun n => bw (snd n)) (fun n => comb (fst n) (btr (snd n)) (fun i => b' i - b i)) (nodes dir) P1). cbv beta. lra.
    - apply (ZZ _ (fun n => bw (snd n)) (fun n => comb (fst n) (bdn (snd n)) (fun i => b' i - b i)) (nodes neu) P2). cbv beta. lra. }
  set (u := fun i => nth i c 0) in *. set (e := fun i => v i - u i).
  assert (IE : inner dirIx neuIx e) by (intros i P; unfold e, u; rewrite <- (PB i P), <- (PB' i P); apply BB, IX, P).
  assert (Z : bilinear els e e = 0).
  { assert (B1 : bilinear els e e = bilinear els e v - bilinear els e u) by apply bil_lin. rewrite (bil_sym els e v), (bil_sym els e u), (EQV e IE), (EQ e IE) in B1. lra. }
  assert (W : forall i, (i < n)%nat -> e i = 0).
  { apply V2; [exact IE|]. apply (ZZ _ (fun n => iw (snd n)) (fun n => comb (fst n) (ilap (snd n)) e) (nodes els) P3). exact Z. }
  intros i Li. specialize (W i Li). unfold e, u in W. lra.
Qed.

(** ** Errors *)
Lemma sq_sum l : sqNorm l = sumsq l.
Proof. induction l as [|x l IH]; [reflexivity|]. cbn. unfold sqNorm in IH. cbn in IH. rewrite IH. reflexivity. Qed.
Lemma int_part f l : integral (fun k => sqNorm (f k)) l = part f l.
Proof. unfold integral, part. rewrite (fold_total (fun k => ew k * sqNorm (f k))). rewrite Rplus_0_l. apply total_ext. intros k _. now rewrite sq_sum. Qed.
Lemma sumsq_nonneg l : 0 <= sumsq l.
Proof. unfold sumsq. apply total_nonneg. intros; apply sq_pos. Qed.
Lemma part_nonneg f l : (forall k, In k l -> 0 < ew k) -> 0 <= part f l.
Proof. intros W. unfold part. apply total_nonneg. intros k K. apply Rmult_le_pos; [apply Rlt_le, W, K|apply sumsq_nonneg]. Qed.
Lemma part_zero f l : (forall k, In k l -> 0 < ew k) -> part f l = 0 -> forall k x, In k l -> In x (f k) -> x = 0.
Proof.
  intros W Z k x K I. assert (Y : ew k * sumsq (f k) = 0) by (apply (total_pos_zero (fun k => ew k * sumsq (f k)) l); [intros q Q; apply Rmult_le_pos; [apply Rlt_le, W, Q|apply sumsq_nonneg]|exact Z|exact K]).
  specialize (W k K). apply Rmult_integral in Y. destruct Y as [Y|Y]; [lra|]. assert (X : x * x = 0) by (apply (total_pos_zero (fun x => x * x) (f k)); [intros; apply sq_pos|exact Y|exact I]). apply Rmult_integral in X. tauto.
Qed.
Theorem errors_pf : forall l, (forall k, In k l -> 0 < ew k) -> exists l2 h1 h2, computeError l = (l2, h1, h2) /\ 0 <= l2 <= h1 /\ h1 <= h2 /\
  l2 * l2 = part (fun k => [e0 k]) l /\
  part (fun k => [e0 k]) l + part e1 l <= h1 * h1 <= 2 * (part (fun k => [e0 k]) l + part e1 l) /\
  part (fun k => [e0 k]) l + part e1 l + part e2 l <= h2 * h2 <= 3 * (part (fun k => [e0 k]) l + part e1 l + part e2 l) /\
  (h2 = 0 <-> forall k, In k l -> e0 k = 0 /\ (forall x, In x (e1 k) -> x = 0) /\ (forall x, In x (e2 k) -> x = 0)).
Proof.
  intros l W. unfold computeError. rewrite (int_part (fun k => [e0 k])), (int_part e1), (int_part e2).
  pose proof (part_nonneg (fun k => [e0 k]) l W) as N0. pose proof (part_nonneg e1 l W) as N1. pose proof (part_nonneg e2 l W) as N2.
  set (a := part (fun k => [e0 k]) l) in *. set (b := part e1 l) in *. set (c := part e2 l) in *.
  pose proof (sqrt_pos a) as A. pose proof (sqrt_pos b) as B. pose proof (sqrt_pos c) as C. pose proof (sqrt_sqrt a N0) as A2. pose proof (sqrt_sqrt b N1) as B2. pose proof (sqrt_sqrt c N2) as C2.
  exists (sqrt a), (sqrt a + sqrt b), (sqrt a + sqrt b + sqrt c). split; [reflexivity|]. set (x := sqrt a) in *. set (y := sqrt b) in *. set (z := sqrt c) in *.
  pose proof (Rmult_le_pos x y A B). pose proof (Rmult_le_pos x z A C). pose proof (Rmult_le_pos y z B C). pose proof (sq_pos (x - y)). pose proof (sq_pos (x - z)). pose proof (sq_pos (y - z)).
  split; [lra|]. split; [lra|]. split; [exact A2|]. split; [split; rewrite <- A2, <- B2; lra|]. split; [split; rewrite <- A2, <- B2, <- C2; lra|]. split.
  - intros Z k K. assert (x = 0 /\ y = 0 /\ z = 0) as (X0 & Y0 & Z0) by lra. rewrite X0 in A2. rewrite Y0 in B2. rewrite Z0 in C2.
    split; [apply (part_zero (fun k => [e0 k]) l W ltac:(fold a; lra) k (e0 k) K); now left|]. split; intros t T; [apply (part_zero e1 l W ltac:(fold b; lra) k t K T)|apply (part_zero e2 l W ltac:(fold c; lra) k t K T)].
  - intros HZ. assert (Q : forall f, (forall k, In k l -> forall t, In t (f k) -> t = 0) -> part f l = 0).
    { intros f F. unfold part. rewrite (total_ext _ (fun _ => 0)); [apply total_zero|]. intros k K. unfold sumsq. rewrite (total_ext _ (fun _ => 0)); [rewrite total_zero; ring|]. intros t T. rewrite (F k K t T). ring. }
    assert (a = 0) as A0 by (apply Q; intros k K t [<-|[]]; now apply HZ). assert (b = 0) as B0 by (apply Q; intros k K; now apply HZ). assert (c = 0) as C0 by (apply Q; intros k K; now apply HZ).
    unfold x, y, z. rewrite A0, B0, C0, sqrt_0. ring.
Qed.
