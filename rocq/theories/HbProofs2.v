(** Proofs for C74: matching the neighbours. *)
From Coq Require Import Sorting.Sorted ZifyBool.
From Verif Require Import Common ListLemmas TopoModel TopoSpec IndexProofs TopoProofs HbModel HbSpec HbProofs.

Lemma foldM_steps {A S} (R : S -> S -> Prop) (f : S -> A -> res S) : (forall s, R s s) -> (forall a b c, R a b -> R b c -> R a c) -> (forall s x s', f s x = Ok s' -> R s s') ->
  forall l s s', foldM f l s = Ok s' -> R s s' /\ forall x, In x l -> exists s1 s2, f s1 x = Ok s2 /\ R s s1 /\ R s2 s'.
Proof.
  intros Rr Rt Rf. induction l as [|a l IH]; intros s s' H; cbn [foldM] in H.
  - injection H as <-. split; [apply Rr|intros x []].
  - destruct (f s a) as [s1|] eqn:E; [|discriminate H]. cbn [bind] in H. destruct (IH s1 s' H) as (R1 & C). pose proof (Rf _ _ _ E) as R0. split; [eapply Rt; eassumption|].
    intros x [<-|Hx]; [exists s, s1; auto|]. destruct (C x Hx) as (u & v & Q & Q1 & Q2). exists u, v. split; [exact Q|]. split; [eapply Rt; eassumption|exact Q2].
Qed.

Definition more_boxes (x y : list hbox * list bool) : Prop := incl (fst x) (fst y).
Lemma more_boxes_refl x : more_boxes x x. Proof. intros b Hb. exact Hb. Qed.
Lemma more_boxes_trans x y z : more_boxes x y -> more_boxes y z -> more_boxes x z. Proof. intros H K b Hb. apply K, H, Hb. Qed.

Definition has_box (h : hbasis) (l : nat) (s : side) (k : nat) (bs : list hbox) : Prop :=
  exists b, In b bs /\ bl b = l /\ forall M i j, in_box M (support h l (fst (sideFun h l s k)) (snd (sideFun h l s k))) i j -> in_box M b i j.
Lemma on_side_sideFun P h l s k : on_side_fun P h l s k = P h l (fst (sideFun h l s k)) (snd (sideFun h l s k)). Proof. destruct s; reflexivity. Qed.
Lemma has_box_present h l s k bs : has_box h l s k bs -> on_side_fun present (refineElements h bs) l s k.
Proof.
  intros (b & Hb & Lb & I). rewrite on_side_sideFun. intros M i j B J. exists b. split; [cbn [refineElements hboxes]; apply in_or_app; auto|]. split; [lia|]. apply I. exact J.
Qed.

Lemma addBoundaryBox_spec h incr s a b l x x' : 1 <= hpu h -> 1 <= hpv h -> addBoundaryBox h incr s a b l x = Ok x' ->
  more_boxes x x' /\ forall k, a <= k <= b -> has_box h l s k (fst x').
Proof.
  intros PU PV H. unfold addBoundaryBox in H. cbv zeta in H. destruct x as (bs, chk).
  assert (G : forall u0 v0 u1 v1 bs', addFunBox h u0 v0 u1 v1 l bs = Ok bs' -> incl bs bs' /\ exists bx, In bx bs' /\ bl bx = l /\ forall M i j a c, u0 <= a <= u1 -> v0 <= c <= v1 -> in_box M (support h l a c) i j -> in_box M bx i j).
  { intros u0 v0 u1 v1 bs' Q. unfold addFunBox in Q. destruct (_ && _) in Q; [|discriminate Q]. cbn in Q. injection Q as <-. split; [intros z Hz; apply in_or_app; auto|].
    eexists. split; [apply in_or_app; right; left; reflexivity|]. cbn [bl]. split; [reflexivity|]. intros M i j a0 c U V (L & I1 & I2). unfold support, elems in *. cbn [bl bu0 bv0 bu1 bv1] in *. split; [exact L|]. cbn [bl bu0 bv0 bu1 bv1]. lia. }
  assert (Fin : forall y : list hbox * list bool, (let (bs, chk) := y in match side_dir s with 0 => Ok (bs, mark (funs (hpv h) (hnv h) l - 1 <=? b + 1) 3 (mark (a =? 0) 2 chk)) | _ => Ok (bs, mark (funs (hpu h) (hnu h) l - 1 <=? b + 1) 1 (mark (a =? 0) 0 chk)) end) = Ok x' -> fst x' = fst y).
  { intros (y1, y2) Q. destruct (side_dir s); injection Q as <-; reflexivity. }
  unfold hdist in H.
  destruct s; cbn [side_dir] in Fin.
  - destruct (addFunBox _ _ _ _ _ _ _) as [bs'|] eqn:E in H; [|discriminate H]. cbn [bind] in H. apply (Fin (bs', _)) in H. cbn [fst] in H. apply G in E. destruct E as (E1 & bx & E2 & E3 & E4). split; [intros z Hz; rewrite H; apply E1, Hz|].
    intros k K. exists bx. rewrite H. split; [exact E2|]. split; [exact E3|]. cbn [sideFun fst snd]. intros M i j. apply E4; lia.
  - destruct (ensure _) eqn:En in H; [|discriminate H]. unfold ensure in En. destruct (_ <=? _) eqn:Le in En; [|discriminate En]. apply Nat.leb_le in Le. cbn [bind] in H.
    destruct (addFunBox _ _ _ _ _ _ _) as [bs'|] eqn:E in H; [|discriminate H]. cbn [bind] in H. apply (Fin (bs', _)) in H. cbn [fst] in H. apply G in E. destruct E as (E1 & bx & E2 & E3 & E4). split; [intros z Hz; rewrite H; apply E1, Hz|].
    intros k K. exists bx. rewrite H. split; [exact E2|]. split; [exact E3|]. cbn [sideFun fst snd]. intros M i j. apply E4; lia.
  - destruct (addFunBox _ _ _ _ _ _ _) as [bs'|] eqn:E in H; [|discriminate H]. cbn [bind] in H. apply (Fin (bs', _)) in H. cbn [fst] in H. apply G in E. destruct E as (E1 & bx & E2 & E3 & E4). split; [intros z Hz; rewrite H; apply E1, Hz|].
    intros k K. exists bx. rewrite H. split; [exact E2|]. split; [exact E3|]. cbn [sideFun fst snd]. intros M i j. apply E4; lia.
  - destruct (ensure _) eqn:En in H; [|discriminate H]. unfold ensure in En. destruct (_ <=? _) eqn:Le in En; [|discriminate En]. apply Nat.leb_le in Le. cbn [bind] in H.
    destruct (addFunBox _ _ _ _ _ _ _) as [bs'|] eqn:E in H; [|discriminate H]. cbn [bind] in H. apply (Fin (bs', _)) in H. cbn [fst] in H. apply G in E. destruct E as (E1 & bx & E2 & E3 & E4). split; [intros z Hz; rewrite H; apply E1, Hz|].
    intros k K. exists bx. rewrite H. split; [exact E2|]. split; [exact E3|]. cbn [sideFun fst snd]. intros M i j. apply E4; lia.
Qed.

Lemma has_box_incl h l s k bs bs' : incl bs bs' -> has_box h l s k bs -> has_box h l s k bs'.
Proof. intros In1 (b & Hb & Q). exists b. split; [apply In1, Hb|exact Q]. Qed.

Definition nbr_flags (n : hbasis) (l : nat) (sn : side) (fl : bool) : list bool := let v := activeBoundary n l sn in if fl then rev v else v.
Lemma nbr_flags_length n l sn fl : length (nbr_flags n l sn fl) = side_count n l sn.
Proof. unfold nbr_flags. cbv zeta. destruct fl; rewrite ?rev_length; apply activeBoundary_length. Qed.
Lemma opposite_lt fl n k : k < n -> opposite fl n k < n. Proof. destruct fl; cbn; lia. Qed.
Lemma opposite_inv fl n k : k < n -> opposite fl n (opposite fl n k) = k. Proof. destruct fl; cbn; lia. Qed.
Lemma nbr_flags_nth n l sn fl k : 1 <= l -> k < side_count n l sn -> nth k (nbr_flags n l sn fl) false = true <-> on_side_fun active_fun n l sn (opposite fl (side_count n l sn) k).
Proof.
  intros L K. unfold nbr_flags. cbv zeta. destruct fl; cbn [opposite].
  - rewrite rev_nth by (rewrite activeBoundary_length; exact K). rewrite activeBoundary_length. replace (side_count n l sn - S k) with (side_count n l sn - 1 - k) by lia. apply activeBoundary_nth; lia.
  - apply activeBoundary_nth; assumption.
Qed.
Lemma nth_map_seq {A} (f : nat -> A) n k d : k < n -> nth k (map f (seq 0 n)) d = f k.
Proof. intros K. rewrite (nth_indep _ d (f 0)) by (rewrite map_length, seq_length; exact K). rewrite map_nth, seq_nth by exact K. reflexivity. Qed.

Lemma matchLevel_spec h n incr s sn fl x l x' : 1 <= hpu h -> 1 <= hpv h -> 1 <= l -> side_count h l s = side_count n l sn -> matchLevel h n incr s sn fl x l = Ok x' ->
  more_boxes x x' /\ forall k, k < side_count n l sn -> on_side_fun active_fun n l sn (opposite fl (side_count n l sn) k) -> on_side_fun present (refineElements h (fst x')) l s k.
Proof.
  intros PU PV L C H. unfold matchLevel in H. cbv zeta in H. change (if fl then rev (activeBoundary n l sn) else activeBoundary n l sn) with (nbr_flags n l sn fl) in H.
  rewrite activeBoundary_length, nbr_flags_length, C, Nat.leb_refl in H. cbn [ensure bind] in H. set (r := map _ (seq 0 (side_count n l sn))) in H. set (x0 := (fst x, _)) in H.
  assert (NE : r <> []). { intros Q. apply (f_equal (@length bool)) in Q. unfold r in Q. rewrite map_length, seq_length, <- C in Q. cbn [length] in Q. destruct s; cbn [side_count] in Q; lia. }
  destruct (scan_ok r NE) as (R & (HR & _) & Sc). rewrite Sc in H.
  destruct (foldM_steps more_boxes (fun x ab => addBoundaryBox h incr s (fst ab) (snd ab) l x) more_boxes_refl more_boxes_trans (fun u ab v Q => proj1 (addBoundaryBox_spec _ _ _ _ _ _ _ _ PU PV Q)) R x0 x' H) as (M & St).
  split; [exact M|]. intros k K A. destruct (nth k (activeBoundary h l s) false) eqn:E.
  - apply activeBoundary_nth in E; [|exact L|lia]. apply (on_side_present_grown h); [exists (fst x'); reflexivity|]. rewrite on_side_sideFun in *. apply E.
  - assert (Rk : nth k r false = true). { unfold r. rewrite nth_map_seq by exact K. rewrite E. apply (nbr_flags_nth n l sn fl k L K) in A. rewrite A. reflexivity. }
    destruct (in_some_run r k Rk) as (a & b & Run & AB). apply HR in Run. destruct (St (a, b) Run) as (u & v & Q & _ & Inc). apply addBoundaryBox_spec in Q; [|assumption|assumption]. destruct Q as (_ & Q). cbn [fst snd] in Q.
    apply has_box_present. apply (has_box_incl h l s k (fst v)); [exact Inc|]. apply Q. exact AB.
Qed.

Section STEP.
Context (t : topo) (incr : nat) (bs : list hbasis).
Hypothesis IN : hb_input t incr bs.

Lemma vget_nth_hb p h : vget bs p = Ok h -> p < length bs /\ nth p bs nobasis = h.
Proof. unfold vget. destruct (nth_error bs p) as [a|] eqn:E; [|discriminate]. intros Q. injection Q as <-. split; [apply nth_error_Some; congruence|apply nth_error_nth; exact E]. Qed.

Lemma joins_other f p s q s' : In f (tif t) -> joins f p s q s' -> getInterface t (p, s) = Some f /\ iother f (p, s) = Ok (q, s').
Proof.
  intros F [(E1 & E2)|(E1 & E2)].
  - split; [apply getInterface_of; [apply (hi_topo _ _ _ IN)|exact F|auto]|]. unfold iother. rewrite E1, (proj2 (ps_eqb_eq _ _) eq_refl), E2. reflexivity.
  - split; [apply getInterface_of; [apply (hi_topo _ _ _ IN)|exact F|auto]|]. unfold iother. destruct (ps_eqb (if1 f) (p, s)) eqn:E.
    + apply ps_eqb_eq in E. exfalso. destruct (hi_topo _ _ _ IN) as (_ & NA). specialize (NA f F). rewrite E, E1 in NA. cbn [fst snd] in NA. intuition congruence.
    + rewrite E1, (proj2 (ps_eqb_eq _ _) eq_refl), E2. reflexivity.
Qed.
Lemma joins_count f p s q s' l : In f (tif t) -> joins f p s q s' -> side_count (nth p bs nobasis) l s = side_count (nth q bs nobasis) l s'.
Proof.
  intros F J. pose proof (hi_match _ _ _ IN f F l) as E. destruct J as [(E1 & E2)|(E1 & E2)]; rewrite E1, E2 in E; cbn [fst snd] in E; auto.
Qed.

Lemma matchNeighbours_within p h x f s q s' : vget bs p = Ok h -> matchNeighbours t bs incr p = Ok x -> In f (tif t) -> joins f p s q s' ->
  within (nth q bs nobasis) s' (refineElements h (fst x)) s (ifflip f).
Proof.
  intros Gp H F J. destruct (joins_other f p s q s' F J) as (Gi & Io). pose proof (fun l => joins_count f p s q s' l F J) as C. destruct (vget_nth_hb p h Gp) as (Lp & Np). rewrite Np in C.
  destruct (hi_degree _ _ _ IN h) as (PU & PV); [rewrite <- Np; apply nth_In; exact Lp|].
  unfold matchNeighbours in H. rewrite Gp in H. cbn [bind] in H. set (side_step := fun x s => _) in H. destruct (foldM side_step _ _) as [y|] eqn:E in H; [|discriminate H]. cbn [bind] in H. destruct (mapM _ _) as [nb|] in H; [|discriminate H]. cbn [bind] in H. injection H as <-. cbn [fst].
  assert (Inner : forall n sn fl s0 N u v, foldM (matchLevel h n incr s0 sn fl) (seq 1 N) u = Ok v -> (forall l, side_count h l s0 = side_count n l sn) ->
    more_boxes u v /\ forall l k, 1 <= l <= N -> k < side_count n l sn -> on_side_fun active_fun n l sn (opposite fl (side_count n l sn) k) -> on_side_fun present (refineElements h (fst v)) l s0 k).
  { intros n sn fl s0 N u v Q Cn. 
    assert (Q' : forall ls u v, (forall l, In l ls -> 1 <= l) -> foldM (matchLevel h n incr s0 sn fl) ls u = Ok v -> more_boxes u v /\ forall l k, In l ls -> k < side_count n l sn -> on_side_fun active_fun n l sn (opposite fl (side_count n l sn) k) -> on_side_fun present (refineElements h (fst v)) l s0 k).
    { clear u v Q. induction ls as [|a ls IH]; intros u v Ls Q; cbn [foldM] in Q.
      - injection Q as <-. split; [apply more_boxes_refl|intros l k []].
      - destruct (matchLevel h n incr s0 sn fl u a) as [w|] eqn:Ew; [|discriminate Q]. cbn [bind] in Q. destruct (IH w v (fun l Hl => Ls l (or_intror Hl)) Q) as (M1 & P1). destruct (matchLevel_spec _ _ _ _ _ _ _ _ _ PU PV (Ls a (or_introl eq_refl)) (Cn a) Ew) as (M0 & P0). split; [eapply more_boxes_trans; eassumption|].
        intros l k [<-|Hl] K A; [|apply P1; assumption]. specialize (P0 k K A). revert P0. rewrite !on_side_sideFun. cbn. intros P0 M i j B I. destruct (P0 M i j) as (b & Hb & Lb & Ib).
        + intros b Hb. apply B. cbn [refineElements hboxes] in *. apply in_app_iff in Hb. apply in_app_iff. destruct Hb as [Hb|Hb]; [auto|right; apply M1, Hb].
        + exact I.
        + exists b. split; [|auto]. cbn [refineElements hboxes] in *. apply in_app_iff in Hb. apply in_app_iff. destruct Hb as [Hb|Hb]; [auto|right; apply M1, Hb]. }
    destruct (Q' (seq 1 N) u v) as (M & P); [intros l Hl; apply in_seq in Hl; lia|exact Q|]. split; [exact M|]. intros l k Hl. apply P. apply in_seq. lia. }
  assert (Out : forall u s0 v, side_step u s0 = Ok v -> more_boxes u v).
  { intros u s0 v Q. unfold side_step in Q. destruct (getInterface t (p, s0)) as [f0|] eqn:G0; [|injection Q as <-; apply more_boxes_refl].
    destruct (iother f0 (p, s0)) as [(q0, s0')|] eqn:Io0; [|discriminate Q]. cbn [bind fst snd] in Q. destruct (vget bs q0) as [n0|] eqn:V0; [|discriminate Q]. cbn [bind] in Q.
    destruct (vget_nth_hb _ _ V0) as (_ & Nq0). apply Inner in Q; [apply Q|].
    apply getInterface_some in G0. destruct G0 as (F0 & J0). assert (J' : joins f0 p s0 q0 s0').
    { unfold iother in Io0. destruct (ps_eqb (if1 f0) (p, s0)) eqn:Ea; [apply ps_eqb_eq in Ea; injection Io0 as Io0; left; auto|]. destruct (ps_eqb (if2 f0) (p, s0)) eqn:Eb; [|discriminate Io0]. apply ps_eqb_eq in Eb. injection Io0 as Io0. right. auto. }
    intros l. rewrite <- Np, <- Nq0. apply (joins_count f0 p s0 q0 s0' l F0 J'). }
  destruct (foldM_steps more_boxes side_step more_boxes_refl more_boxes_trans Out [West; East; South; North] _ y E) as (_ & St).
  destruct (St s) as (u & v & Q & _ & Inc); [destruct s; cbn; auto|]. unfold side_step in Q. rewrite Gi, Io in Q. cbn [bind fst snd] in Q. destruct (vget bs q) as [n|] eqn:Vq; [|discriminate Q]. cbn [bind] in Q.
  destruct (vget_nth_hb q n Vq) as (Lq & Nq). rewrite Nq in *. apply Inner in Q; [|exact C]. destruct Q as (_ & Q).
  intros l k L K A. set (k' := opposite (ifflip f) (side_count n l s') k). assert (K' : k' < side_count n l s') by (apply opposite_lt; exact K).
  assert (Lm : l <= maxLevel n).
  { destruct (hi_size _ _ _ IN n) as (SU & SV); [rewrite <- Nq; apply nth_In; exact Lq|]. destruct (hi_degree _ _ _ IN n) as (DU & DV); [rewrite <- Nq; apply nth_In; exact Lq|].
    assert (U : 1 <= hnu n) by lia. assert (V : 1 <= hnv n) by lia. pose proof (pow2_pos l).
    rewrite on_side_sideFun in A. destruct A as (A & _). eapply present_level; [exact L|exact U|exact V| | |exact A]; destruct s'; cbn [sideFun fst snd side_count] in *; unfold funs, elems; lia. }
  specialize (Q l k' ltac:(lia) K'). unfold k' in Q at 1. rewrite (opposite_inv (ifflip f) _ k K) in Q. specialize (Q A). fold k'.
  rewrite on_side_sideFun in Q |- *. intros M i j B I. destruct (Q M i j) as (b & Hb & Rb).
  - intros b Hb. apply B. cbn [refineElements hboxes] in *. apply in_app_iff in Hb. apply in_app_iff. destruct Hb as [Hb|Hb]; [auto|right; apply Inc, Hb].
  - exact I.
  - exists b. split; [|exact Rb]. cbn [refineElements hboxes] in *. apply in_app_iff in Hb. apply in_app_iff. destruct Hb as [Hb|Hb]; [auto|right; apply Inc, Hb].
Qed.
End STEP.
