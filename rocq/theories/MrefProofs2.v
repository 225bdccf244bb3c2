(** Proofs for C71: inserting knots into a tensor B-spline surface. *)
From Coq Require Import Sorted ZifyBool.
From Verif Require Import Common TopoModel VertexModel VertexSpec RepairModel RepairSpec ListLemmas SplineModel SplineProofs BoehmModel BoehmSpec BoehmProofs RepairProofs MrefModel MrefSpec MrefProofs.
Open Scope nat_scope.

(** ** Open knot vectors with interior knots of any multiplicity *)
Definition open_with (p : nat) (L : Z) (k : list Z) : Prop :=
  exists mid, k = repeat 0%Z (p + 1) ++ mid ++ repeat L (p + 1) /\ (0 < L)%Z /\ StronglySorted Z.le mid /\ forall x, In x mid -> (0 < x < L)%Z.

Lemma zinsert_le y l : StronglySorted Z.le l -> StronglySorted Z.le (zinsert y l).
Proof.
  induction 1 as [|a l S IH F]; [repeat constructor|]. cbn [zinsert]. destruct (Z.ltb_spec a y).
  - constructor; [exact IH|]. apply Forall_forall. intros z Hz. apply VertexProofs2.zinsert_in in Hz. rewrite Forall_forall in F. destruct Hz as [<-|Hz]; [lia|now apply F].
  - constructor; [constructor; assumption|]. apply Forall_forall. rewrite Forall_forall in F. intros z [<-|Hz]; [assumption|]. specialize (F z Hz). lia.
Qed.
Lemma zinsert_length y l : length (zinsert y l) = S (length l).
Proof. induction l as [|a l IH]; [reflexivity|]. cbn [zinsert]. destruct (a <? y)%Z; cbn [length]; [now rewrite IH|reflexivity]. Qed.
Lemma insert_length ins k : length (fold_right zinsert k ins) = length ins + length k.
Proof. induction ins as [|y ins IH]; [reflexivity|]. cbn [fold_right]. rewrite zinsert_length, IH. reflexivity. Qed.
Lemma insert_open p L ins k : open_with p L k -> (forall y, In y ins -> (0 < y < L)%Z) -> open_with p L (fold_right zinsert k ins).
Proof.
  induction ins as [|y ins IH]; intros O H; [exact O|]. cbn [fold_right]. destruct IH as (mid & E & P & S & B); [exact O|intros; apply H; now right|]. rewrite E.
  exists (zinsert y mid). split; [apply zinsert_mid'; apply H; now left|]. split; [exact P|]. split; [now apply zinsert_le|]. intros x Hx. apply VertexProofs2.zinsert_in in Hx. destruct Hx as [<-|Hx]; [apply H; now left|now apply B].
Qed.
Lemma rep_sorted (v : Z) n : StronglySorted Z.le (repeat v n).
Proof. induction n as [|n IH]; [constructor|]. cbn. constructor; [exact IH|]. apply Forall_forall. intros x Hx. apply repeat_spec in Hx. lia. Qed.
Lemma app_sorted l m : StronglySorted Z.le l -> StronglySorted Z.le m -> (forall x y, In x l -> In y m -> (x <= y)%Z) -> StronglySorted Z.le (l ++ m).
Proof.
  induction 1 as [|a l S IH F]; intros M H; [exact M|]. cbn. constructor; [apply IH; [exact M|intros; apply H; [now right|assumption]]|]. apply Forall_app. split; [exact F|]. apply Forall_forall. intros y Hy. apply H; [now left|exact Hy].
Qed.
Lemma open_sorted p L k : open_with p L k -> StronglySorted Z.le k.
Proof.
  intros (mid & -> & P & S & B). apply app_sorted; [apply rep_sorted|apply app_sorted; [exact S|apply rep_sorted|]|].
  - intros x y Hx Hy. apply repeat_spec in Hy. specialize (B x Hx). lia.
  - intros x y Hx Hy. apply repeat_spec in Hx. apply in_app_iff in Hy. destruct Hy as [Hy|Hy]; [specialize (B y Hy); lia|apply repeat_spec in Hy; lia].
Qed.
Lemma simple_open_with p L mid k : simple_open p L mid k -> open_with p L k.
Proof.
  intros H. apply simple_inside in H. destruct H as (E & P & S & B). exists mid. repeat split; try assumption; try (apply B; assumption).
  clear - S. induction S as [|a m S IH F]; constructor; [exact IH|]. eapply Forall_impl; [|exact F]. cbn. lia.
Qed.

(** ** One insertion *)
Lemma zinsert_split u k : StronglySorted Z.le k -> exists A B, k = A ++ B /\ zinsert u k = A ++ u :: B /\ (forall x, In x A -> (x <= u)%Z) /\ (forall x, In x B -> (u < x)%Z).
Proof.
  induction 1 as [|a k S IH F]; [exists [], []; repeat split; intros x []|]. rewrite Forall_forall in F. destruct IH as (A & B & E & Z & HA & HB). destruct (Z.leb_spec a u) as [L|L].
  - exists (a :: A), B. split; [cbn; now rewrite E|]. split; [|split; [intros x [<-|Hx]; [exact L|now apply HA]|exact HB]]. cbn [zinsert]. destruct (Z.ltb_spec a u) as [L'|L']; [cbn; now rewrite Z|].
    assert (a = u) by lia. subst a. cbn [app]. f_equal. rewrite E. assert (AU : forall x, In x A -> x = u). { intros x Hx. specialize (HA x Hx). specialize (F x). rewrite E in F. specialize (F (in_or_app _ _ _ (or_introl Hx))). lia. }
    clear - AU. induction A as [|x A IH]; [reflexivity|]. cbn [app]. rewrite (AU x (or_introl eq_refl)). f_equal. apply IH. intros y Hy. apply AU. now right.
  - exists [], (a :: k). split; [reflexivity|]. split; [cbn [zinsert app]; replace (a <? u)%Z with false by lia; reflexivity|]. split; [intros x []|]. intros x [<-|Hx]; [exact L|]. specialize (F x Hx). lia.
Qed.
Lemma map_asc k : StronglySorted Z.le k -> BoehmSpec.ascending (map IZR k).
Proof.
  intros S. apply le_asc in S. intros i j L. rewrite map_length in L. change 0%R with (IZR 0). rewrite !map_nth. apply IZR_le.
  destruct (nth_error k i) as [x|] eqn:X; [|apply nth_error_None in X; lia]. destruct (nth_error k j) as [y|] eqn:Y; [|apply nth_error_None in Y; lia]. rewrite (nth_error_nth _ _ _ X), (nth_error_nth _ _ _ Y). now apply (S i j).
Qed.

(** the curve with knots [k] and coefficients [c] *)
Definition curve (p : nat) (k : list Z) (c : list R) (x : R) : R := rsum (length c) (fun i => nth i c 0 * bspl (fun i => IZR (nth i k 0%Z)) p i x)%R.
Lemma curve_ext p k c x : length c + p + 1 = length k -> curve p k c x = rsum (length c) (fun i => nth i c 0 * bspl (ext (map IZR k)) p i x)%R.
Proof.
  intros L. apply rsum_ext. intros i Li. f_equal. apply bspl_local. intros j Lj. rewrite ext_nth by (rewrite map_length; lia). change 0%R with (IZR 0). now rewrite map_nth.
Qed.
Lemma step_curve p L k u c : open_with p L k -> (0 < u < L)%Z -> length c + p + 1 = length k ->
  exists c', boehm1 p (IZR u) (map IZR k, c) = Ok (map IZR (zinsert u k), c') /\ length c' = S (length c) /\ forall x, curve p (zinsert u k) c' x = curve p k c x.
Proof.
  intros O U Lc. destruct (zinsert_split u k (open_sorted _ _ _ O)) as (A & B & E & Z & HA & HB).
  assert (LA : p < length A /\ p < length B).
  { destruct O as (mid & EK & P & S & BD). split; apply Nat.nle_gt; intros C.
    - assert (X : nth (length A) k 0%Z = 0%Z). { rewrite EK, app_nth1 by (rewrite repeat_length; lia). apply nth_repeat. }
      rewrite E, app_nth2, Nat.sub_diag in X by lia. destruct B as [|y B]; [exfalso; rewrite app_nil_r in E; rewrite E in EK; apply (f_equal (@length _)) in EK; rewrite !app_length, !repeat_length in EK; lia|]. cbn in X. subst y. specialize (HB 0%Z (or_introl eq_refl)). lia.
    - assert (LK : length k = p + 1 + (length mid + (p + 1))) by (rewrite EK, !app_length, !repeat_length; reflexivity). assert (LAB : length k = length A + length B) by (rewrite E; apply app_length).
      assert (X : nth (length A - 1) k 0%Z = L). { rewrite EK, !app_nth2 by (rewrite ?repeat_length; lia). rewrite repeat_length. rewrite <- (nth_repeat L (p + 1) (length A - 1 - (p + 1) - length mid)) at 2. apply nth_indep. rewrite repeat_length. lia. }
      rewrite E, app_nth1 in X by lia. assert (In L A) by (rewrite <- X; apply nth_In; lia). specialize (HA L H). lia. }
  destruct LA as (LA & LB). assert (HA' : forall v, In v (map IZR A) -> (v <= IZR u)%R) by (intros v Hv; apply in_map_iff in Hv; destruct Hv as (w & <- & Hw); apply IZR_le; now apply HA).
  assert (HB' : forall v, In v (map IZR B) -> (IZR u < v)%R) by (intros v Hv; apply in_map_iff in Hv; destruct Hv as (w & <- & Hw); apply IZR_lt; now apply HB).
  assert (AS : BoehmSpec.ascending (map IZR A ++ map IZR B)) by (rewrite <- map_app, <- E; apply map_asc; exact (open_sorted _ _ _ O)).
  assert (LC : length c + p + 1 = length (map IZR A ++ map IZR B)) by (rewrite <- map_app, <- E, map_length; exact Lc).
  assert (EK : map IZR k = map IZR A ++ map IZR B) by (rewrite E; apply map_app). assert (EZ : map IZR (zinsert u k) = map IZR A ++ IZR u :: map IZR B) by (rewrite Z, map_app; reflexivity).
  eexists. split; [|split].
  - rewrite EK, EZ. apply ins_ok; try assumption; rewrite ?map_length; lia.
  - rewrite map_length, seq_length. reflexivity.
  - intros x. rewrite curve_ext by (rewrite map_length, seq_length, zinsert_length; lia). rewrite (curve_ext p k c x Lc). rewrite map_length, seq_length, EZ, EK. rewrite (ins_sum p (IZR u) (map IZR A) (map IZR B) c) by (try assumption; rewrite ?map_length; lia).
    apply rsum_ext. intros i Li. f_equal. now apply nth_map_seq.
Qed.
Lemma all_curve p L k c ins : open_with p L k -> (forall y, In y ins -> (0 < y < L)%Z) -> length c + p + 1 = length k ->
  exists c', insertAll p ins (map IZR k, c) = Ok (map IZR (fold_right zinsert k ins), c') /\ length c' = length ins + length c /\ forall x, curve p (fold_right zinsert k ins) c' x = curve p k c x.
Proof.
  intros O H Lc. induction ins as [|u ins IH]; [exists c; auto|]. destruct IH as (c1 & E1 & L1 & S1); [intros; apply H; now right|]. cbn [insertAll fold_right]. rewrite E1. cbn [bind].
  destruct (step_curve p L (fold_right zinsert k ins) u c1) as (c2 & E2 & L2 & S2); [apply insert_open; [exact O|intros; apply H; now right]|apply H; now left|rewrite insert_length; lia|].
  exists c2. split; [exact E2|]. split; [cbn [length]; lia|]. intros x. now rewrite S2, S1.
Qed.

(** ** Surfaces *)
Lemma mapM_exists {A B} (f : A -> res B) (P : A -> B -> Prop) l : (forall x, In x l -> exists y, f x = Ok y /\ P x y) -> exists m, mapM f l = Ok m /\ Forall2 P l m.
Proof.
  induction l as [|a l IH]; intros H; [exists []; split; [reflexivity|constructor]|]. destruct (H a (or_introl eq_refl)) as (y & E & Py). destruct IH as (m & Em & F); [intros; apply H; now right|]. exists (y :: m). cbn [mapM]. rewrite E. cbn [bind]. rewrite Em. split; [reflexivity|now constructor].
Qed.
Lemma forall2_seq {B} (P : nat -> B -> Prop) n m (d : B) : Forall2 P (seq 0 n) m -> length m = n /\ forall j, j < n -> P j (nth j m d).
Proof.
  assert (G : forall n s m, Forall2 P (seq s n) m -> length m = n /\ forall j, j < n -> P (s + j) (nth j m d)).
  { clear n m. induction n as [|n IH]; intros s m F; cbn [seq] in F; inversion F as [|? ? ? ? Py F']; subst; [split; [reflexivity|lia]|]. destruct (IH _ _ F') as (Lm & H). split; [cbn; now rewrite Lm|]. intros [|j] Lj; [now rewrite Nat.add_0_r|]. cbn [nth]. replace (s + S j) with (S s + j) by lia. apply H. lia. }
  intros F. exact (G n 0 m F).
Qed.
Lemma concat_nth {A} (f : nat -> nat -> A) n0 n1 i j d : i < n0 -> j < n1 -> nth (i + n0 * j) (concat (map (fun j => map (fun i => f i j) (seq 0 n0)) (seq 0 n1))) d = f i j.
Proof.
  intros Li. assert (G : forall n1 s j, j < n1 -> nth (i + n0 * j) (concat (map (fun j => map (fun i => f i j) (seq 0 n0)) (seq s n1))) d = f i (s + j)).
  { clear j n1. induction n1 as [|n1 IH]; intros s j Lj; [lia|]. cbn [seq map concat]. destruct j as [|j].
    - rewrite Nat.mul_0_r, Nat.add_0_r. rewrite app_nth1 by (rewrite map_length, seq_length; exact Li). rewrite (nth_indep _ d (f 0 s)) by (rewrite map_length, seq_length; exact Li). rewrite (map_nth (fun i => f i s)), seq_nth by exact Li. now rewrite Nat.add_0_r.
    - rewrite app_nth2 by (rewrite map_length, seq_length; nia). rewrite map_length, seq_length. replace (i + n0 * S j - n0) with (i + n0 * j) by nia. rewrite IH by lia. f_equal. lia. }
  intros Lj. rewrite (G n1 0 j Lj). reflexivity.
Qed.
Lemma concat_length {A} (f : nat -> nat -> A) n0 n1 : length (concat (map (fun j => map (fun i => f i j) (seq 0 n0)) (seq 0 n1))) = n0 * n1.
Proof. generalize 0 at 2 as s. induction n1 as [|n1 IH]; intros s; [cbn; lia|]. cbn [seq map concat]. rewrite app_length, map_length, seq_length, IH. nia. Qed.
Lemma rsum_swap n m (f : nat -> nat -> R) : rsum n (fun i => rsum m (f i)) = rsum m (fun j => rsum n (fun i => f i j)).
Proof.
  induction n as [|n IH]; cbn [rsum]; [symmetry; apply rsum_zero; reflexivity|]. rewrite IH. rewrite rsum_plus. reflexivity.
Qed.
Lemma rsum_scale n a f : rsum n (fun i => f i * a)%R = (rsum n f * a)%R.
Proof. induction n as [|n IH]; cbn [rsum]; [ring|rewrite IH; ring]. Qed.

Definition opened (b : vbase) (L0 L1 : Z) : Prop := open_with (vd0 b) L0 (vk0 b) /\ open_with (vd1 b) L1 (vk1 b).

Lemma open_size p L k : open_with p L k -> length k = (length k - p - 1) + p + 1.
Proof. intros (mid & -> & _). rewrite !app_length, !repeat_length. lia. Qed.

Definition rowOf (n0 : nat) (c : list R) (j : nat) : list R := map (fun i => nth (i + n0 * j) c 0%R) (seq 0 n0).
Lemma surf_rows b c x y : surf b c x y = rsum (vsize1 b) (fun j => curve (vd0 b) (vk0 b) (rowOf (vsize0 b) c j) x * bspl (knotR b 1) (vd1 b) j y)%R.
Proof.
  unfold surf. apply rsum_ext. intros j Lj. unfold curve, rowOf. rewrite map_length, seq_length, <- rsum_scale. apply rsum_ext. intros i Li. rewrite nth_map_seq by exact Li. change (count0 b) with (vsize0 b). unfold knotR, knots, degree. cbv beta. ring.
Qed.

Theorem boehm2_ok b L0 L1 i0 i1 c : opened b L0 L1 -> (forall y, In y i0 -> (0 < y < L0)%Z) -> (forall y, In y i1 -> (0 < y < L1)%Z) -> length c = vsize b ->
  exists c', boehm2 b i0 i1 c = Ok c' /\ length c' = vsize (insertKnots b i0 i1) /\ forall x y, surf (insertKnots b i0 i1) c' x y = surf b c x y.
Proof.
  intros (O0 & O1) H0 H1 Lc. unfold boehm2. set (n0 := vsize0 b) in *. set (n1 := vsize1 b) in *. unfold vsize in Lc. fold n0 n1 in Lc. rewrite Lc, Nat.eqb_refl. cbn [ensure bind].
  assert (S0 : n0 + vd0 b + 1 = length (vk0 b)) by (symmetry; apply (open_size _ _ _ O0)). assert (S1 : n1 + vd1 b + 1 = length (vk1 b)) by (symmetry; apply (open_size _ _ _ O1)).
  set (k0' := fold_right zinsert (vk0 b) i0). set (k1' := fold_right zinsert (vk1 b) i1).
  destruct (mapM_exists (fun j => insertAll (vd0 b) i0 (map IZR (vk0 b), map (fun i => nth (i + n0 * j) c 0%R) (seq 0 n0))) (fun j r => length (snd r) = length i0 + n0 /\ forall x, curve (vd0 b) k0' (snd r) x = curve (vd0 b) (vk0 b) (rowOf n0 c j) x) (seq 0 n1)) as (rows & ER & FR).
  { intros j _. destruct (all_curve (vd0 b) L0 (vk0 b) (rowOf n0 c j) i0 O0 H0) as (c' & E & Lc' & SC); [unfold rowOf; rewrite map_length, seq_length; exact S0|]. eexists. split; [exact E|]. cbn [snd]. split; [rewrite Lc'; unfold rowOf; now rewrite map_length, seq_length|exact SC]. }
  rewrite ER. cbn [bind]. apply (forall2_seq _ _ _ ([], [])) in FR. destruct FR as (LR & FR).
  set (colOf := fun i => map (fun r : list R * list R => nth i (snd r) 0%R) rows).
  destruct (mapM_exists (fun i => insertAll (vd1 b) i1 (map IZR (vk1 b), map (fun r : list R * list R => nth i (snd r) 0%R) rows)) (fun i r => length (snd r) = length i1 + n1 /\ forall y, curve (vd1 b) k1' (snd r) y = curve (vd1 b) (vk1 b) (colOf i) y) (seq 0 (n0 + length i0))) as (cols & EC & FC).
  { intros i _. destruct (all_curve (vd1 b) L1 (vk1 b) (colOf i) i1 O1 H1) as (c' & E & Lc' & SC); [unfold colOf; rewrite map_length, LR; exact S1|]. eexists. split; [exact E|]. cbn [snd]. split; [rewrite Lc'; unfold colOf; now rewrite map_length, LR|exact SC]. }
  rewrite EC. cbn [bind]. apply (forall2_seq _ _ _ ([], [])) in FC. destruct FC as (LCs & FC).
  set (g := fun i j => nth j (snd (nth i cols ([], []))) 0%R).
  assert (EM : forall j, map (fun r : list R * list R => nth j (snd r) 0%R) cols = map (fun i => g i j) (seq 0 (n0 + length i0))).
  { intros j. apply nth_ext with (d := 0%R) (d' := 0%R); [rewrite !map_length, seq_length; exact LCs|]. intros i Li. rewrite map_length in Li. rewrite nth_map_seq by lia. unfold g. rewrite (nth_indep _ 0%R (nth j (snd (([], []) : list R * list R)) 0%R)) by (rewrite map_length; exact Li). now rewrite (map_nth (fun r : list R * list R => nth j (snd r) 0%R)). }
  rewrite (map_ext _ _ EM). eexists. split; [reflexivity|].
  assert (V0 : vsize0 (insertKnots b i0 i1) = n0 + length i0) by (unfold vsize0; cbn [insertKnots vk0 vd0]; rewrite insert_length; lia).
  assert (V1 : vsize1 (insertKnots b i0 i1) = n1 + length i1) by (unfold vsize1; cbn [insertKnots vk1 vd1]; rewrite insert_length; lia).
  split; [rewrite concat_length; unfold vsize; now rewrite V0, V1|]. intros x y. set (c' := concat _).
  (* columns first *)
  transitivity (rsum (n0 + length i0) (fun i => curve (vd1 b) k1' (snd (nth i cols ([], []))) y * bspl (fun i => IZR (nth i k0' 0%Z)) (vd0 b) i x))%R.
  { rewrite surf_rows, V1. unfold curve at 1. rewrite (rsum_ext _ _ (fun j => rsum (n0 + length i0) (fun i => g i j * bspl (knotR (insertKnots b i0 i1) 1) (vd1 b) j y * bspl (fun i => IZR (nth i k0' 0%Z)) (vd0 b) i x))%R).
    2:{ intros j Lj. unfold curve. rewrite <- rsum_scale. unfold rowOf. rewrite map_length, seq_length, V0. apply rsum_ext. intros i Li. rewrite nth_map_seq by exact Li. unfold c'. rewrite concat_nth by assumption. cbn [insertKnots vd0 vk0 vd1]. unfold k0'. ring. }
    rewrite rsum_swap. apply rsum_ext. intros i Li. rewrite rsum_scale. f_equal. unfold curve. destruct (FC i Li) as (LS & _). rewrite LS. rewrite (Nat.add_comm (length i1)). apply rsum_ext. intros j Lj. reflexivity. }
  (* then rows *)
  rewrite (rsum_ext _ _ (fun i => rsum n1 (fun j => nth i (snd (nth j rows ([], []))) 0 * bspl (fun i => IZR (nth i k0' 0%Z)) (vd0 b) i x * bspl (knotR b 1) (vd1 b) j y))%R).
  2:{ intros i Li. destruct (FC i Li) as (_ & SC). rewrite SC. unfold curve. rewrite <- rsum_scale. unfold colOf. rewrite map_length, LR. apply rsum_ext. intros j Lj. rewrite (nth_indep _ 0%R (nth i (snd (([], []) : list R * list R)) 0%R)) by (rewrite map_length; lia).
      rewrite (map_nth (fun r : list R * list R => nth i (snd r) 0%R)). unfold knotR, knots. ring. }
  rewrite rsum_swap, surf_rows. fold n0 n1. apply rsum_ext. intros j Lj. rewrite rsum_scale. f_equal. destruct (FR j Lj) as (LS & SC). rewrite <- SC. unfold curve. rewrite LS, (Nat.add_comm (length i0)). reflexivity.
Qed.
