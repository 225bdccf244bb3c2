(** Functions of a patch addressed by region: interior, edge strip, corner block. *)
From Verif Require Import Common TopoModel BaseModel IndexSpec TopoSpec IndexProofs ListLemmas TopoProofs.
From Coq Require Import ZifyBool.

Inductive pt :=
| PI (p i j : nat)
| PE (ps : pside) (o t : nat)
| PC (pc : pcorner) (a e : nat).

(** function at distance [o] from side [s], at position [t] along it *)
Definition spt (b : tbasis) (s : side) (o t : nat) : nat :=
  match s with
  | West => tindex b o t
  | East => tindex b (fst b - 1 - o) t
  | South => tindex b t o
  | North => tindex b t (snd b - 1 - o)
  end.

Lemma boundaryOffset_spt b s o : boundaryOffset b s o = map (spt b s o) (seq 0 (alongb b s)).
Proof. destruct s; reflexivity. Qed.

Lemma boundaryOffset_length b s o : length (boundaryOffset b s o) = alongb b s.
Proof. rewrite boundaryOffset_spt, map_length, seq_length. reflexivity. Qed.

(** point [k] steps from corner [c] along its side of direction [d], [o] rows inward *)
Definition dpt (pc : pcorner) (d k o : nat) : pt :=
  match d with 0 => PC pc o k | _ => PC pc k o end.

Definition big (bs : list tbasis) : Prop := forall b, In b bs -> 4 <= fst b /\ 4 <= snd b.

Definition zone (n i : nat) : option (bool * nat) :=
  if i <? 2 then Some (false, i) else if n - 2 <=? i then Some (true, n - 1 - i) else None.

Section P.
Variable bs : list tbasis.
Hypothesis Hbig : big bs.

Definition bas (p : nat) : tbasis := nth p bs (0, 0).

Lemma bas_vget p : p < length bs -> vget bs p = Ok (bas p).
Proof. intros H. unfold vget, bas. rewrite (nth_error_nth' _ (0, 0)) by exact H. reflexivity. Qed.
Lemma bas_big p : p < length bs -> 4 <= fst (bas p) /\ 4 <= snd (bas p).
Proof. intros H. apply Hbig. apply nth_In. exact H. Qed.
Lemma bas_along p s : p < length bs -> 4 <= alongb (bas p) s /\ 4 <= acrossb (bas p) s.
Proof. intros H. apply bas_big in H. destruct s; unfold alongb, acrossb; simpl; tauto. Qed.

Definition pvalid (x : pt) : Prop :=
  match x with
  | PI p i j => p < length bs /\ 2 <= i < fst (bas p) - 2 /\ 2 <= j < snd (bas p) - 2
  | PE ps o t => fst ps < length bs /\ o < 2 /\ 2 <= t < alongb (bas (fst ps)) (snd ps) - 2
  | PC pc a e => fst pc < length bs /\ a < 2 /\ e < 2
  end.

Definition loc (x : pt) : dof :=
  match x with
  | PI p i j => (p, tindex (bas p) i j)
  | PE ps o t => (fst ps, spt (bas (fst ps)) (snd ps) o t)
  | PC pc a e => (fst pc, cpt (bas (fst pc)) (snd pc) a e)
  end.

Definition decode2 (p i j : nat) : pt :=
  match zone (fst (bas p)) i, zone (snd (bas p)) j with
  | None, None => PI p i j
  | Some (u, a), None => PE (p, if u then East else West) a j
  | None, Some (u, a) => PE (p, if u then North else South) a i
  | Some (u, a), Some (w, e) => PC (p, corner_of u w) a e
  end.
Definition decode (y : dof) : pt :=
  let n0 := fst (bas (fst y)) in decode2 (fst y) (snd y mod n0) (snd y / n0).

Definition dvalid (y : dof) : Prop := fst y < length bs /\ snd y < tsize (bas (fst y)).

Lemma decode_tindex p i j : i < fst (bas p) -> decode (p, tindex (bas p) i j) = decode2 p i j.
Proof.
  intros H. unfold decode, tindex; simpl.
  rewrite (Nat.mul_comm (fst (bas p)) j), Nat.mod_add, Nat.div_add by lia.
  rewrite Nat.mod_small, Nat.div_small by lia. reflexivity.
Qed.

Lemma zone_lo n i : i < 2 -> zone n i = Some (false, i).
Proof. intros H. unfold zone. destruct (i <? 2) eqn:E; auto. lia. Qed.
Lemma zone_hi n a : 4 <= n -> a < 2 -> zone n (n - 1 - a) = Some (true, a).
Proof.
  intros H Ha. unfold zone. destruct (n - 1 - a <? 2) eqn:E; [lia|].
  destruct (n - 2 <=? n - 1 - a) eqn:E2; [|lia]. f_equal. f_equal. lia.
Qed.
Lemma zone_mid n i : 2 <= i < n - 2 -> zone n i = None.
Proof.
  intros H. unfold zone. destruct (i <? 2) eqn:E; [lia|]. destruct (n - 2 <=? i) eqn:E2; [lia|]. reflexivity.
Qed.

Ltac zt := repeat match goal with |- context[zone ?n ?i] =>
  first [rewrite (zone_lo n i) by lia | rewrite (zone_mid n i) by lia | rewrite zone_hi by lia] end.

Lemma decode_loc x : pvalid x -> decode (loc x) = x.
Proof.
  destruct x as [p i j|[p s] o t|[p c] a e]; simpl; intros (Hp & H1 & H2); pose proof (bas_big p Hp) as [B0 B1].
  - rewrite decode_tindex by lia. unfold decode2. zt. reflexivity.
  - destruct s; unfold alongb in H2; simpl in H2; unfold spt; rewrite decode_tindex by lia; unfold decode2;
      zt; reflexivity.
  - destruct c; unfold cpt; simpl; rewrite decode_tindex by lia; unfold decode2;
      zt; reflexivity.
Qed.

Lemma zone_cases n i : 4 <= n -> i < n ->
  (zone n i = Some (false, i) /\ i < 2) \/
  (exists a, zone n i = Some (true, a) /\ a < 2 /\ i = n - 1 - a) \/
  (zone n i = None /\ 2 <= i < n - 2).
Proof.
  intros Hn H. unfold zone. destruct (i <? 2) eqn:E; [left; split; auto; lia|].
  destruct (n - 2 <=? i) eqn:E2.
  - right; left. exists (n - 1 - i). repeat split; lia.
  - right; right. split; auto; lia.
Qed.

Lemma decode2_ok p i j : p < length bs -> i < fst (bas p) -> j < snd (bas p) ->
  pvalid (decode2 p i j) /\ loc (decode2 p i j) = (p, tindex (bas p) i j).
Proof.
  intros Hp Hi Hj. pose proof (bas_big p Hp) as [B0 B1]. unfold decode2.
  destruct (zone_cases _ i B0 Hi) as [[-> Z]|[(a & -> & Z & Ei)|[-> Z]]];
  destruct (zone_cases _ j B1 Hj) as [[-> W]|[(e & -> & W & Ej)|[-> W]]]; simpl;
    unfold alongb, cpt; simpl; rewrite <- ?Ei, <- ?Ej; repeat split; auto; try lia.
Qed.

Lemma dvalid_grid y : dvalid y ->
  snd y mod fst (bas (fst y)) < fst (bas (fst y)) /\ snd y / fst (bas (fst y)) < snd (bas (fst y)) /\
  y = (fst y, tindex (bas (fst y)) (snd y mod fst (bas (fst y))) (snd y / fst (bas (fst y)))).
Proof.
  intros [H1 H2]. pose proof (bas_big _ H1) as [B0 B1]. unfold tsize in H2.
  split; [apply Nat.mod_upper_bound; lia|]. split.
  - apply Nat.div_lt_upper_bound; lia.
  - destruct y as [p k]. simpl in *. f_equal. unfold tindex.
    pose proof (Nat.div_mod k (fst (bas p))). lia.
Qed.

Lemma decode_ok y : dvalid y -> pvalid (decode y) /\ loc (decode y) = y.
Proof.
  intros H. destruct (dvalid_grid y H) as (G1 & G2 & G3). destruct H as [H1 H2].
  destruct (decode2_ok (fst y) _ _ H1 G1 G2) as [A B]. unfold decode. split; [exact A|].
  rewrite B. symmetry. exact G3.
Qed.

Lemma loc_valid x : pvalid x -> dvalid (loc x).
Proof.
  destruct x as [p i j|[p s] o t|[p c] a e]; simpl; intros (Hp & H1 & H2); pose proof (bas_big p Hp) as [B0 B1];
    (split; [exact Hp|]); simpl.
  - apply tindex_lt; lia.
  - destruct s; unfold alongb in H2; simpl in H2; unfold spt; apply tindex_lt; lia.
  - destruct c; unfold cpt; simpl; apply tindex_lt; lia.
Qed.

Lemma loc_inj x y : pvalid x -> pvalid y -> loc x = loc y -> x = y.
Proof. intros Hx Hy E. rewrite <- (decode_loc x Hx), <- (decode_loc y Hy), E. reflexivity. Qed.

Lemma dpt_valid pc d k o : fst pc < length bs -> k < 2 -> o < 2 -> pvalid (dpt pc d k o).
Proof. intros. destruct d; simpl; auto. Qed.

(** the corner-based index helper gives the point of the corner block *)
Lemma ifv_dpt p c s k o : p < length bs -> on_side c s = true -> k < 2 -> o < 2 ->
  indexFromVert (bas p) k c s o = Ok (snd (loc (dpt (p, c) (side_dir s) k o))).
Proof.
  intros Hp Hc Hk Ho. pose proof (bas_along p s Hp) as [B0 B1].
  rewrite ifv_cpt by (auto; lia). destruct (side_dir s); reflexivity.
Qed.

Lemma loc_fst x : fst (loc x) = match x with PI p _ _ => p | PE ps _ _ => fst ps | PC pc _ _ => fst pc end.
Proof. destruct x; reflexivity. Qed.
Lemma loc_dpt_fst pc d k o : fst (loc (dpt pc d k o)) = fst pc.
Proof. destruct d; reflexivity. Qed.

(** points along a side seen from its ends *)
Lemma spt_of_dpt p s u k o : p < length bs -> k < 2 -> o < 2 ->
  loc (dpt (p, corner_at s u) (side_dir s) k o) =
  (p, spt (bas p) s o (if u then alongb (bas p) s - 1 - k else k)).
Proof.
  intros Hp Hk Ho. destruct s, u; simpl; unfold cpt, alongb; simpl; reflexivity.
Qed.

Lemma spt_inj p s o u v : p < length bs -> o < 2 -> u < alongb (bas p) s -> v < alongb (bas p) s ->
  spt (bas p) s o u = spt (bas p) s o v -> u = v.
Proof.
  intros Hp Ho Hu Hv E. pose proof (bas_big p Hp) as [B0 B1]. unfold alongb in *.
  destruct s; simpl in *; apply tindex_inj in E; lia.
Qed.

(** ** counting over a patch *)

Lemma sum_grid (f : nat -> nat) n0 n1 :
  sumN (map f (seq 0 (n0 * n1))) =
  sumN (map (fun j => sumN (map (fun i => f (i + n0 * j)) (seq 0 n0))) (seq 0 n1)).
Proof.
  induction n1 as [|n1 IH]; [rewrite Nat.mul_0_r; reflexivity|].
  replace (n0 * S n1) with (n0 * n1 + n0) by lia.
  rewrite seq_app, map_app, sumN_app, IH.
  replace (S n1) with (n1 + 1) by lia. rewrite seq_app, map_app, sumN_app. simpl. rewrite Nat.add_0_r.
  f_equal. clear. generalize (n0 * n1) as a. intros a.
  assert (forall k, sumN (map f (seq (a + k) n0)) = sumN (map (fun i => f (i + a)) (seq k n0))) as G.
  { induction n0 as [|n IHn]; intros k; simpl; [reflexivity|]. rewrite <- IHn.
    replace (S (a + k)) with (a + S k) by lia. f_equal. f_equal. lia. }
  specialize (G 0). rewrite Nat.add_0_r in G. exact G.
Qed.

Lemma patch_sum (g : pt -> nat) p : p < length bs ->
  sumN (map (fun k => g (decode (p, k))) (seq 0 (tsize (bas p)))) =
    sumN (map (fun j => sumN (map (fun i => g (PI p i j)) (seq 2 (fst (bas p) - 4)))) (seq 2 (snd (bas p) - 4)))
  + sumN (map (fun s => sumN (map (fun o => sumN (map (fun t => g (PE (p, s) o t))
        (seq 2 (alongb (bas p) s - 4)))) [0; 1])) [West; East; South; North])
  + sumN (map (fun c => sumN (map (fun a => sumN (map (fun e => g (PC (p, c) a e)) [0; 1])) [0; 1]))
        [SW; SE; NW; NE]).
Proof.
  intros Hp. pose proof (bas_big p Hp) as [B0 B1]. unfold tsize. rewrite sum_grid.
  set (n0 := fst (bas p)) in *. set (n1 := snd (bas p)) in *.
  assert (forall j, sumN (map (fun i => g (decode (p, i + n0 * j))) (seq 0 n0)) =
    g (decode2 p 0 j) + g (decode2 p 1 j) + sumN (map (fun i => g (decode2 p i j)) (seq 2 (n0 - 4)))
    + g (decode2 p (n0 - 2) j) + g (decode2 p (n0 - 1) j)) as R.
  { intros j. rewrite sumN_seq_split by exact B0.
    assert (forall i, i < n0 -> decode (p, i + n0 * j) = decode2 p i j) as D by (intros; apply decode_tindex; auto).
    rewrite !D by lia. do 3 f_equal. apply sumN_map_ext. intros i Hi. apply in_seq in Hi. rewrite D by lia. reflexivity. }
  rewrite (sumN_map_ext _ _ _ (fun j _ => R j)). clear R.
  rewrite sumN_seq_split by exact B1.
  replace (n0 - 2) with (n0 - 1 - 1) by lia. replace (n1 - 2) with (n1 - 1 - 1) by lia.
  assert (forall a b, a < 2 -> b < 2 -> decode2 p a b = PC (p, SW) a b) as D1.
  { intros. unfold decode2. zt. reflexivity. }
  assert (forall a b, a < 2 -> b < 2 -> decode2 p (n0 - 1 - a) b = PC (p, SE) a b) as D2.
  { intros. unfold decode2. fold n0. zt. reflexivity. }
  assert (forall a b, a < 2 -> b < 2 -> decode2 p a (n1 - 1 - b) = PC (p, NW) a b) as D3.
  { intros. unfold decode2. fold n1. zt. reflexivity. }
  assert (forall a b, a < 2 -> b < 2 -> decode2 p (n0 - 1 - a) (n1 - 1 - b) = PC (p, NE) a b) as D4.
  { intros. unfold decode2. fold n0 n1. zt. reflexivity. }
  assert (forall o t, o < 2 -> 2 <= t < n1 - 2 -> decode2 p o t = PE (p, West) o t) as E1.
  { intros. unfold decode2. fold n0 n1. zt. reflexivity. }
  assert (forall o t, o < 2 -> 2 <= t < n1 - 2 -> decode2 p (n0 - 1 - o) t = PE (p, East) o t) as E2.
  { intros. unfold decode2. fold n0 n1. zt. reflexivity. }
  assert (forall o t, o < 2 -> 2 <= t < n0 - 2 -> decode2 p t o = PE (p, South) o t) as E3.
  { intros. unfold decode2. fold n0 n1. zt. reflexivity. }
  assert (forall o t, o < 2 -> 2 <= t < n0 - 2 -> decode2 p t (n1 - 1 - o) = PE (p, North) o t) as E4.
  { intros. unfold decode2. fold n0 n1. zt. reflexivity. }
  assert (forall i j, 2 <= i < n0 - 2 -> 2 <= j < n1 - 2 -> decode2 p i j = PI p i j) as E5.
  { intros. unfold decode2. fold n0 n1. zt. reflexivity. }
  assert (forall b, b < 2 -> sumN (map (fun i => g (decode2 p i b)) (seq 2 (n0 - 4))) =
     sumN (map (fun t => g (PE (p, South) b t)) (seq 2 (n0 - 4)))) as S3.
  { intros b Hb. apply sumN_map_ext. intros i Hi. apply in_seq in Hi. rewrite E3 by lia. reflexivity. }
  assert (forall b, b < 2 -> sumN (map (fun i => g (decode2 p i (n1 - 1 - b))) (seq 2 (n0 - 4))) =
     sumN (map (fun t => g (PE (p, North) b t)) (seq 2 (n0 - 4)))) as S4.
  { intros b Hb. apply sumN_map_ext. intros i Hi. apply in_seq in Hi. rewrite E4 by lia. reflexivity. }
  pose proof (S4 0 ltac:(lia)) as S40. pose proof (S4 1 ltac:(lia)) as S41.
  pose proof (D2 0 0 ltac:(lia) ltac:(lia)) as D200. pose proof (D2 0 1 ltac:(lia) ltac:(lia)) as D201.
  pose proof (D2 1 0 ltac:(lia) ltac:(lia)) as D210. pose proof (D2 1 1 ltac:(lia) ltac:(lia)) as D211.
  pose proof (D3 0 0 ltac:(lia) ltac:(lia)) as D300. pose proof (D3 0 1 ltac:(lia) ltac:(lia)) as D301.
  pose proof (D3 1 0 ltac:(lia) ltac:(lia)) as D310. pose proof (D3 1 1 ltac:(lia) ltac:(lia)) as D311.
  pose proof (D4 0 0 ltac:(lia) ltac:(lia)) as D400. pose proof (D4 0 1 ltac:(lia) ltac:(lia)) as D401.
  pose proof (D4 1 0 ltac:(lia) ltac:(lia)) as D410. pose proof (D4 1 1 ltac:(lia) ltac:(lia)) as D411.
  rewrite ?Nat.sub_0_r in *.
  rewrite (D1 0 0), (D1 0 1), (D1 1 0), (D1 1 1) by lia.
  rewrite D200, D201, D210, D211, D300, D301, D310, D311, D400, D401, D410, D411, S40, S41, !S3 by lia.
  rewrite !sumN_map_add.
  assert (sumN (map (fun x => g (decode2 p 0 x)) (seq 2 (n1 - 4))) = sumN (map (fun t => g (PE (p, West) 0 t)) (seq 2 (n1 - 4)))) as W0.
  { apply sumN_map_ext. intros i Hi. apply in_seq in Hi. rewrite E1 by lia. reflexivity. }
  assert (sumN (map (fun x => g (decode2 p 1 x)) (seq 2 (n1 - 4))) = sumN (map (fun t => g (PE (p, West) 1 t)) (seq 2 (n1 - 4)))) as W1.
  { apply sumN_map_ext. intros i Hi. apply in_seq in Hi. rewrite E1 by lia. reflexivity. }
  assert (sumN (map (fun x => g (decode2 p (n0 - 1) x)) (seq 2 (n1 - 4))) = sumN (map (fun t => g (PE (p, East) 0 t)) (seq 2 (n1 - 4)))) as F0.
  { apply sumN_map_ext. intros i Hi. apply in_seq in Hi. rewrite <- (E2 0) by lia. rewrite Nat.sub_0_r. reflexivity. }
  assert (sumN (map (fun x => g (decode2 p (n0 - 1 - 1) x)) (seq 2 (n1 - 4))) = sumN (map (fun t => g (PE (p, East) 1 t)) (seq 2 (n1 - 4)))) as F1.
  { apply sumN_map_ext. intros i Hi. apply in_seq in Hi. rewrite E2 by lia. reflexivity. }
  assert (sumN (map (fun j => sumN (map (fun i => g (decode2 p i j)) (seq 2 (n0 - 4)))) (seq 2 (n1 - 4))) =
          sumN (map (fun j => sumN (map (fun i => g (PI p i j)) (seq 2 (n0 - 4)))) (seq 2 (n1 - 4)))) as M.
  { apply sumN_map_ext. intros j Hj. apply sumN_map_ext. intros i Hi. apply in_seq in Hi, Hj. rewrite E5 by lia. reflexivity. }
  rewrite W0, W1, F0, F1, M. cbn [map sumN]. unfold alongb, along. fold n0 n1. lia.
Qed.

End P.
