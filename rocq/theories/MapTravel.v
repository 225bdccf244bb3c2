(** Proofs for C49, C50: travelling over interfaces. *)
From Verif Require Import Common ListLemmas TopoModel MapModel MapSpec MapProofs MapTravelSpec.
From Coq Require Import ZifyBool.
Open Scope Z_scope.

Definition L (bs : list mbase) (p : nat) (b : mbase) (u v : Z) : Z := before bs p + (u + mb_u b * v).

Section T.
Context (bs : list mbase) (t : topo).
Hypothesis POS : forall b, In b bs -> 0 <= mb_size b.

Lemma localIndexOf_ok p b u v : nth_error bs p = Some b -> localIndexOf bs p u v = Ok (L bs p b u v).
Proof.
  intros E. assert (p < length bs)%nat by (apply nth_error_Some; congruence).
  unfold localIndexOf. rewrite firstLocalIndex_ok by lia. cbn [bind]. unfold vget. rewrite E. reflexivity.
Qed.

Lemma in_size u v (b : mbase) : 0 <= u < mb_u b -> 0 <= v < mb_v b -> 0 <= u + mb_u b * v < mb_size b.
Proof. intros U V. unfold mb_size. nia. Qed.

Lemma getPatch_L p b u v : nth_error bs p = Some b -> 0 <= u < mb_u b -> 0 <= v < mb_v b -> getPatch bs (L bs p b u v) = p.
Proof. intros E U V. unfold L. apply (getPatch_spec bs POS p _ b E). now apply in_size. Qed.

Lemma getPar_L p b u v par : nth_error bs p = Some b -> 0 <= u < mb_u b -> 0 <= v < mb_v b ->
  getPar bs (L bs p b u v) par = Ok (if par then v else u).
Proof.
  intros E U V. unfold getPar. rewrite getPatchIndex_ok, (getPatch_L p b u v E U V). unfold vget. rewrite E. cbn [bind]. f_equal.
  unfold L, patchPar. replace (before bs p + (u + mb_u b * v) - before bs p) with (u + v * mb_u b) by lia.
  destruct par.
  - rewrite Z.div_add by lia. rewrite Z.div_small by lia. lia.
  - rewrite Z.mod_add by lia. apply Z.mod_small. lia.
Qed.

Lemma adj_par s s2 : adjacent s s2 -> exists h, s2 = side_at_end s h.
Proof. unfold adjacent. destruct s, s2; cbn; intros H; try congruence; (exists true; reflexivity) || (exists false; reflexivity). Qed.

(** staying inside *)
Lemma step_inside p b s s2 d e n rest f :
  nth_error bs p = Some b -> adjacent s s2 -> 0 <= d < nsz b s -> 0 <= e < asz b s -> 0 <= n <= d ->
  travelUVSteps (S f) bs t (fun_at bs p b s d s2 e) (towards s n :: rest) = travelUVSteps f bs t (fun_at bs p b s (d - n) s2 e) rest.
Proof.
  intros E A D Ee N. destruct (adj_par s s2 A) as (h & ->). cbn [travelUVSteps].
  assert (K : exists u v u' v', fun_at bs p b s d (side_at_end s h) e = L bs p b u v /\ fun_at bs p b s (d - n) (side_at_end s h) e = L bs p b u' v' /\
    0 <= u < mb_u b /\ 0 <= v < mb_v b /\
    travelInsidePatch bs (L bs p b u v) (snd (towards s n)) (fst (towards s n)) = Ok (L bs p b u' v', 0)).
  { destruct s, h; unfold fun_at, coord; cbn [side_at_end side_dir side_par nsz asz] in *;
    (eexists _, _, _, _; split; [reflexivity|]; split; [reflexivity|]; split; [lia|]; split; [lia|]);
    unfold travelInsidePatch; rewrite (getPatch_L p b) by (assumption || lia);
    rewrite !(getPar_L p b) by (assumption || lia); unfold vget; rewrite E; cbn [bind towards side_par side_dir fst snd Nat.eqb negb];
    unfold parMax;
    match goal with |- context [if ?c then _ else _] => assert (C : c = true) by lia; rewrite C end;
    rewrite (localIndexOf_ok p b) by exact E; cbn [bind]; f_equal; f_equal; unfold L; ring. }
  destruct K as (u & v & u' & v' & -> & -> & Hu & Hv & ->). cbn [bind]. reflexivity.
Qed.
(** crossing an interface *)
Lemma step_cross p b s s2 p' b' s' s2' d e n (rest rest' : list step) f :
  glued bs t p b s s2 p' b' s' s2' -> 0 <= d < nsz b s -> 0 <= e < asz b s -> d < n -> 0 < nsz b' s' ->
  (forall fi, getInterface t (p, s) = Some fi -> rest' = map (transformStep s s' (orientation fi)) rest) ->
  travelUVSteps (S f) bs t (fun_at bs p b s d s2 e) (towards s n :: rest) =
  travelUVSteps f bs t (fun_at bs p' b' s' 0 s2' e) (towards (match s' with West => East | East => West | South => North | North => South end) (n - d - 1) :: rest').
Proof.
  intros [E E' (fi & Gf & Io & -> & _) A SZ] D Ee N N' R. specialize (R fi Gf). subst rest'.
  destruct (adj_par s s2 A) as (h & ->). cbn [travelUVSteps].
  assert (K : exists u v u' v' r, fun_at bs p b s d (side_at_end s h) e = L bs p b u v /\ 0 <= u < mb_u b /\ 0 <= v < mb_v b /\
    0 <= u' < mb_u b /\ 0 <= v' < mb_v b /\ r <> 0 /\
    travelInsidePatch bs (L bs p b u v) (snd (towards s n)) (fst (towards s n)) = Ok (L bs p b u' v', r) /\
    r = fst (towards s (n - d)) /\ u' = match s with West => 0 | East => mb_u b - 1 | _ => u end /\
    v' = match s with South => 0 | North => mb_v b - 1 | _ => v end /\ (if snd (towards s n) then u' else v') = coord (asz b s) h e).
  { clear Gf Io SZ N' E'. destruct s, h; unfold fun_at, coord; cbn [side_at_end side_dir side_par nsz asz] in *;
    (eexists _, _, _, _, _; split; [reflexivity|]; split; [lia|]; split; [lia|]; split; [|split; [|split; [|split; [|split; [reflexivity|split; [reflexivity|split; [reflexivity|reflexivity]]]]]]]); cbn [towards side_par side_dir fst snd Nat.eqb]; try lia;
    unfold travelInsidePatch; rewrite (getPatch_L p b) by (assumption || lia);
    rewrite !(getPar_L p b) by (assumption || lia); unfold vget; rewrite E; cbn [bind towards side_par side_dir fst snd Nat.eqb negb];
    unfold parMax;
    match goal with |- context [if ?c && ?c' then _ else _] => assert (C : c && c' = false) by lia; rewrite C end;
    match goal with |- context [if ?c then _ else _] => (assert (C' : c = true) by lia; rewrite C') || (assert (C' : c = false) by lia; rewrite C') end;
    rewrite (localIndexOf_ok p b) by exact E; cbn [bind]; f_equal; f_equal; lia. }
  destruct K as (u & v & u' & v' & r & Fe & Hu & Hv & Hu' & Hv' & R0 & TI & Er & Eu' & Ev' & NF). rewrite Fe, TI. cbn [bind].
  replace (r =? 0) with false by lia.
  unfold transformToNeighbour. rewrite (getPatch_L p b) by assumption. rewrite !(getPar_L p b) by assumption.
  unfold vget at 1. rewrite E. cbn [bind fst snd].
  replace (if snd (towards s n) then if 0 <? r then North else South else if 0 <? r then East else West) with s
    by (clear - Er N D; destruct s; cbn [towards side_par side_dir fst snd Nat.eqb] in *; destruct (Z.ltb_spec 0 r); congruence || lia).
  rewrite Gf, Io. cbn [bind fst snd].
  match goal with |- context [ensure ?c] => replace c with true by (clear - Eu' Ev'; destruct s; unfold parMax; lia) end.
  cbn [ensure bind]. replace (r =? 0) with false by lia. cbn [negb ensure bind].
  unfold vget. rewrite E'. cbn [bind map].
  assert (ST : transformStep s s' (orientation fi) (if 0 <? r then r - 1 else r + 1, snd (towards s n)) =
               towards (match s' with West => East | East => West | South => North | North => South end) (n - d - 1)).
  { clear - Er N D. subst r. destruct s, s'; unfold towards; cbn [transformStep side_eqb side_par side_dir fst snd Nat.eqb Bool.eqb];
      match goal with |- context [0 <? ?x] => destruct (Z.ltb_spec 0 x) end; try lia; cbn [negb]; f_equal; lia. }
  rewrite ST.
  match goal with |- (do q <- ?X; _) = _ => assert (LI : X = Ok (fun_at bs p' b' s' 0 (side_at_end s' (xorb (ifflip fi) (side_par (side_at_end s h)))) e,
     towards (match s' with West => East | East => West | South => North | North => South end) (n - d - 1) :: map (transformStep s s' (orientation fi)) rest)) end.
  { rewrite NF. clear TI Fe Eu' Ev' ST Er. unfold side_at_end at 2. unfold fun_at, orientation, parMax.
    assert (AE : asz b s = asz b' s') by exact SZ. rewrite AE. clear AE.
    destruct s'; cbn [Nat.eqb side_dir side_par];
      (rewrite (localIndexOf_ok p' b') by exact E'); cbn [bind]; f_equal; f_equal; unfold L, coord, side_at_end; cbn [asz side_dir side_par];
      destruct s, h, (ifflip fi); cbn [negb xorb side_dir side_par]; ring. }
  rewrite LI. reflexivity.
Qed.

Definition opp (s : side) : side := match s with West => East | East => West | South => North | North => South end.

Lemma fun_at_opp p b s d s2 e : fun_at bs p b s d s2 e = fun_at bs p b (opp s) (nsz b s - 1 - d) s2 e.
Proof. unfold fun_at, coord. destruct s; cbn [opp side_dir side_par nsz]; f_equal; ring. Qed.

Lemma transform_adj s s' s2 fl m : adjacent s s2 -> (opposite s s' = true -> fl = false) ->
  transformStep s s' (negb fl) (towards s2 m) = towards (side_at_end s' (xorb fl (side_par s2))) m.
Proof.
  unfold adjacent. intros A O.
  destruct s, s2; cbn in A; try congruence; clear A; destruct s', fl; cbn in O; try (specialize (O eq_refl); discriminate);
    unfold towards; cbn; f_equal; lia.
Qed.

Lemma adj_end s h : adjacent s (side_at_end s h).
Proof. unfold adjacent. destruct s, h; cbn; congruence. Qed.
Lemma adj_opp s h : adjacent (opp s) (side_at_end s h).
Proof. unfold adjacent. destruct s, h; cbn; congruence. Qed.
Lemma nsz_opp b s : nsz b (opp s) = nsz b s.
Proof. now destruct s. Qed.
Lemma asz_opp b s : asz b (opp s) = asz b s.
Proof. now destruct s. Qed.
Lemma adj_asz b s s2 : adjacent s s2 -> asz b s = nsz b s2.
Proof. unfold adjacent. destruct s, s2; cbn; congruence. Qed.
Lemma adj_sym s s2 : adjacent s s2 -> adjacent s2 s.
Proof. unfold adjacent. congruence. Qed.
Lemma fun_at_swap p b s d s2 e : adjacent s s2 -> fun_at bs p b s d s2 e = fun_at bs p b s2 e s d.
Proof. unfold adjacent, fun_at. destruct s, s2; cbn [side_dir]; congruence. Qed.

(** one step that crosses the interface; the second step (if any) is turned to the matching side *)
Lemma cross_over p b s s2 p' b' s' s2' d e n (ms : list Z) f :
  glued bs t p b s s2 p' b' s' s2' -> 0 <= d < nsz b s -> 0 <= e < asz b s -> d < n -> n - d - 1 < nsz b' s' ->
  travelUVSteps (S (S f)) bs t (fun_at bs p b s d s2 e) (towards s n :: map (towards s2) ms) =
  travelUVSteps f bs t (fun_at bs p' b' s' (n - d - 1) s2' e) (map (towards s2') ms).
Proof.
  intros G D Ee N N'. pose proof G as [E E' (fi & Gf & Io & E2 & O) A SZ].
  rewrite (step_cross p b s s2 p' b' s' s2' d e n (map (towards s2) ms) (map (towards s2') ms)); try assumption; try lia.
  - fold (opp s'). rewrite (fun_at_opp p' b' s' 0), Z.sub_0_r.
    rewrite step_inside; try assumption.
    + rewrite (fun_at_opp p' b' s' (n - d - 1)). f_equal.
    + rewrite E2. apply adj_opp.
    + rewrite nsz_opp. lia.
    + rewrite asz_opp. lia.
    + lia.
  - intros fj Gj. rewrite Gf in Gj. injection Gj as <-. rewrite map_map. apply map_ext. intros m. rewrite E2. symmetry. now apply transform_adj.
Qed.

(** ** Lines *)
Definition line_fun (p : nat) (b : mbase) (s s2 : side) (p' : nat) (b' : mbase) (s' s2' : side) (d e k : Z) : Z :=
  if k <=? d then fun_at bs p b s (d - k) s2 e else fun_at bs p' b' s' (k - d - 1) s2' e.

Lemma line_travel p b s s2 p' b' s' s2' d e k f :
  glued bs t p b s s2 p' b' s' s2' -> 0 <= d < nsz b s -> 0 <= e < asz b s -> 0 <= k -> k - d - 1 < nsz b' s' ->
  travelUVSteps (S (S f)) bs t (fun_at bs p b s d s2 e) [towards s k] = Ok (line_fun p b s s2 p' b' s' s2' d e k).
Proof.
  intros G D Ee K N'. pose proof G as [E E' _ A SZ]. unfold line_fun. destruct (Z.leb_spec k d).
  - rewrite step_inside; [|assumption..|lia]. reflexivity.
  - pose proof (cross_over p b s s2 p' b' s' s2' d e k [] f G D Ee) as X. cbn [map] in X. rewrite X by lia. destruct f; reflexivity.
Qed.

(** ** Blocks *)
Definition block_fun (F F1 F2 F3 : frame) (x y k1 k2 : Z) : Z :=
  match k1 <=? x, k2 <=? y with
  | true, true => fun_at bs (fp F) (fb F) (fs1 F) (x - k1) (fs2 F) (y - k2)
  | false, true => fun_at bs (fp F1) (fb F1) (fs1 F1) (k1 - x - 1) (fs2 F1) (y - k2)
  | true, false => fun_at bs (fp F2) (fb F2) (fs1 F2) (x - k1) (fs2 F2) (k2 - y - 1)
  | false, false => fun_at bs (fp F3) (fb F3) (fs1 F3) (k1 - x - 1) (fs2 F3) (k2 - y - 1)
  end.

Lemma glued_adj' p b s s2 p' b' s' s2' : glued bs t p b s s2 p' b' s' s2' -> adjacent s' s2'.
Proof. intros [E E' (fi & Gf & Io & E2 & O) A SZ]. rewrite E2. apply adj_end. Qed.

Lemma block_travel F F1 F2 F3 n1 n2 x y k1 k2 f : square bs t F F1 F2 F3 ->
  room n1 n2 F -> room n1 n2 F1 -> room n1 n2 F2 -> room n1 n2 F3 -> 0 <= x < n1 -> 0 <= y < n2 ->
  0 <= k1 <= n1 -> 0 <= k2 <= n2 ->
  travelUVSteps (S (S (S (S f)))) bs t (fun_at bs (fp F) (fb F) (fs1 F) x (fs2 F) y) [towards (fs1 F) k1; towards (fs2 F) k2] =
  Ok (block_fun F F1 F2 F3 x y k1 k2).
Proof.
  intros [(S01 & _) _ (S02 & _) (S13 & _)] (R1 & R2) (R11 & R12) (R21 & R22) (R31 & R32) X Y K1 K2.
  pose proof (gl_adj _ _ _ _ _ _ _ _ _ _ S01) as A. pose proof (gl_b _ _ _ _ _ _ _ _ _ _ S01) as B.
  pose proof (glued_adj' _ _ _ _ _ _ _ _ S01) as A1. pose proof (gl_b' _ _ _ _ _ _ _ _ _ _ S01) as B1.
  pose proof (glued_adj' _ _ _ _ _ _ _ _ S02) as A2. pose proof (glued_adj' _ _ _ _ _ _ _ _ S13) as A3.
  unfold block_fun. destruct (Z.leb_spec k1 x).
  - rewrite step_inside; [|assumption|assumption|lia|rewrite (adj_asz _ _ _ A); lia|lia].
    rewrite (fun_at_swap (fp F)) by exact A. destruct (Z.leb_spec k2 y).
    + rewrite step_inside; [|assumption|now apply adj_sym|lia|rewrite (adj_asz _ _ _ (adj_sym _ _ A)); lia|lia].
      rewrite (fun_at_swap (fp F) (fb F) (fs1 F)) by exact A. reflexivity.
    + pose proof (cross_over _ _ _ _ _ _ _ _ y (x - k1) k2 [] (S f) S02) as C. cbn [map] in C.
      rewrite C; [|lia|rewrite (adj_asz _ _ _ (adj_sym _ _ A)); lia|lia|lia].
      cbn [travelUVSteps]. f_equal. now apply fun_at_swap.
  - pose proof (cross_over _ _ _ _ _ _ _ _ x y k1 [k2] (S (S f)) S01) as C. cbn [map] in C.
    rewrite C; [|lia|rewrite (adj_asz _ _ _ A); lia|lia|lia]. clear C.
    rewrite (fun_at_swap (fp F1)) by exact A1. destruct (Z.leb_spec k2 y).
    + rewrite step_inside; [|assumption|now apply adj_sym|lia|rewrite (adj_asz _ _ _ (adj_sym _ _ A1)); lia|lia].
      cbn [travelUVSteps]. f_equal. apply fun_at_swap. now apply adj_sym.
    + pose proof (cross_over _ _ _ _ _ _ _ _ y (k1 - x - 1) k2 [] f S13) as C. cbn [map] in C.
      rewrite C; [|lia|rewrite (adj_asz _ _ _ (adj_sym _ _ A1)); lia|lia|lia].
      destruct f; cbn [travelUVSteps]; f_equal; now apply fun_at_swap.
Qed.
End T.
