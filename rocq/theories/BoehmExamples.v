(** Two quadratic patches of one element each. *)
From Coq Require Import Lra.
From Verif Require Import Common SplineModel SplineProofs BoehmModel BoehmSpec.
Open Scope R_scope.

Definition unitKnots : sbasis := mkSB [0; 0; 0; 1; 1; 1] 2.
Definition shiftedKnots : sbasis := mkSB [1; 1; 1; 2; 2; 2] 2.
Lemma unit_clamped : clamped unitKnots 0 1 [].
Proof. split; [reflexivity|]. split; [lra|]. split; [intros i j H; cbn in H; lia|intros v []]. Qed.
Lemma shifted_clamped : clamped shiftedKnots 1 2 [].
Proof. split; [reflexivity|]. split; [lra|]. split; [intros i j H; cbn in H; lia|intros v []]. Qed.

Ltac decide_all := repeat (cbn [removeK filter length];
  match goal with
  | |- context [Req_EM_T ?a ?b] => destruct (Req_EM_T a b); try (exfalso; lra)
  | |- context [Rle_dec ?a ?b] => destruct (Rle_dec a b); try (exfalso; lra)
  end).
Lemma cons_eq (a a' : R) l l' : a = a' -> l = l' -> a :: l = a' :: l'. Proof. now intros -> ->. Qed.
Ltac lists := repeat (apply cons_eq; [try ring|]); try reflexivity.
Lemma remove_end a b : a <> b -> removeK b 2 [a; a; a; b; b; b] = [a; a; a; b].
Proof. intros N. cbn [removeK]. destruct (Req_EM_T a b); [contradiction|]. destruct (Req_EM_T b b); [reflexivity|contradiction]. Qed.
Lemma remove_start a b : removeK a 3 [a; a; a; b; b; b] = [b; b; b].
Proof. cbn [removeK]. destruct (Req_EM_T a a); [reflexivity|contradiction]. Qed.
(** inserting [b] into the knots of two elements *)
Lemma insert_one b e c0 c1 c2 c3 : 0 < b < e -> boehm1 2 b ([0; 0; 0; b; e; e; e], [c0; c1; c2; c3]) = Ok ([0; 0; 0; b; b; e; e; e], [c0; c1; b / e * c2 + (1 - b / e) * c1; c2; c3]).
Proof.
  intros H. unfold boehm1. replace (countLe b [0; 0; 0; b; e; e; e]) with 4%nat by (unfold countLe; decide_all; reflexivity).
  cbn [Nat.ltb Nat.leb andb length Nat.add Nat.eqb firstn skipn app seq map]. unfold boehmRow. cbn [Nat.ltb Nat.leb Nat.add Nat.sub nth]. f_equal. f_equal. apply cons_eq; [reflexivity|]. apply cons_eq; [reflexivity|]. apply cons_eq; [field; lra|]. apply cons_eq; [field; lra|reflexivity].
Qed.
Lemma getBoehm_two kv0 (dir0 : bool) w0 kv1 (dir1 : bool) w1 b c e k : sdeg kv0 = 2%nat -> sdeg kv1 = 2%nat -> length (sknots kv0) = 6%nat -> 0 < b -> 0 < e ->
  (if dir0 then scaleK w0 (sknots kv0) else revK (scaleK w0 (sknots kv0))) = [0; 0; 0; b; b; b] -> (if dir1 then revK (scaleK w1 (sknots kv1)) else scaleK w1 (sknots kv1)) = [c; c; c; e; e; e] -> (k < 2)%nat ->
  getBoehmCoefs kv0 dir0 w0 kv1 dir1 w1 2 k = Ok (if (k =? 0)%nat then [b / (e + b); b / (e + b); 1] else [1; 1 - b / (e + b); 1 - b / (e + b)]).
Proof.
  intros D0 D1 N0 Hb He E0 E1 Hk. unfold getBoehmCoefs. cbn [Nat.eqb]. cbv zeta. rewrite E0, E1, D0, D1. unfold scaleK. rewrite map_length, N0. cbn [last addK map hd Nat.add]. rewrite remove_end by lra. rewrite remove_start. cbn [app length Nat.leb Nat.sub Nat.add andb].
  assert (K : k = 0%nat \/ k = 1%nat) by lia. destruct K; subst k; cbn [Nat.leb Nat.sub Nat.ltb Nat.add andb ensure bind unitV seq map Nat.eqb boehm]; rewrite insert_one by lra; cbn [bind snd mapM seq vget nth_error Nat.add Nat.sub Nat.eqb concat app]; f_equal; lists; field; lra.
Qed.
(** the first side is west, the second east; the first patch is twice as long *)
Example weights0 : getBoehmCoefs unitKnots false 2 unitKnots true 1 2 0 = Ok [2 / 3; 2 / 3; 1].
Proof. rewrite (getBoehm_two _ _ _ _ _ _ 2 0 1); try lra; try lia; try reflexivity; try (cbn [revK scaleK map rev app hd last unitKnots shiftedKnots sknots]; lists); cbn [Nat.eqb]; f_equal; lists; field. Qed.
Example weights1 : getBoehmCoefs unitKnots false 2 unitKnots true 1 2 1 = Ok [1; 1 / 3; 1 / 3].
Proof. rewrite (getBoehm_two _ _ _ _ _ _ 2 0 1); try lra; try lia; try reflexivity; try (cbn [revK scaleK map rev app hd last unitKnots shiftedKnots sknots]; lists); cbn [Nat.eqb]; f_equal; lists; field. Qed.
Example weights_shifted : getBoehmCoefs unitKnots true 1 shiftedKnots false 1 2 0 = Ok [1 / 3; 1 / 3; 1].
Proof. rewrite (getBoehm_two _ _ _ _ _ _ 1 1 2); try lra; try lia; try reflexivity; try (cbn [revK scaleK map rev app hd last unitKnots shiftedKnots sknots]; lists); cbn [Nat.eqb]; f_equal; lists; field. Qed.

Ltac spline := cbn [bspl tknot unitKnots shiftedKnots sknots sdeg nth Nat.add]; unfold inv0;
  repeat match goal with
  | |- context [Req_EM_T ?a ?b] => destruct (Req_EM_T a b); try (exfalso; lra)
  | |- context [Rle_dec ?a ?b] => destruct (Rle_dec a b); try (exfalso; lra)
  | |- context [Rlt_dec ?a ?b] => destruct (Rlt_dec a b); try (exfalso; lra)
  end.
Lemma unit_last x : 0 < x < 1 -> bspl (tknot unitKnots) 2 2 x = x * x.
Proof. intros H. spline. field. Qed.
Lemma shifted_first x : 1 < x < 2 -> bspl (tknot shiftedKnots) 2 0 x = (2 - x) * (2 - x).
Proof. intros H. spline. field. Qed.
Lemma shifted_second x : 1 < x < 2 -> bspl (tknot shiftedKnots) 2 1 x = 2 * (x - 1) * (2 - x).
Proof. intros H. spline. field. Qed.
Lemma unit_clear : clearUpTo unitKnots 0 1 true 1 1.
Proof. intros r H I. unfold paramAt in I. replace (1 - r / 1) with (1 - r) in I by field. cbn [unitKnots sknots In] in I. repeat (destruct I as [I|I]; [lra|]). exact I. Qed.
Lemma shifted_clear : clearUpTo shiftedKnots 1 2 false 1 1.
Proof. intros r H I. unfold paramAt in I. replace (1 + r / 1) with (1 + r) in I by field. cbn [shiftedKnots sknots In] in I. repeat (destruct I as [I|I]; [lra|]). exact I. Qed.

Lemma kink h : (forall y, 0 < y < 1 -> h (- y) = (1 - y) * (1 - y) / 3) -> (forall y, 0 < y < 1 -> h y = (1 - y) * (1 - y) / 3 + 2 * y * (1 - y)) -> forall d, ~ derivable_pt_lim h 0 d.
Proof.
  intros L R d D. destruct (D (1 / 100) ltac:(lra)) as ((del & P) & K). cbn [pos] in K. set (t := Rmin (del / 2) (1 / 100)). assert (T : 0 < t) by (unfold t; apply Rmin_glb_lt; lra). assert (T1 : t < del) by (pose proof (Rmin_l (del / 2) (1 / 100)); unfold t; lra). assert (T2 : t <= 1 / 100) by (apply Rmin_r). clearbody t.
  assert (Q : forall s, 0 < s <= t -> Rabs (h s + h (- s) - 2 * h 0) <= s / 50).
  { intros s Hs. pose proof (K s ltac:(lra) ltac:(rewrite Rabs_right; lra)) as K1. pose proof (K (- s) ltac:(lra) ltac:(rewrite Rabs_left; lra)) as K2. rewrite !Rplus_0_l in K1, K2.
    replace (h s + h (- s) - 2 * h 0) with (s * (((h s - h 0) / s - d) - ((h (- s) - h 0) / - s - d))) by (field; lra). rewrite Rabs_mult, (Rabs_right s) by lra. generalize dependent ((h s - h 0) / s - d). generalize dependent ((h (- s) - h 0) / - s - d). intros u U v V. pose proof (Rabs_triang v (- u)) as TR. rewrite Rabs_Ropp in TR. change (v + - u) with (v - u) in TR. pose proof (Rabs_pos (v - u)). nra. }
  pose proof (Q t ltac:(lra)) as Q1. pose proof (Q (t / 2) ltac:(lra)) as Q2. rewrite L, R in Q1, Q2 by lra. set (z := h 0) in *.
  pose proof (Rle_abs ((1 - t) * (1 - t) / 3 + 2 * t * (1 - t) + (1 - t) * (1 - t) / 3 - 2 * z)) as A1. rewrite <- (Rabs_Ropp ((1 - t / 2) * _ / 3 + _ + _ - _)) in Q2. match type of Q2 with Rabs ?e <= _ => pose proof (Rle_abs e) as A2 end. nra.
Qed.
Theorem shifted_refuted_pf : exists ws, clamped unitKnots 0 1 [] /\ clamped shiftedKnots 1 2 [] /\ getBoehmCoefs unitKnots true 1 shiftedKnots false 1 2 0 = Ok ws /\
  clearUpTo unitKnots 0 1 true 1 1 /\ clearUpTo shiftedKnots 1 2 false 1 1 /\
  forall h, joins (firstHalf unitKnots 0 1 true 1 0 ws) (secondHalf shiftedKnots 1 2 false 1 0 ws) h (noKnotAt unitKnots 0 1 true 1) (noKnotAt shiftedKnots 1 2 false 1) -> ~ Cn 1 (- 1) 1 h.
Proof.
  exists [1 / 3; 1 / 3; 1]. split; [exact unit_clamped|]. split; [exact shifted_clamped|]. split; [exact weights_shifted|]. split; [exact unit_clear|]. split; [exact shifted_clear|].
  intros h (J0 & J1) (h' & D & _). apply (kink h) with (d := h' 0); [| |apply D; lra].
  - intros y Hy. rewrite J0 by (lra || now apply unit_clear). unfold firstHalf. cbn [rsum Nat.add Nat.sub nth nearSide]. change (functions unitKnots - 1 - 0)%nat with 2%nat. change (sdeg unitKnots) with 2%nat. unfold paramAt. replace (1 - y / 1) with (1 - y) by field. rewrite unit_last by lra. field.
  - intros y Hy. rewrite J1 by (lra || now apply shifted_clear). unfold secondHalf. cbn [length rsum Nat.add Nat.sub nth nearSide]. change (sdeg shiftedKnots) with 2%nat. unfold paramAt. replace (1 + y / 1) with (1 + y) by field. rewrite shifted_first, shifted_second by lra. field.
Qed.
