(** Proofs about the scaling at vertices. *)
From Verif Require Import Common ListLemmas SigmaModel SigmaSpec.
From Coq Require Import Lqa Permutation.
Open Scope nat_scope.

Lemma qle_false : forall a b, Qle_bool a b = false -> (b < a)%Q.
Proof. intros a b E. apply Qnot_le_lt. intro X. apply Qle_bool_iff in X. congruence. Qed.

Ltac qcase a b E := destruct (Qle_bool a b) eqn:E; [apply Qle_bool_iff in E | apply qle_false in E].

Lemma qabs_ge0 : forall x, (0 <= qabs x)%Q.
Proof. intros x. unfold qabs. qcase 0%Q x E; lra. Qed.

Lemma lpInf_cons : forall x l, lpInf (x :: l) = qmax (qabs x) (lpInf l).
Proof. reflexivity. Qed.

Lemma lpInf_ge0 : forall l, (0 <= lpInf l)%Q.
Proof. induction l as [|x l IH]; [cbn; lra|rewrite lpInf_cons]. unfold qmax. pose proof (qabs_ge0 x). qcase (qabs x) (lpInf l) E; lra. Qed.

Lemma lpInf_norm : forall l, inf_norm l (lpInf l).
Proof. induction l as [|x l [I1 I2]]; [|rewrite lpInf_cons].
  - split; [left; split; [reflexivity|cbn; lra]|intros x []].
  - pose proof (lpInf_ge0 l) as G. unfold qmax. qcase (qabs x) (lpInf l) E.
    + split.
      * destruct I1 as [[-> N]|[y [I1 E1]]]; [|right; exists y; split; [right; exact I1|exact E1]].
        right. exists x. split; [left; reflexivity|]. cbn in E |- *. left. unfold qabs in E. qcase 0%Q x F; lra.
      * intros y [<-|Hy]; [|exact (I2 y Hy)]. unfold qabs in E. qcase 0%Q x F; lra.
    + split.
      * right. exists x. split; [left; reflexivity|]. unfold qabs. qcase 0%Q x F; [left|right]; lra.
      * intros y [<-|Hy]; [unfold qabs; qcase 0%Q x F; lra|]. destruct (I2 y Hy). lra. Qed.

Lemma norm_unique : forall l n m, inf_norm l n -> inf_norm l m -> (n == m)%Q.
Proof. intros l n m [[[-> Hn]|[x [Ix Ex]]] Bn] [[[E Hm]|[y [Iy Ey]]] Bm].
  - lra.
  - destruct Iy.
  - rewrite E in Ix. destruct Ix.
  - destruct (Bn _ Ix), (Bm _ Ix), (Bn _ Iy), (Bm _ Iy). destruct Ex, Ey; lra. Qed.

Lemma derivSum_app : forall aux s, (derivSum s aux == s + sumQ (map (fun a => lpInf (spDeriv a)) aux))%Q.
Proof. unfold derivSum. induction aux as [|a r IH]; intros s; cbn; [lra|]. rewrite IH. lra. Qed.

Lemma norms_sum : forall aux ns, norms aux ns -> (sumQ (map (fun a => lpInf (spDeriv a)) aux) == sumQ ns)%Q.
Proof. intros aux ns H. induction H as [|a n aux ns H _ IH]; cbn; [lra|]. rewrite (norm_unique _ _ _ (lpInf_norm _) H), IH. reflexivity. Qed.

Lemma ofN_pos : forall n, 0 < n -> (0 < ofN n)%Q.
Proof. intros n H. unfold ofN. change 0%Q with (inject_Z 0). rewrite <- Zlt_Qlt. lia. Qed.

Lemma ofN_mul : forall n m, (ofN (n * m) == ofN n * ofN m)%Q.
Proof. intros n m. unfold ofN. rewrite Nat2Z.inj_mul, inject_Z_mult. reflexivity. Qed.

Lemma sigmaEnd_ok : forall s h n p, 0 < n -> 0 < p -> (0 < s)%Q -> (0 < h)%Q -> exists r, sigmaEnd s h n p = Ok r /\ (0 < r)%Q /\ (r * s * h == ofN n * ofN p)%Q.
Proof. intros s h n p Hn Hp Hs Hh. unfold sigmaEnd. assert (N : n * p <> 0) by nia. rewrite (proj2 (Nat.eqb_neq _ _) N). fold (ofN (n * p)).
  assert (P : (0 < ofN (n * p))%Q) by (apply ofN_pos; nia).
  assert (P1 : (0 < s * (h / ofN (n * p)))%Q). { apply Qmult_lt_0_compat; [exact Hs|]. apply Qlt_shift_div_l; [exact P|]. lra. }
  destruct (Qeq_bool _ 0) eqn:E; [apply Qeq_bool_iff in E; lra|]. eexists. split; [reflexivity|]. split.
  - apply Qlt_shift_div_l; [exact P1|]. lra.
  - rewrite <- ofN_mul. field. repeat split; lra. Qed.

Lemma nth_starts : forall q x d, starts q x d -> nth_error (sknots d) (q + 1) = Some x.
Proof. intros q x d [_ [r ->]]. rewrite nth_error_app2; rewrite repeat_length; [|lia]. replace (q + 1 - S q) with 0 by lia. reflexivity. Qed.

Lemma nth_starts2 : forall q x d, starts2 q x d -> nth_error (sknots d) (q + 2) = Some x.
Proof. intros q x d [_ [y [r ->]]]. rewrite nth_error_app2; rewrite repeat_length; [|lia]. replace (q + 2 - S q) with 1 by lia. reflexivity. Qed.

(** Running minimum. *)
Definition pick (h t : Q) : Q := if qgt h t then t else h.
Definition pickMax (h t : Q) : Q := if qlt h t then t else h.

Lemma pick_smallest : forall l h, smallest (h :: l) (fold_left pick l h).
Proof. induction l as [|x l IH]; intros h; cbn [fold_left].
  - split; [exists h; split; [left; reflexivity|lra]|]. intros x [<-|[]]. lra.
  - destruct (IH (pick h x)) as [[y [Iy Ey]] B]. unfold pick in *. unfold qgt in *.
    assert (B0 := B _ (or_introl eq_refl)).
    destruct (Qle_bool h x) eqn:E; cbn [negb] in *.
    + apply Qle_bool_iff in E. split.
      * exists y. split; [|exact Ey]. destruct Iy as [->|Iy]; [left; reflexivity|right; right; exact Iy].
      * intros z [<-|[<-|Hz]]; [exact B0|lra|apply B; right; exact Hz].
    + assert (E' : (x < h)%Q) by (apply Qnot_le_lt; intro X; apply Qle_bool_iff in X; congruence). split.
      * exists y. split; [|exact Ey]. destruct Iy as [->|Iy]; [right; left; reflexivity|right; right; exact Iy].
      * intros z [<-|[<-|Hz]]; [lra|exact B0|apply B; right; exact Hz]. Qed.

Lemma pickMax_largest : forall l h, largest (h :: l) (fold_left pickMax l h).
Proof. induction l as [|x l IH]; intros h; cbn [fold_left].
  - split; [exists h; split; [left; reflexivity|lra]|]. intros x [<-|[]]. lra.
  - destruct (IH (pickMax h x)) as [[y [Iy Ey]] B]. unfold pickMax in *. unfold qlt in *.
    assert (B0 := B _ (or_introl eq_refl)).
    destruct (Qle_bool x h) eqn:E; cbn [negb] in *.
    + apply Qle_bool_iff in E. split.
      * exists y. split; [|exact Ey]. destruct Iy as [->|Iy]; [left; reflexivity|right; right; exact Iy].
      * intros z [<-|[<-|Hz]]; [exact B0|lra|apply B; right; exact Hz].
    + assert (E' : (h < x)%Q) by (apply Qnot_le_lt; intro X; apply Qle_bool_iff in X; congruence). split.
      * exists y. split; [|exact Ey]. destruct Iy as [->|Iy]; [right; left; reflexivity|right; right; exact Iy].
      * intros z [<-|[<-|Hz]]; [lra|exact B0|apply B; right; exact Hz]. Qed.

Lemma smallest_unique : forall l m m', smallest l m -> smallest l m' -> (m == m')%Q.
Proof. intros l m m' [[x [Ix Ex]] B] [[y [Iy Ey]] B']. pose proof (B _ Iy). pose proof (B' _ Ix). lra. Qed.

Lemma largest_unique : forall l m m', largest l m -> largest l m' -> (m == m')%Q.
Proof. intros l m m' [[x [Ix Ex]] B] [[y [Iy Ey]] B']. pose proof (B _ Iy). pose proof (B' _ Ix). lra. Qed.

(** The loop of the approximate construction. *)
Lemma approx_scan : forall aux vi a0 q es, nth_error aux 0 = Some a0 -> Forall2 (fun k e => piece_starts a0 k q e) vi es ->
  forall pre vs, vi = vs -> forall p h, p <= q -> (0 < length vs -> 0 < q) ->
  foldM (approxStep aux (pre ++ vs)) (seq (length pre) (length vs)) (p, h) = Ok (if length vs =? 0 then p else q, fold_left pick (lengths es) h).
Proof. intros aux vi a0 q es A0 F pre vs <-. revert pre. induction F as [|k e vi es [b [B [S1 S2]]] F IH]; intros pre p h Hp Hq; [reflexivity|].
  cbn [length seq foldM]. unfold approxStep at 1. unfold vget. rewrite A0. cbn [bind]. rewrite nth_error_app2, Nat.sub_diag by lia. cbn [nth_error bind]. rewrite B. cbn [bind].
  assert (D : degMax b = q). { unfold degMax. rewrite (proj1 S1), (proj1 S2). lia. } rewrite D.
  assert (P : (if p <? q then q else p) = q) by (destruct (Nat.ltb_spec p q); lia). rewrite P.
  cbn [foldM]. unfold approxDir, sdirAt, vget. cbn [nth_error bind]. rewrite (nth_starts _ _ _ S1). cbn [bind]. rewrite (nth_starts _ _ _ S2). cbn [bind].
  fold (pick h (fst e)). fold (pick (pick h (fst e)) (snd e)).
  specialize (IH (pre ++ [k]) q (pick (pick h (fst e)) (snd e)) (le_n _) (fun _ => Hq ltac:(cbn; lia))).
  rewrite app_length in IH. cbn [length] in IH. rewrite Nat.add_1_r, <- app_assoc in IH. cbn [app] in IH. rewrite IH. cbn. destruct (length vi); reflexivity. Qed.

Lemma approx_value_pf : forall aux vi a0 q es ns h, nth_error aux 0 = Some a0 -> length vi = length aux -> 0 < q -> Forall2 (fun k e => piece_starts a0 k q e) vi es ->
  Forall (fun x => (0 < x)%Q) (lengths es) -> smallest (1%Q :: lengths es) h -> norms aux ns -> (0 < sumQ ns)%Q ->
  exists s, approxSigma aux vi = Ok s /\ (0 < s)%Q /\ (s * sumQ ns * h == ofN (length aux) * ofN q)%Q.
Proof. intros aux vi a0 q es ns h A0 L Hq F Pos Sm N P. unfold approxSigma.
  pose proof (approx_scan aux vi a0 q es A0 F [] vi eq_refl 0 1%Q ltac:(lia) (fun _ => Hq)) as E. cbn [app length] in E. rewrite <- L, E. cbn [bind].
  assert (Ln : 0 < length vi). { rewrite L. destruct aux; [discriminate|cbn; lia]. }
  rewrite (proj2 (Nat.eqb_neq (length vi) 0)) by lia.
  pose proof (pick_smallest (lengths es) 1%Q) as Sm'. pose proof (smallest_unique _ _ _ Sm Sm') as U.
  assert (HP : (0 < fold_left pick (lengths es) 1%Q)%Q).
  { destruct Sm' as [[x [[<-|Ix] Ex]] _]; [lra|]. rewrite Forall_forall in Pos. specialize (Pos _ Ix). lra. }
  assert (DS : (derivSum 0 aux == sumQ ns)%Q) by (rewrite derivSum_app, (norms_sum _ _ N); lra).
  destruct (sigmaEnd_ok (derivSum 0 aux) (fold_left pick (lengths es) 1%Q) (length vi) q Ln Hq) as [r [R [Rp Re]]]; [lra|exact HP|].
  exists r. split; [exact R|]. split; [exact Rp|]. rewrite U, <- DS. exact Re. Qed.

(** The loop of the construction on surfaces. *)
Lemma surf_scan : forall q aux es, Forall2 (geo_starts2 q) aux es -> forall p h, p <= q -> foldM surfStep aux (p, h) = Ok (if length aux =? 0 then p else q, fold_left pickMax (lengths es) h).
Proof. intros q aux es F. induction F as [|a e aux es [S1 S2] F IH]; intros p h Hp; [reflexivity|].
  cbn [foldM]. unfold surfStep at 1.
  assert (D : degMax (spGeo a) = q). { unfold degMax. rewrite (proj1 S1), (proj1 S2). lia. } rewrite D.
  assert (P : (if p <? q then q else p) = q) by (destruct (Nat.ltb_spec p q); lia). rewrite P.
  cbn [foldM]. unfold surfDir, sdirAt, vget. cbn [nth_error bind]. rewrite (nth_starts2 _ _ _ S1). cbn [bind]. rewrite (nth_starts2 _ _ _ S2). cbn [bind].
  fold (pickMax h (fst e)). fold (pickMax (pickMax h (fst e)) (snd e)). rewrite IH by lia. cbn. destruct (length aux); reflexivity. Qed.

Lemma surf_value_pf : forall s0 aux q es ns h, aux <> [] -> 0 < q -> Forall2 (geo_starts2 q) aux es -> largest (lengths es) h -> (0 < h)%Q -> norms aux ns -> (0 < s0 + sumQ ns)%Q ->
  exists s, surfSigma s0 aux = Ok s /\ (0 < s)%Q /\ (s * (s0 + sumQ ns) * h == ofN (length aux) * ofN q)%Q.
Proof. intros s0 aux q es ns h A0 Hq F La Hh N P. unfold surfSigma.
  rewrite (surf_scan q aux es F 0 0%Q ltac:(lia)). cbn [bind].
  assert (Ln : 0 < length aux) by (destruct aux; [congruence|cbn; lia]).
  rewrite (proj2 (Nat.eqb_neq (length aux) 0)) by lia.
  pose proof (pickMax_largest (lengths es) 0%Q) as La'.
  assert (La2 : largest (0%Q :: lengths es) h).
  { destruct La as [[x [Ix Ex]] B]. split; [exists x; split; [right; exact Ix|exact Ex]|]. intros y [<-|Hy]; [lra|exact (B _ Hy)]. }
  pose proof (largest_unique _ _ _ La2 La') as U.
  assert (DS : (derivSum s0 aux == s0 + sumQ ns)%Q) by (rewrite derivSum_app, (norms_sum _ _ N); lra).
  destruct (sigmaEnd_ok (derivSum s0 aux) (fold_left pickMax (lengths es) 0%Q) (length aux) q Ln Hq) as [r [R [Rp Re]]]; [lra|lra|].
  exists r. split; [exact R|]. split; [exact Rp|]. rewrite U, <- DS. exact Re. Qed.

(** Magnified geometries. *)
Lemma qabs_scale : forall t x x', (0 < t)%Q -> (x' == t * x)%Q -> (qabs x' == t * qabs x)%Q.
Proof. intros t x x' Ht E. unfold qabs. qcase 0%Q x F; qcase 0%Q x' G; nra. Qed.

Lemma scale_le : forall t a b, (0 < t)%Q -> (a <= b)%Q -> (t * a <= t * b)%Q.
Proof. intros t a b Ht H. nra. Qed.

Lemma scale_lt : forall t a b, (0 < t)%Q -> (a < b)%Q -> (t * a < t * b)%Q.
Proof. intros t a b Ht H. nra. Qed.

Lemma lpInf_scale : forall t l l', (0 < t)%Q -> Forall2 (fun x x' => (x' == t * x)%Q) l l' -> (lpInf l' == t * lpInf l)%Q.
Proof. intros t l l' Ht F. induction F as [|x x' l l' E F IH]; [cbn; lra|rewrite !lpInf_cons]. pose proof (qabs_scale t x x' Ht E) as A. unfold qmax.
  qcase (qabs x) (lpInf l) C; [apply (scale_le t _ _ Ht) in C|apply (scale_lt t _ _ Ht) in C]; qcase (qabs x') (lpInf l') D; lra. Qed.

Lemma derivSum_scale : forall t aux aux', (0 < t)%Q -> Forall2 (magnified t) aux aux' -> (derivSum 0 aux' == t * derivSum 0 aux)%Q.
Proof. intros t aux aux' Ht F. rewrite !derivSum_app. induction F as [|a a' aux aux' [_ [_ E]] F IH]; cbn [map sumQ]; [lra|]. rewrite (lpInf_scale _ _ _ Ht E). lra. Qed.

Lemma sigmaEnd_scale : forall t s s' h n p r, (0 < t)%Q -> (s' == t * s)%Q -> sigmaEnd s h n p = Ok r -> exists r', sigmaEnd s' h n p = Ok r' /\ (r' * t == r)%Q.
Proof. intros t s s' h n p r Ht E R. unfold sigmaEnd in *. destruct (n * p =? 0) eqn:N; [discriminate|]. fold (ofN (n * p)) in *.
  assert (P : (0 < ofN (n * p))%Q) by (apply ofN_pos; apply Nat.eqb_neq in N; lia).
  destruct (Qeq_bool (s * (h / ofN (n * p))) 0) eqn:Z1; [discriminate|]. injection R as <-.
  assert (X : ~ (s * (h / ofN (n * p)) == 0)%Q) by (intro X; apply Qeq_bool_iff in X; congruence).
  assert (Y : (s' * (h / ofN (n * p)) == t * (s * (h / ofN (n * p))))%Q) by (rewrite E; ring).
  assert (W : ~ (s' * (h / ofN (n * p)) == 0)%Q). { rewrite Y. intro V. apply Qmult_integral in V. destruct V; [lra|contradiction]. }
  destruct (Qeq_bool (s' * (h / ofN (n * p))) 0) eqn:Z2; [apply Qeq_bool_iff in Z2; contradiction|]. eexists. split; [reflexivity|].
  rewrite Y. generalize dependent (s * (h / ofN (n * p)))%Q. intros w _ X _. field. split; [exact X|lra]. Qed.

Lemma magnified_len : forall t aux aux', Forall2 (magnified t) aux aux' -> length aux' = length aux.
Proof. intros t aux aux' F. induction F; cbn; congruence. Qed.

Lemma magnified_head : forall t aux aux', Forall2 (magnified t) aux aux' -> forall vi l st, foldM (approxStep aux' vi) l st = foldM (approxStep aux vi) l st.
Proof. intros t aux aux' F vi l. induction l as [|i l IH]; intros st; [reflexivity|]. cbn [foldM].
  assert (E : approxStep aux' vi st i = approxStep aux vi st i).
  { unfold approxStep, vget. destruct F as [|a a' aux aux' [E _] F]; [reflexivity|]. cbn. rewrite E. reflexivity. }
  rewrite E. destruct (approxStep aux vi st i); cbn; [apply IH|reflexivity]. Qed.

Lemma magnified_surf : forall t aux aux', Forall2 (magnified t) aux aux' -> forall st, foldM surfStep aux' st = foldM surfStep aux st.
Proof. intros t aux aux' F. induction F as [|a a' aux aux' [_ [E _]] F IH]; intros st; [reflexivity|]. cbn [foldM].
  assert (X : surfStep st a' = surfStep st a) by (unfold surfStep; rewrite E; reflexivity). rewrite X. destruct (surfStep st a); cbn; [apply IH|reflexivity]. Qed.

Lemma invariant : forall t s s' aux aux', (s' * t == s)%Q -> Forall2 (magnified t) aux aux' -> Forall2 (fun a a' => Forall2 (fun x x' => (s' * x' == s * x)%Q) (spDeriv a) (spDeriv a')) aux aux'.
Proof. intros t s s' aux aux' E F. induction F as [|a a' aux aux' [_ [_ M]] F IH]; constructor; [|exact IH]. clear - E M. induction M as [|x x' l l' X M IH]; constructor; [|exact IH]. rewrite X, <- E. ring. Qed.

Lemma approx_magnify_pf : forall t aux aux' vi s, (0 < t)%Q -> Forall2 (magnified t) aux aux' -> approxSigma aux vi = Ok s ->
  exists s', approxSigma aux' vi = Ok s' /\ (s' * t == s)%Q /\ Forall2 (fun a a' => Forall2 (fun x x' => (s' * x' == s * x)%Q) (spDeriv a) (spDeriv a')) aux aux'.
Proof. intros t aux aux' vi s Ht F R. unfold approxSigma in *. rewrite (magnified_len _ _ _ F), (magnified_head _ _ _ F). destruct (foldM (approxStep aux vi) _ _) as [[p h]|]; [|discriminate]. cbn [bind] in *.
  destruct (sigmaEnd_scale t _ _ _ _ _ _ Ht (derivSum_scale _ _ _ Ht F) R) as [s' [E1 E2]]. exists s'. split; [exact E1|]. split; [exact E2|]. exact (invariant _ _ _ _ _ E2 F). Qed.

Lemma surf_magnify_pf : forall t aux aux' s, (0 < t)%Q -> Forall2 (magnified t) aux aux' -> surfSigma 0 aux = Ok s ->
  exists s', surfSigma 0 aux' = Ok s' /\ (s' * t == s)%Q /\ Forall2 (fun a a' => Forall2 (fun x x' => (s' * x' == s * x)%Q) (spDeriv a) (spDeriv a')) aux aux'.
Proof. intros t aux aux' s Ht F R. unfold surfSigma in *. rewrite (magnified_len _ _ _ F), (magnified_surf _ _ _ F). destruct (foldM surfStep aux _) as [[p h]|]; [|discriminate]. cbn [bind] in *.
  destruct (sigmaEnd_scale t _ _ _ _ _ _ Ht (derivSum_scale _ _ _ Ht F) R) as [s' [E1 E2]]. exists s'. split; [exact E1|]. split; [exact E2|]. exact (invariant _ _ _ _ _ E2 F). Qed.

(** The prescribed data. *)
Lemma phi_pf : forall s r c, r < 6 -> c < 6 -> exists row x, nth_error (phiMat s) r = Some row /\ nth_error row c = Some x /\
  (x == if r =? c then (if c =? 0 then 1 else if c <? 3 then s else s * s) else 0)%Q.
Proof. intros s r c Hr Hc. do 6 (destruct r as [|r]; [do 6 (destruct c as [|c]; [eexists; eexists; split; [reflexivity|]; split; [reflexivity|]; cbn; lra|]); lia|]). lia. Qed.

(** Different degrees in the two directions: the larger one counts, also for the knot that is looked up. *)
Lemma approx_degree_pf : forall a k b q t1 t2 n h, nth_error (spPieces a) (k + 4) = Some b -> 0 < q -> (sdeg (fst b) = q /\ sdeg (snd b) <= q \/ sdeg (snd b) = q /\ sdeg (fst b) <= q) ->
  nth_error (sknots (fst b)) (S q) = Some t1 -> nth_error (sknots (snd b)) (S q) = Some t2 -> (0 < t1)%Q -> (0 < t2)%Q -> smallest [1; t1; t2]%Q h -> inf_norm (spDeriv a) n -> (0 < n)%Q ->
  exists s, approxSigma [a] [k] = Ok s /\ (0 < s)%Q /\ (s * n * h == ofN q)%Q.
Proof. intros a k b q t1 t2 n h B Hq D T1 T2 P1 P2 Sm N P. unfold approxSigma. cbn [length seq foldM]. unfold approxStep, vget. cbn [nth_error bind]. rewrite B. cbn [bind].
  assert (M : degMax b = q) by (unfold degMax; lia). rewrite M. rewrite (proj2 (Nat.ltb_lt 0 q) Hq). cbn [foldM]. unfold approxDir, sdirAt, vget. cbn [nth_error bind].
  rewrite Nat.add_1_r, T1. cbn [bind]. rewrite T2. cbn [bind]. fold (pick 1%Q t1). fold (pick (pick 1%Q t1) t2).
  pose proof (pick_smallest [t1; t2] 1%Q) as Sm'. cbn [fold_left] in Sm'. pose proof (smallest_unique _ _ _ Sm Sm') as U.
  assert (HP : (0 < pick (pick 1 t1) t2)%Q). { destruct Sm' as [[x [[<-|[<-|[<-|[]]]] Ex]] _]; lra. }
  assert (DS : (derivSum 0 [a] == n)%Q) by (rewrite derivSum_app; cbn [map sumQ]; rewrite (norm_unique _ _ _ (lpInf_norm _) N); lra).
  destruct (sigmaEnd_ok (derivSum 0 [a]) (pick (pick 1 t1) t2) 1 q ltac:(lia) Hq ltac:(lra) HP) as [r [R [Rp Re]]].
  exists r. split; [exact R|]. split; [exact Rp|]. rewrite U, <- DS. rewrite Re. change (ofN 1) with 1%Q. ring. Qed.

Lemma surf_degree_pf : forall a q t1 t2 n h, let b := spGeo a in 0 < q -> (sdeg (fst b) = q /\ sdeg (snd b) <= q \/ sdeg (snd b) = q /\ sdeg (fst b) <= q) ->
  nth_error (sknots (fst b)) (S (S q)) = Some t1 -> nth_error (sknots (snd b)) (S (S q)) = Some t2 -> (0 <= t1)%Q -> (0 <= t2)%Q -> largest [t1; t2]%Q h -> (0 < h)%Q -> inf_norm (spDeriv a) n -> (0 < n)%Q ->
  exists s, surfSigma 0 [a] = Ok s /\ (0 < s)%Q /\ (s * n * h == ofN q)%Q.
Proof. intros a q t1 t2 n h b Hq D T1 T2 P1 P2 La Hh N P. subst b. unfold surfSigma. cbn [foldM]. unfold surfStep.
  assert (M : degMax (spGeo a) = q) by (unfold degMax; lia). rewrite M. rewrite (proj2 (Nat.ltb_lt 0 q) Hq). cbn [foldM]. unfold surfDir, sdirAt, vget. cbn [nth_error bind].
  replace (q + 2) with (S (S q)) by lia. rewrite T1. cbn [bind]. rewrite T2. cbn [bind length]. fold (pickMax 0%Q t1). fold (pickMax (pickMax 0%Q t1) t2).
  pose proof (pickMax_largest [t1; t2] 0%Q) as La'. cbn [fold_left] in La'.
  assert (La2 : largest [0%Q; t1; t2] h).
  { destruct La as [[x [Ix Ex]] B]. split; [exists x; split; [right; exact Ix|exact Ex]|]. intros y [<-|Hy]; [lra|exact (B _ Hy)]. }
  pose proof (largest_unique _ _ _ La2 La') as U.
  assert (DS : (derivSum 0 [a] == n)%Q) by (rewrite derivSum_app; cbn [map sumQ]; rewrite (norm_unique _ _ _ (lpInf_norm _) N); lra).
  destruct (sigmaEnd_ok (derivSum 0 [a]) (pickMax (pickMax 0 t1) t2) 1 q ltac:(lia) Hq ltac:(lra) ltac:(lra)) as [r [R [Rp Re]]].
  exists r. split; [exact R|]. split; [exact Rp|]. rewrite U, <- DS. rewrite Re. change (ofN 1) with 1%Q. ring. Qed.
