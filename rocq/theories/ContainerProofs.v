(** Proofs about gsContainerBasis (C28, C29, C30). *)
From Coq Require Import ZifyBool.
From Verif Require Import Common TopoModel BaseModel ListLemmas C1Proofs ContainerModel ContainerSpec.

Section Proofs.
Context {X S0 : Type}.
Notation piece := (cpiece X S0).

Definition osz (b : piece) : nat := fst (cp_tb b) * snd (cp_tb b).
Definition off (l : list piece) (p : nat) : nat := sumN (map osz (firstn p l)).

Lemma csize_sum (l : list piece) : csize l = sumN (map osz l).
Proof.
  unfold csize. enough (G : forall n, fold_left (fun sz b => sz + tsize (cp_tb b)) l n = n + sumN (map osz l)) by apply G.
  induction l as [|b l IH]; intros n; cbn; [lia|]. rewrite IH. unfold osz at 2, tsize. lia.
Qed.

Definition funs_from (k : nat) (l : list piece) : list (nat * nat) :=
  flat_map (fun pb => map (pair (fst pb)) (seq 0 (osz (snd pb)))) (combine (seq k (length l)) l).
Lemma funs_from_cons k b l : funs_from k (b :: l) = map (pair k) (seq 0 (osz b)) ++ funs_from (S k) l.
Proof. reflexivity. Qed.
Lemma all_funs_from l : all_funs l = funs_from 0 l. Proof. reflexivity. Qed.

Lemma funs_from_length k l : length (funs_from k l) = sumN (map osz l).
Proof.
  revert k. induction l as [|b l IH]; intros k; [reflexivity|]. rewrite funs_from_cons, app_length, map_length, seq_length, IH.
  reflexivity.
Qed.

Lemma funs_from_nth k l g p i : nth_error (funs_from k l) g = Some (p, i) <->
  k <= p /\ exists b, nth_error l (p - k) = Some b /\ i < osz b /\ g = off l (p - k) + i.
Proof.
  revert k g. induction l as [|a l IH]; intros k g.
  - cbn. split; [destruct g; discriminate|]. intros (_ & b & E & _). destruct (p - k); discriminate.
  - rewrite funs_from_cons. destruct (g <? osz a) eqn:E.
    + rewrite nth_error_app1 by (rewrite map_length, seq_length; lia). rewrite nth_error_map_seq.
      rewrite E. split.
      * intros H. injection H as <- <-. split; [lia|]. exists a. replace (k - k) with 0 by lia.
        split; [reflexivity|]. split; [lia|reflexivity].
      * intros (L & b & E1 & E2 & E3). destruct (p - k) as [|q] eqn:Eq.
        -- assert (p = k) by lia. subst. unfold off. cbn. reflexivity.
        -- unfold off in E3. cbn [firstn map sumN] in E3. lia.
    + rewrite nth_error_app2 by (rewrite map_length, seq_length; lia). rewrite map_length, seq_length, IH. split.
      * intros (L & b & E1 & E2 & E3). split; [lia|]. exists b. replace (p - k) with (S (p - S k)) by lia.
        split; [exact E1|]. split; [exact E2|]. unfold off in *. cbn [firstn map sumN]. lia.
      * intros (L & b & E1 & E2 & E3). destruct (p - k) as [|q] eqn:Eq.
        -- cbn in E1. injection E1 as <-. unfold off in E3. cbn in E3. lia.
        -- split; [lia|]. exists b. replace (p - S k) with q by lia. split; [exact E1|]. split; [exact E2|].
           unfold off in *. cbn [firstn map sumN] in E3. lia.
Qed.

Lemma all_funs_nth l g p i : nth_error (all_funs l) g = Some (p, i) <->
  exists b, nth_error l p = Some b /\ i < osz b /\ g = off l p + i.
Proof. rewrite all_funs_from, funs_from_nth, Nat.sub_0_r. intuition lia. Qed.

(** active functions and rows *)
Fixpoint act_from (s : nat) (l : list piece) (u : X) : list nat :=
  match l with [] => [] | b :: r => map (fun i => i + s) (cp_act b u) ++ act_from (s + osz b) r u end.

Lemma cactive_from l u : cactive l u = act_from 0 l u.
Proof.
  unfold cactive.
  enough (G : forall s a, snd (fold_left (fun st b => (fst st + tsize (cp_tb b), snd st ++ map (fun i => i + fst st) (cp_act b u))) l (s, a))
    = a ++ act_from s l u) by apply G.
  induction l as [|b l IH]; intros s a; cbn [fold_left act_from snd fst]; [now rewrite app_nil_r|].
  rewrite IH, <- app_assoc. reflexivity.
Qed.

Lemma crows_concat (l : list piece) k u : crows l k u = concat (map (fun b => cp_rows b k u) l).
Proof.
  unfold crows. enough (G : forall a, fold_left (fun result b => result ++ cp_rows b k u) l a = a ++ concat (map (fun b => cp_rows b k u) l)) by apply G.
  induction l as [|b l IH]; intros a; cbn [fold_left map concat]; [now rewrite app_nil_r|]. rewrite IH, app_assoc. reflexivity.
Qed.

Lemma concat_width {A} (f : A -> list Q) m l : (forall a, length (f a) = m) -> length (concat (map f l)) = m * length l.
Proof. intros H. induction l as [|a l IH]; cbn; [lia|]. rewrite app_length, IH, H. lia. Qed.

Lemma concat_slice {A} (f : A -> list Q) m l r a : (forall a, length (f a) = m) -> nth_error l r = Some a ->
  forall rest, firstn m (skipn (m * r) (concat (map f l) ++ rest)) = f a.
Proof.
  intros H. revert r. induction l as [|b l IH]; intros r E rest; [destruct r; discriminate|].
  destruct r as [|r].
  - cbn in E. injection E as ->. rewrite Nat.mul_0_r. cbn [skipn map concat]. rewrite <- app_assoc, firstn_app, H, Nat.sub_diag.
    rewrite firstn_O, app_nil_r. apply firstn_all2. rewrite H. lia.
  - cbn [map concat]. rewrite <- app_assoc, skipn_app, H. rewrite skipn_all2 by (rewrite H; lia). cbn [app].
    replace (m * S r - m) with (m * r) by lia. now apply IH.
Qed.

Section Rows.
Context (m : nat -> nat) (val : nat -> nat -> nat -> X -> list Q).

Lemma align_from l u : forall q s, (forall p b, nth_error l p = Some b -> piece_ok m (val (q + p)) b) ->
  (forall r g, nth_error (act_from s l u) r = Some g ->
     exists p i b, nth_error l p = Some b /\ In i (cp_act b u) /\ i < osz b /\ g = s + off l p + i /\
       forall k, firstn (m k) (skipn (m k * r) (concat (map (fun b => cp_rows b k u) l))) = val (q + p) k i u) /\
  (forall k, length (concat (map (fun b => cp_rows b k u) l)) = m k * length (act_from s l u)) /\
  NoDup (act_from s l u) /\ (forall g, In g (act_from s l u) -> s <= g < s + sumN (map osz l)) /\
  (forall p i b, nth_error l p = Some b -> In i (cp_act b u) -> In (s + off l p + i) (act_from s l u)).
Proof.
  induction l as [|a l IH]; intros q s H.
  - cbn. split; [intros [|r] g E; discriminate|]. split; [lia|]. split; [constructor|]. split; [intros g []|].
    intros [|p] i b E; discriminate.
  - destruct (IH (S q) (s + osz a)) as (I1 & I2 & I3 & I4 & I5).
    { intros p b E. replace (S q + p) with (q + S p) by lia. now apply (H (S p)). }
    pose proof (H 0 a eq_refl) as Ha. rewrite Nat.add_0_r in Ha. destruct Ha as [P1 P2 P3 P4].
    assert (LA : forall k, length (cp_rows a k u) = m k * length (cp_act a u)).
    { intros k. rewrite P3. apply concat_width. intros i. apply P4. }
    cbn [act_from map concat]. repeat split.
    + intros r g E. destruct (r <? length (cp_act a u)) eqn:Er.
      * rewrite nth_error_app1 in E by (rewrite map_length; lia). rewrite nth_error_map in E.
        destruct (nth_error (cp_act a u) r) as [i|] eqn:Ei; [|discriminate]. cbn in E. injection E as <-.
        exists 0, i, a. split; [reflexivity|]. pose proof (nth_error_In _ _ Ei) as Hi. split; [exact Hi|].
        split; [exact (P1 u i Hi)|]. split; [cbn; lia|].
        intros k. rewrite Nat.add_0_r, P3. apply (concat_slice (fun i => val q k i u)); [intros; apply P4|exact Ei].
      * rewrite nth_error_app2 in E by (rewrite map_length; lia). rewrite map_length in E.
        destruct (I1 _ _ E) as (p & i & b & E1 & E2 & E3 & E4 & E5). exists (S p), i, b.
        split; [exact E1|]. split; [exact E2|]. split; [exact E3|]. split; [unfold off in *; cbn [firstn map sumN]; lia|].
        intros k. rewrite skipn_app, LA. rewrite skipn_all2 by (rewrite LA; nia). cbn [app].
        rewrite <- Nat.mul_sub_distr_l, (E5 k). f_equal. lia.
    + intros k. rewrite !app_length, map_length, LA, I2. lia.
    + apply NoDup_app_iff. split; [|split; [exact I3|]].
      * apply FinFun.Injective_map_NoDup; [intros x y; lia|apply P2].
      * intros g G1 G2. apply in_map_iff in G1. destruct G1 as (i & <- & G1). apply P1 in G1. apply I4 in G2.
        fold (osz a) in G1. lia.
    + apply in_app_or in H0. destruct H0 as [G|G].
      * apply in_map_iff in G. destruct G as (i & <- & G). lia.
      * apply I4 in G. lia.
    + apply in_app_or in H0. destruct H0 as [G|G].
      * apply in_map_iff in G. destruct G as (i & <- & G). apply P1 in G. fold (osz a) in G. cbn [sumN]. lia.
      * apply I4 in G. cbn [sumN]. lia.
    + intros [|p] i b E Hi.
      * cbn in E. injection E as <-. apply in_or_app. left. apply in_map_iff. exists i. split; [cbn; lia|exact Hi].
      * apply in_or_app. right. specialize (I5 p i b E Hi). replace (s + off (a :: l) (S p) + i) with (s + osz a + off l p + i);
          [exact I5|]. unfold off. cbn [firstn map sumN]. lia.
Qed.

End Rows.

Theorem container_align (m : nat -> nat) (val : nat -> nat -> nat -> X -> list Q) (l : list piece) :
  (forall p b, nth_error l p = Some b -> piece_ok m (val p) b) ->
  csize l = length (all_funs l) /\
  forall u,
    NoDup (cactive l u) /\
    (forall k, length (crows l k u) = m k * length (cactive l u)) /\
    (forall g p i b, nth_error (all_funs l) g = Some (p, i) -> nth_error l p = Some b -> (In g (cactive l u) <-> In i (cp_act b u))) /\
    (forall r g, nth_error (cactive l u) r = Some g ->
       exists p i, nth_error (all_funs l) g = Some (p, i) /\ forall k, firstn (m k) (skipn (m k * r) (crows l k u)) = val p k i u).
Proof.
  intros H. split; [now rewrite csize_sum, all_funs_from, funs_from_length|]. intros u.
  destruct (align_from m val l u 0 0 H) as (I1 & I2 & I3 & I4 & I5). rewrite cactive_from.
  split; [exact I3|]. split; [intros k; rewrite crows_concat; apply I2|]. split.
  - intros g p i b E Eb. apply all_funs_nth in E. destruct E as (b' & E1 & E2 & E3). rewrite Eb in E1. injection E1 as <-.
    split; intros G.
    + apply In_nth_error in G. destruct G as (r & G). destruct (I1 r g G) as (p' & i' & b' & F1 & F2 & F3 & F4 & _).
      assert (Q1 : nth_error (all_funs l) g = Some (p', i')) by (apply all_funs_nth; exists b'; auto).
      assert (Q2 : nth_error (all_funs l) g = Some (p, i)) by (apply all_funs_nth; exists b; auto).
      rewrite Q1 in Q2. injection Q2 as -> ->. rewrite Eb in F1. now injection F1 as <-.
    + subst g. apply (I5 p i b Eb G).
  - intros r g G. destruct (I1 r g G) as (p & i & b & F1 & F2 & F3 & F4 & F5). exists p, i. split.
    + apply all_funs_nth. exists b. auto.
    + intros k. rewrite crows_concat. apply F5.
Qed.

(** degree *)
Theorem container_degree (l : list piece) dir : let deg b := match dir with 0 => fst (cp_deg b) | _ => snd (cp_deg b) end in
  (forall b, In b l -> deg b <= cdegree l dir) /\ (cdegree l dir = 0 \/ exists b, In b l /\ deg b = cdegree l dir).
Proof.
  intros deg. unfold cdegree.
  enough (G : forall n, let v := fold_left (fun d b => if d <? deg b then deg b else d) l n in
    n <= v /\ (forall b, In b l -> deg b <= v) /\ (v = n \/ exists b, In b l /\ deg b = v)).
  { destruct (G 0) as (_ & G2 & G3). split; [exact G2|exact G3]. }
  induction l as [|a l IH]; intros n; cbn [fold_left].
  - split; [lia|]. split; [intros b []|now left].
  - destruct (IH (if n <? deg a then deg a else n)) as (I1 & I2 & I3). split; [destruct (n <? deg a) eqn:E; lia|]. split.
    + intros b [<-|Hb]; [destruct (n <? deg a) eqn:E; lia|now apply I2].
    + destruct I3 as [I3|(b & Hb & I3)].
      * rewrite I3. destruct (n <? deg a) eqn:E; [right; exists a; split; [now left|reflexivity]|now left].
      * right. exists b. split; [now right|exact I3].
Qed.

(** ** Boundary functions *)

Lemma cshift_ok (l : list piece) id : id <= length l -> cshift l id = Ok (off l id).
Proof.
  unfold cshift. induction id as [|id IH]; intros H; [reflexivity|].
  rewrite seq_S, foldM_app, IH by lia. cbn [bind foldM plus].
  destruct (nth_error l id) as [b|] eqn:E; [|apply nth_error_None in E; lia]. unfold vget. rewrite E. cbn [bind].
  f_equal. unfold off. destruct (nth_error_split _ _ E) as (l1 & l2 & -> & <-).
  rewrite !firstn_app, (firstn_all2 (n := S (length l1)) l1) by lia. rewrite firstn_all, Nat.sub_diag.
  replace (S (length l1) - length l1) with 1 by lia. cbn [firstn]. rewrite app_nil_r, map_app, sumN_app. cbn. unfold osz, tsize. lia.
Qed.

Lemma offset_in (b : tbasis) s o i : o < across b s -> (In i (boundaryOffset b s o) <-> at_distance b s o i).
Proof.
  destruct b as [nu nv]. unfold across, at_distance, boundaryOffset, tindex. cbn [fst snd].
  destruct s; intros H; rewrite in_map_iff; setoid_rewrite in_seq; split.
  - intros (j & <- & Hj). exists o, j. repeat split; lia.
  - intros (x & y & Hx & Hy & -> & ->). exists y. split; [reflexivity|lia].
  - intros (j & <- & Hj). exists (nu - 1 - o), j. repeat split; lia.
  - intros (x & y & Hx & Hy & -> & E). exists y. split; [|lia]. replace (nu - 1 - o) with x by lia. reflexivity.
  - intros (j & <- & Hj). exists j, o. repeat split; lia.
  - intros (x & y & Hx & Hy & -> & ->). exists x. split; [reflexivity|lia].
  - intros (j & <- & Hj). exists j, (nv - 1 - o). repeat split; lia.
  - intros (x & y & Hx & Hy & -> & E). exists x. split; [|lia]. replace (nv - 1 - o) with y by lia. reflexivity.
Qed.

Lemma at_distance_lt b s o i : at_distance b s o i -> i < fst b * snd b.
Proof. intros (x & y & Hx & Hy & -> & _). nia. Qed.

Lemma offset_nodup (b : tbasis) s o : 0 < fst b -> NoDup (boundaryOffset b s o).
Proof.
  intros H. destruct s; unfold boundaryOffset, tindex; apply FinFun.Injective_map_NoDup; try apply seq_NoDup; intros x y E; nia.
Qed.

(** one block *)
Lemma block_ok (l : list piece) id b s o :
  nth_error l id = Some b -> o < across (cp_tb b) s ->
  exists r, shiftedOffset l id s o = Ok r /\ (forall g, In g r <-> exists i, nth_error (all_funs l) g = Some (id, i) /\ at_distance (cp_tb b) s o i) /\
    (0 < fst (cp_tb b) -> NoDup r).
Proof.
  intros E Ho. unfold shiftedOffset, vget. assert (L : id < length l) by (apply nth_error_Some; congruence).
  rewrite cshift_ok by lia. cbn [bind]. rewrite E. cbn [bind]. unfold pieceOffset.
  assert (EO : (o <? match side_dir s with 0 => fst (cp_tb b) | _ => snd (cp_tb b) end) = true).
  { apply Nat.ltb_lt. destruct s; exact Ho. }
  rewrite EO. cbn [ensure bind]. eexists. split; [reflexivity|]. split.
  - intros g. rewrite in_map_iff. split.
    + intros (i & <- & Hi). apply offset_in in Hi; [|exact Ho]. exists i. split; [|exact Hi]. apply all_funs_nth. exists b.
      split; [exact E|]. split; [now apply at_distance_lt in Hi|lia].
    + intros (i & Hg & Hi). apply all_funs_nth in Hg. destruct Hg as (b' & E' & H1 & ->). exists i. split; [lia|].
      now apply offset_in.
  - intros H. apply FinFun.Injective_map_NoDup; [intros x y; lia|]. now apply offset_nodup.
Qed.

Lemma all_funs_key (l : list piece) g p i p' i' : nth_error (all_funs l) g = Some (p, i) -> nth_error (all_funs l) g = Some (p', i') -> p = p' /\ i = i'.
Proof. intros E1 E2. rewrite E1 in E2. injection E2 as -> ->. auto. Qed.

(** nine pieces *)
Theorem container_boundary (l : list piece) s o : length l = 9 ->
  (forall p b, nth_error l p = Some b -> touches s p -> o < across (cp_tb b) s /\ 0 < fst (cp_tb b)) ->
  exists r, cboundaryOffset l s o = Ok r /\ NoDup r /\
    (forall g, In g r <-> exists p i b, nth_error (all_funs l) g = Some (p, i) /\ nth_error l p = Some b /\ touches s p /\ at_distance (cp_tb b) s o i).
Proof.
  intros HL HO.
  assert (HB : forall id, touches s id -> exists b r, nth_error l id = Some b /\ shiftedOffset l id s o = Ok r /\
     (forall g, In g r <-> exists i, nth_error (all_funs l) g = Some (id, i) /\ at_distance (cp_tb b) s o i) /\ NoDup r).
  { intros id Ht. assert (L : id < length l) by (rewrite HL; destruct s; cbn in Ht; lia).
    destruct (nth_error l id) as [b|] eqn:E; [|apply nth_error_None in E; lia].
    destruct (HO id b E Ht) as [H1 H2]. destruct (block_ok l id b s o E H1) as (r & Er & I1 & I2). exists b, r. auto. }
  assert (T3 : exists q1 q2 q3, side_ix s = q1 /\ map (fun c => corner_ix c + 4) (contained_corners s) = [q2; q3] /\
     q1 <> q2 /\ q1 <> q3 /\ q2 <> q3 /\ forall q, touches s q <-> q = q1 \/ q = q2 \/ q = q3).
  { destruct s; eexists _, _, _; (split; [reflexivity|]); (split; [reflexivity|]); cbn; do 3 (split; [lia|]); intros q; lia. }
  destruct T3 as (q1 & q2 & q3 & E1 & E2 & N1 & N2 & N3 & HT).
  destruct (HB q1) as (b1 & r1 & B1 & R1 & I1 & D1); [apply HT; auto|].
  destruct (HB q2) as (b2 & r2 & B2 & R2 & I2 & D2); [apply HT; auto|].
  destruct (HB q3) as (b3 & r3 & B3 & R3 & I3 & D3); [apply HT; auto|].
  unfold cboundaryOffset. rewrite HL. cbn [Nat.eqb negb]. rewrite E1, R1. cbn [bind].
  destruct (contained_corners s) as [|c2 [|c3 [|]]]; try discriminate. cbn in E2. injection E2 as <- <-.
  cbn [foldM]. rewrite R2. cbn [bind]. rewrite R3. cbn [bind]. eexists. split; [reflexivity|]. split.
  - assert (DJ : forall p p' b b' g, p <> p' -> (exists i, nth_error (all_funs l) g = Some (p, i) /\ at_distance b s o i) ->
       (exists i, nth_error (all_funs l) g = Some (p', i) /\ at_distance b' s o i) -> False).
    { intros p p' b b' g Hn (i & G1 & _) (i' & G2 & _). destruct (all_funs_key l g _ _ _ _ G1 G2). auto. }
    apply NoDup_app_iff. split; [apply NoDup_app_iff; split; [exact D1|]; split; [exact D2|]|split; [exact D3|]].
    + intros g G1 G2. apply I1 in G1. apply I2 in G2. exact (DJ _ _ _ _ g N1 G1 G2).
    + intros g G G3. apply I3 in G3. apply in_app_or in G. destruct G as [G|G]; [apply I1 in G|apply I2 in G].
      * exact (DJ _ _ _ _ g N2 G G3).
      * exact (DJ _ _ _ _ g N3 G G3).
  - intros g. rewrite !in_app_iff, I1, I2, I3. split.
    + intros [[ (i & G1 & G2) | (i & G1 & G2) ] | (i & G1 & G2) ]; eexists _, i, _; (split; [exact G1|]); (split; [eassumption|]);
        (split; [apply HT; auto|exact G2]).
    + intros (p & i & b & G1 & G2 & G3 & G4). apply HT in G3. destruct G3 as [ -> | [ -> | -> ] ].
      * left; left. exists i. rewrite B1 in G2. injection G2 as <-. auto.
      * left; right. exists i. rewrite B2 in G2. injection G2 as <-. auto.
      * right. exists i. rewrite B3 in G2. injection G2 as <-. auto.
Qed.

(** one piece *)
Theorem container_boundary_one (b : piece) s o : o < across (cp_tb b) s -> 0 < fst (cp_tb b) ->
  exists r, cboundaryOffset [b] s o = Ok r /\ NoDup r /\ (forall g, In g r <-> at_distance (cp_tb b) s o g).
Proof.
  intros Ho Hp. unfold cboundaryOffset. cbn [length Nat.eqb negb vget nth_error bind]. unfold pieceOffset.
  assert (EO : (o <? match side_dir s with 0 => fst (cp_tb b) | _ => snd (cp_tb b) end) = true).
  { apply Nat.ltb_lt. destruct s; exact Ho. }
  rewrite EO. cbn [ensure bind]. eexists. split; [reflexivity|]. split; [now apply offset_nodup|].
  intros g. now apply offset_in.
Qed.

Theorem container_corner (l : list piece) c b : length l = 9 -> nth_error l (corner_piece_of c) = Some b ->
  0 < fst (cp_tb b) -> 0 < snd (cp_tb b) ->
  exists g i, cfunctionAtCorner l c = Ok g /\ nth_error (all_funs l) g = Some (corner_piece_of c, i) /\ at_corner (cp_tb b) c i.
Proof.
  intros HL E H1 H2. unfold cfunctionAtCorner. rewrite HL. cbn [Nat.eqb negb].
  assert (EC : corner_ix c + 4 = corner_piece_of c) by (destruct c; reflexivity). rewrite EC.
  rewrite cshift_ok by (rewrite HL; destruct c; cbn; lia). cbn [bind]. unfold vget. rewrite E. cbn [bind].
  exists (functionAtCorner (cp_tb b) c + off l (corner_piece_of c)), (functionAtCorner (cp_tb b) c).
  split; [reflexivity|]. destruct (cp_tb b) as [nu nv] eqn:Eb. cbn [fst snd] in *.
  assert (HC : functionAtCorner (nu, nv) c < nu * nv /\ at_corner (nu, nv) c (functionAtCorner (nu, nv) c)).
  { unfold functionAtCorner, tindex, at_corner. destruct c; cbn; split; nia. }
  split; [|apply HC]. apply all_funs_nth. exists b. unfold osz. rewrite Eb. cbn [fst snd]. split; [exact E|]. split; [apply HC|lia].
Qed.

Theorem container_corner_one (b : piece) c : 0 < fst (cp_tb b) -> 0 < snd (cp_tb b) ->
  exists i, cfunctionAtCorner [b] c = Ok i /\ at_corner (cp_tb b) c i /\ i < csize [b].
Proof.
  intros H1 H2. exists (functionAtCorner (cp_tb b) c). split; [reflexivity|].
  rewrite csize_sum. cbn [map sumN]. unfold osz. destruct (cp_tb b) as [nu nv]. cbn [fst snd] in *.
  unfold functionAtCorner, tindex, at_corner. destruct c; cbn; split; nia.
Qed.

(** support *)
Theorem container_support (l : list piece) g p i b :
  nth_error (all_funs l) g = Some (p, i) -> nth_error l p = Some b ->
  (p = 0 -> csupport l g = Ok (cp_sup b i)) /\ (p <> 0 -> csupport l g = Err).
Proof.
  intros E Eb. apply all_funs_nth in E. destruct E as (b' & E1 & E2 & E3). rewrite Eb in E1. injection E1 as <-.
  destruct l as [|a l]; [destruct p; discriminate|]. unfold csupport, vget. cbn [nth_error bind]. split.
  - intros ->. cbn in Eb. injection Eb as ->. cbn in E3. subst g. unfold osz in E2.
    assert (EI : (i <? tsize (cp_tb b)) = true) by (unfold tsize; lia). rewrite EI. reflexivity.
  - intros Hp. destruct p as [|p]; [now elim Hp|]. unfold off in E3. cbn [firstn map sumN] in E3. unfold osz at 1 in E3.
    assert (EI : (g <? tsize (cp_tb a)) = false) by (unfold tsize; lia). rewrite EI. reflexivity.
Qed.

End Proofs.
