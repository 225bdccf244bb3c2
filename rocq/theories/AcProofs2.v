(** The rows of every column of the matrix of gsAlmostC1 before the treatment of the special vertices. *)
From Verif Require Import Common TopoModel BaseModel BaseModel2 IndexSpec TopoSpec SmoothSpec SmoothSpec2 RingModel RingSpec DpModel DpSpec
  IndexProofs IndexTopoProofs ListLemmas TopoProofs PointProofs MapperProofs CountProofs MatrixProofs RingProofs RingProofs2 RingProofs3 DpProofs DpProofs2
  AcProofs.
From Coq Require Import ZifyBool.

Section P.
Variable DI : dinput.
Notation I := (dring DI).
Hypothesis RI : ring_input I.
Hypothesis RM : rows_match DI.
Variable m : cmap.
Hypothesis V : avals I m.
Notation t := (ritopo I).
Notation np := (length (ribases I)).
Let Hcons : consistent t := ri_topo I RI.
Let Hnp : tnp t = np := ri_np I RI.
Notation cls := (cls t).
Notation valence := (valence t).
Notation inner := (inner t).
Notation ifl := (ifl t).
Notation rc0 := (rc0 I).
Notation sizes := (sizes I).
Notation D := (dofs_from 0 sizes).
Notation B := (B I).
Notation rbas := (rbas I).
Notation strip := (strip I).
Notation half0 := (half0 I).
Notation flat2 := (flat2 I).
Notation avg := (avg I).
Notation ridx := (ridx m).
Notation cidx := (cidx sizes).
Notation dpt := (dpt DI).
Notation rem1 := (rem1 DI).
Notation rem2 := (rem2 DI).
Let rvalidc := rvalidc I RI.
Let ES : cmsizes m = sizes := av_sizes I m V.

(** ** values *)
Lemma arow1_value ps k : fst ps < np ->
  In k (without (roff (rbas (fst ps)) (snd ps) 1) (dnear (rbas (fst ps)) (snd ps) 1)) ->
  In (fst ps, k) D /\ (forall c a e, a < 2 -> e < 2 -> (fst ps, k) <> B c a e) /\ cmval m (fst ps, k) = 0%Z.
Proof.
  intros Hp Hk. pose proof (rbas_like I RI _ Hp) as L.
  assert (forall c a e, a < 2 -> e < 2 -> (fst ps, k) <> B c a e) as N.
  { intros c a e Ha He E. unfold RingProofs2.B in E. injection E as E1 E2. rewrite <- E1 in E2.
    apply (row1_blk _ L _ _ (snd c) a e Hk Ha He). exact E2. }
  split; [|split; [exact N|]].
  - apply (in_D I RI). simpl. split; auto. apply in_without in Hk. apply (rl_range _ L (snd ps) 1 k); [lia|tauto].
  - apply (av_other I m V).
    + intros (c & a & e & Hc & Ha & He & E). apply (N c a e Ha He E).
    + intros ps' _ G. apply in_map_iff in G. destruct G as (k' & E & G). injection E as E1 ->. rewrite E1 in G.
      apply (row1_strip _ L (snd ps) k (snd ps') Hk G).
Qed.

(** functions with rows of their own, and functions that keep a row although their column is an average *)
Definition own (y : dof) : Prop :=
  cmval m y = 0%Z /\ forall c a e, fst c < np -> a < 2 -> e < 2 -> y = B c a e -> avg c a e = false.
Definition keptd (y : dof) : Prop :=
  cmval m y = 0%Z /\ exists c a e, fst c < np /\ a < 2 /\ e < 2 /\ y = B c a e /\ avg c a e = true.

Lemma arem1_1 f k : In f (tif t) -> In k (rem1 f 1) -> In (fst (if1 f), k) D /\ own (fst (if1 f), k).
Proof.
  intros Hf Hk. destruct (rem_spec DI RM f 1 Hf ltac:(lia)) as [A _].
  destruct (arow1_value (if1 f) k) as (H1 & H2 & H3); [apply (iface_np DI RI f Hf)|eapply Permutation_in; eauto|].
  split; auto. split; auto. intros c a e _ Ha He E. exfalso. apply (H2 c a e Ha He E).
Qed.
Lemma arem2_1 f k : In f (tif t) -> In k (rem2 f 1) -> In (fst (if2 f), k) D /\ own (fst (if2 f), k).
Proof.
  intros Hf Hk. destruct (rem_spec DI RM f 1 Hf ltac:(lia)) as [_ A].
  destruct (arow1_value (if2 f) k) as (H1 & H2 & H3); [apply (iface_np DI RI f Hf)|eapply Permutation_in; eauto|].
  split; auto. split; auto. intros c a e _ Ha He E. exfalso. apply (H2 c a e Ha He E).
Qed.

Lemma own_near (c : pcorner) a e : fst c < np -> a < 2 -> e < 2 -> avg c a e = false -> own (B c a e).
Proof.
  intros H Ha He E. split.
  - pose proof (av_near I m V c H a e Ha He) as G. unfold aelb in G. rewrite E in G. exact G.
  - intros c' a' e' H' Ha' He' EB. apply (B_inj I RI) in EB; auto. destruct EB as (-> & -> & ->). exact E.
Qed.
Lemma own11 (c : pcorner) : fst c < np -> own (B c 1 1).
Proof. intros H. apply own_near; auto. Qed.
Lemma near_le (c : pcorner) a e : fst c < np -> a < 2 -> e < 2 -> (cmval m (B c a e) <= 0)%Z.
Proof. intros H Ha He. pose proof (av_near I m V c H a e Ha He) as G. destruct (aelb I c a e); lia. Qed.
Lemma near_dec y : (exists c a e, fst c < np /\ a < 2 /\ e < 2 /\ y = B c a e) \/ (forall c a e, fst c < np -> a < 2 -> e < 2 -> y <> B c a e).
Proof.
  destruct (in_dec dof_dec y (flat_map (fun c => [B c 0 0; B c 0 1; B c 1 0; B c 1 1]) (all_corners np))) as [G|G].
  - left. apply in_flat_map in G. destruct G as (c & Hc & G). apply in_all_corners in Hc.
    simpl in G. repeat (destruct G as [<-|G]; [eexists c, _, _; repeat split; eauto|]). contradiction.
  - right. intros c a e Hc Ha He ->. apply G, in_flat_map. exists c. split; [apply in_all_corners; auto|].
    destruct (two01 a Ha) as [-> | ->]; destruct (two01 e He) as [-> | ->]; simpl; auto.
Qed.
Lemma zero_cases y : cmval m y = 0%Z -> own y \/ keptd y.
Proof.
  intros Z0. destruct (near_dec y) as [(c & a & e & Hc & Ha & He & ->)|N].
  - destruct (avg c a e) eqn:E; [right; split; auto; exists c, a, e; auto 6|left; apply own_near; auto].
  - left. split; auto. intros c a e Hc Ha He E. exfalso. apply (N c a e Hc Ha He E).
Qed.
Lemma own_kept y : own y -> keptd y -> False.
Proof. intros [_ H] [_ (c & a & e & Hc & Ha & He & E & T)]. rewrite (H c a e) in T; auto. discriminate. Qed.
Lemma strip_near ps y (c : pcorner) a e : fst c < np -> a < 2 -> e < 2 -> In y (strip ps) -> y <> B c a e.
Proof. intros Hc Ha He H ->. apply (strip_B I RI ps c a e); auto. Qed.
Lemma val_le y : In y D -> (cmval m y <= 0)%Z.
Proof.
  intros Hy. destruct (near_dec y) as [(c & a & e & Hc & Ha & He & ->)|N]; [apply near_le; auto|].
  destruct (existsb (fun ps => existsb (dof_eqb y) (strip ps)) (iface_sides t)) eqn:Es.
  - apply existsb_exists in Es. destruct Es as (ps & Hps & Hy'). apply existsb_exists in Hy'. destruct Hy' as (y' & Hy' & E).
    apply dof_eqb_iff in E. subst y'. pose proof (av_strip I m V ps y Hps Hy'). lia.
  - rewrite (av_other I m V); [lia| |].
    + intros (c & a & e & Hc & Ha & He & E). apply in_all_corners in Hc. apply (N c a e Hc Ha He E).
    + intros ps Hps G. rewrite existsb_false in Es. specialize (Es ps Hps). rewrite existsb_false in Es. specialize (Es y G).
      rewrite dof_eqb_same in Es. discriminate.
Qed.

(** ** the rows and weights of a column *)
Definition aidir (c : pcorner) : nat := if ifl c 0 then 0 else 1.
Definition dartP (c : pcorner) (d k : nat) : list (nat * Q) :=
  match dnext t (c, d) with
  | Some (c', d') => [(ridx (dpt c d k 1), half); (ridx (dpt c' d' k 1), half)]
  | None => []
  end.
Definition bdarts (c : pcorner) : list (pcorner * nat) :=
  filter (fun x => match dnext t x with None => true | Some _ => false end) (darts (cls c)).
Definition nearP (c : pcorner) (a e : nat) : list (nat * Q) :=
  if (a =? 0) && (e =? 0) then
    if inner c then map (fun c' => (ridx (B c' 1 1), (1 # Pos.of_nat (valence c))%Q)) (cls c)
    else if half0 c then map (fun x => (ridx (dpt (fst x) (snd x) 1 0), half)) (bdarts c)
    else dartP c (aidir c) 0
  else if a =? 0 then dartP c 0 1 else dartP c 1 1.

Inductive akid : dof -> list (nat * Q) -> Prop :=
| ak_own y : own y -> akid y [(ridx y, 1%Q)]
| ak_strip f i a1 b1 a2 b2 y : In f (tif t) -> nth_error (rem1 f 0) i = Some a1 -> nth_error (rem1 f 1) i = Some b1 ->
    nth_error (rem2 f 0) i = Some a2 -> nth_error (rem2 f 1) i = Some b2 ->
    y = (fst (if1 f), a1) \/ y = (fst (if2 f), a2) ->
    akid y [(ridx (fst (if1 f), b1), half); (ridx (fst (if2 f), b2), half)]
| ak_near c a e : fst c < np -> a < 2 -> e < 2 -> avg c a e = true -> akid (B c a e) (nearP c a e).

(** ** every column has its rows *)
Lemma akid_total y : In y D -> exists P, akid y P.
Proof.
  intros Hy. destruct (near_dec y) as [(c & a & e & Hc & Ha & He & ->)|N].
  - destruct (avg c a e) eqn:E; [eexists; apply ak_near; auto|eexists; apply ak_own, own_near; auto].
  - destruct (existsb (fun ps => existsb (dof_eqb y) (strip ps)) (iface_sides t)) eqn:Es.
    + apply existsb_exists in Es. destruct Es as (ps & Hps & Hy'). apply existsb_exists in Hy'. destruct Hy' as (y' & Hy' & E).
      apply dof_eqb_iff in E. subst y'. apply (in_iface_sides t) in Hps. destruct Hps as (f & Hf & Hps).
      destruct (rem_length DI RI RM f Hf) as (L1 & L2 & L3). apply in_map_iff in Hy'. destruct Hy' as (a & <- & Ha).
      assert (exists i, i < length (rem1 f 0) /\ (nth_error (rem1 f 0) i = Some a /\ ps = if1 f \/ nth_error (rem2 f 0) i = Some a /\ ps = if2 f)) as (i & Hi & Ni).
      { destruct Hps as [<-|<-].
        - apply (rem1_0 DI RI RM) in Ha; auto. apply In_nth_error in Ha. destruct Ha as (i & Ni). exists i. split; [apply nth_error_Some; congruence|auto].
        - apply (rem2_0 DI RI RM) in Ha; auto. apply In_nth_error in Ha. destruct Ha as (i & Ni). exists i. split; [|auto].
          rewrite L1. apply nth_error_Some. congruence. }
      destruct (nth_error (rem1 f 0) i) as [a1|] eqn:N1; [|apply nth_error_None in N1; lia].
      destruct (nth_error (rem2 f 0) i) as [a2|] eqn:N2; [|apply nth_error_None in N2; lia].
      destruct (nth_error (rem1 f 1) i) as [b1|] eqn:N3; [|apply nth_error_None in N3; lia].
      destruct (nth_error (rem2 f 1) i) as [b2|] eqn:N4; [|apply nth_error_None in N4; lia].
      eexists. eapply (ak_strip f i a1 b1 a2 b2); eauto. destruct Ni as [[[= ->] ->]|[[= ->] ->]]; auto.
    + eexists. apply ak_own. split.
      * apply (av_other I m V).
        -- intros (c & a & e & Hc & Ha & He & E). apply in_all_corners in Hc. apply (N c a e Hc Ha He E).
        -- intros ps Hps G. rewrite existsb_false in Es. specialize (Es ps Hps). rewrite existsb_false in Es. specialize (Es y G).
           rewrite dof_eqb_same in Es. discriminate.
      * intros c a e Hc Ha He E. exfalso. apply (N c a e Hc Ha He E).
Qed.

(** ** and only one list of rows *)
Lemma strip_fun f i a1 b1 a2 b2 f' i' a1' b1' a2' b2' y :
  In f (tif t) -> nth_error (rem1 f 0) i = Some a1 -> nth_error (rem1 f 1) i = Some b1 ->
  nth_error (rem2 f 0) i = Some a2 -> nth_error (rem2 f 1) i = Some b2 -> y = (fst (if1 f), a1) \/ y = (fst (if2 f), a2) ->
  In f' (tif t) -> nth_error (rem1 f' 0) i' = Some a1' -> nth_error (rem1 f' 1) i' = Some b1' ->
  nth_error (rem2 f' 0) i' = Some a2' -> nth_error (rem2 f' 1) i' = Some b2' -> y = (fst (if1 f'), a1') \/ y = (fst (if2 f'), a2') ->
  f = f' /\ b1 = b1' /\ b2 = b2'.
Proof.
  intros Hf N1 N2 N3 N4 Hy Hf' N1' N2' N3' N4' Hy'.
  destruct (strip_value DI RI RM f i a1 a2 y Hf N1 N3 Hy) as (ps & Hps & Hin & Hpf).
  assert (forall ps', In y (strip ps') -> ps = ps') as U.
  { intros ps' G. assert (fst ps < np) as Hp by (rewrite <- Hnp; apply (sides_valid t Hcons); auto).
    destruct (Nat.eq_dec (fst ps) (fst ps')) as [E1|E1]; [destruct (side_eqb (snd ps) (snd ps')) eqn:E2|].
    - destruct ps as [p s], ps' as [p' s']. simpl in *. subst p'. destruct s, s'; simpl in E2; congruence.
    - exfalso. apply (strip_disjoint I RI ps ps' y); auto. intros E. rewrite E in E2. destruct (snd ps'); discriminate.
    - exfalso. apply (strip_disjoint I RI ps ps' y); auto. congruence. }
  assert (forall g i a1 a2, In g (tif t) -> nth_error (rem1 g 0) i = Some a1 -> nth_error (rem2 g 0) i = Some a2 ->
     y = (fst (if1 g), a1) \/ y = (fst (if2 g), a2) ->
     (ps = if1 g /\ y = (fst ps, a1)) \/ (ps = if2 g /\ y = (fst ps, a2))) as W.
  { intros g j x1 x2 Hg M1 M2 [Ez|Ez]; [left|right].
    - assert (In y (strip (if1 g))) as G. { rewrite Ez. apply in_map_iff. exists x1. split; auto. apply (rem1_0 DI RI RM); auto. eapply nth_error_In; eauto. }
      apply U in G. rewrite G. auto.
    - assert (In y (strip (if2 g))) as G. { rewrite Ez. apply in_map_iff. exists x2. split; auto. apply (rem2_0 DI RI RM); auto. eapply nth_error_In; eauto. }
      apply U in G. rewrite G. auto. }
  pose proof (W f i a1 a2 Hf N1 N3 Hy) as W1. pose proof (W f' i' a1' a2' Hf' N1' N3' Hy') as W2.
  assert (f = f') as <-.
  { apply (iface_unique t Hcons f f' ps); auto; [destruct W1 as [[-> _]|[-> _]]|destruct W2 as [[-> _]|[-> _]]]; auto. }
  pose proof (iface_ends_differ t Hcons f Hf) as Df.
  assert (i = i') as <-.
  { destruct W1 as [[E1 Z1]|[E1 Z1]], W2 as [[E2 Z2]|[E2 Z2]]; try congruence.
    - assert (a1 = a1') by congruence. subst a1'.
      eapply (proj1 (NoDup_nth_error _) (rem1_nodup DI RI RM f 0 Hf ltac:(lia))); [apply nth_error_Some; congruence|congruence].
    - assert (a2 = a2') by congruence. subst a2'.
      eapply (proj1 (NoDup_nth_error _) (rem2_nodup DI RI RM f 0 Hf ltac:(lia))); [apply nth_error_Some; congruence|congruence]. }
  split; [|split]; congruence.
Qed.

Lemma akid_fun y P P' : akid y P -> akid y P' -> P = P'.
Proof.
  intros K K'.
  destruct K as [y Ho|f i a1 b1 a2 b2 y Hf N1 N2 N3 N4 Hy|c a e Hc Ha He Hav].
  - remember y as y0 eqn:Ey in K'. destruct K' as [z Hz'|f' i' a1' b1' a2' b2' z Hf' N1' N2' N3' N4' Hy'|c' a' e' Hc' Ha' He' Hav']; subst y.
    + reflexivity.
    + destruct (strip_value DI RI RM f' i' a1' a2' z Hf' N1' N3' Hy') as (ps & Hps & Hin & _). pose proof (av_strip I m V ps z Hps Hin). destruct Ho. lia.
    + destruct Ho as [_ Ho]. rewrite (Ho c' a' e') in Hav'; auto. discriminate.
  - destruct (strip_value DI RI RM f i a1 a2 y Hf N1 N3 Hy) as (ps & Hps & Hin & _).
    remember y as y0 eqn:Ey in K'. destruct K' as [z Hz'|f' i' a1' b1' a2' b2' z Hf' N1' N2' N3' N4' Hy'|c' a' e' Hc' Ha' He' Hav']; subst y.
    + pose proof (av_strip I m V ps z Hps Hin). destruct Hz'. lia.
    + destruct (strip_fun f i a1 b1 a2 b2 f' i' a1' b1' a2' b2' z) as (<- & <- & <-); auto.
    + exfalso. apply (strip_near ps _ c' a' e' Hc' Ha' He' Hin eq_refl).
  - remember (B c a e) as y0 eqn:Ey in K'. destruct K' as [z Hz'|f' i' a1' b1' a2' b2' z Hf' N1' N2' N3' N4' Hy'|c' a' e' Hc' Ha' He' Hav'].
    + subst z. destruct Hz' as [_ Hz']. rewrite (Hz' c a e) in Hav; auto. discriminate.
    + subst z. destruct (strip_value DI RI RM f' i' a1' a2' _ Hf' N1' N3' Hy') as (ps & Hps & Hin & _).
      exfalso. apply (strip_near ps _ c a e Hc Ha He Hin eq_refl).
    + apply (B_inj I RI) in Ey; auto. destruct Ey as (-> & -> & ->). reflexivity.
Qed.

(** ** darts *)
Definition adart (c : pcorner) (d k : nat) : Prop := d < 2 /\ (k = 1 \/ (k = 0 /\ flat2 c = true)).
Lemma adart_lt c d k : adart c d k -> k < 2. Proof. intros (_ & [->|(-> & _)]); lia. Qed.
Lemma flat2_iff c : flat2 c = true <-> inner c = false /\ valence c = 2 /\ rc0 c = false.
Proof.
  unfold AcProofs.flat2. destruct (inner c), (rc0 c); simpl; try rewrite andb_false_r; try rewrite andb_true_r; split; try discriminate;
    try (intros (? & ? & ?); discriminate).
  - intros E. split; auto. split; auto. lia.
  - intros (_ & E & _). lia.
Qed.
Lemma adart_cls c d c' d' k : fst c < np -> dnext t (c, d) = Some (c', d') -> adart c d k -> adart c' d' k.
Proof.
  intros H Hn (Hd & Hk). split; [apply (dnext_dir t _ _ _ Hn)|].
  pose proof (dnext_in_cls DI RI c d c' d' Hd Hn) as Hcl. destruct (half0_cls I RI c c' H Hcl) as (_ & E & _). rewrite E. exact Hk.
Qed.
Lemma dart_own (c : pcorner) d k : fst c < np -> adart c d k -> ifl c d = true -> own (dpt c d k 1).
Proof.
  intros H (Hd & [->|(-> & Hf)]) Hi.
  - destruct d; apply own11; auto.
  - apply flat2_iff in Hf. destruct Hf as (Hi' & Hv & Hc). pose proof (val2_boundary t Hcons c (proj2 (rvalidc c) H) Hi' Hv) as Eb.
    destruct d as [|[|]]; [| |lia]; simpl; apply own_near; auto; unfold AcProofs.avg; simpl.
    + rewrite Hi in Eb. destruct (ifl c 1); [discriminate|reflexivity].
    + rewrite Hi in Eb. rewrite Eb. reflexivity.
Qed.
Lemma dart_avg (c : pcorner) d k : adart c d k -> ifl c d = true -> exists a e, a < 2 /\ e < 2 /\ dpt c d k 0 = B c a e /\ avg c a e = true /\
  (fst c < np -> nearP c a e = dartP c d k).
Proof.
  intros (Hd & [->|(-> & Hf)]) Hi.
  - destruct d as [|[|]]; [exists 0, 1|exists 1, 0|lia]; (split; [lia|split; [lia|split; [reflexivity|split; [|reflexivity]]]]); unfold AcProofs.avg; simpl; rewrite Hi; reflexivity.
  - exists 0, 0. split; [lia|]. split; [lia|]. split; [destruct d; reflexivity|]. split; [unfold AcProofs.avg; simpl; rewrite Hf; rewrite orb_true_r; reflexivity|].
    intros Hc. apply flat2_iff in Hf. destruct Hf as (Hi' & Hv & Hz). unfold nearP, AcProofs.half0. cbn [Nat.eqb andb]. rewrite Hi', Hv. cbn [negb andb Nat.ltb Nat.leb].
    f_equal. unfold aidir. pose proof (val2_boundary t Hcons c (proj2 (rvalidc c) Hc) Hi' Hv) as Eb.
    destruct d as [|[|]]; [rewrite Hi; reflexivity|rewrite Hi in Eb; rewrite Eb; reflexivity|lia].
Qed.

(** the averages are of three kinds *)
Lemma avg_cases (c : pcorner) a e : fst c < np -> a < 2 -> e < 2 -> avg c a e = true ->
  (a = 0 /\ e = 0 /\ inner c = true /\ nearP c a e = map (fun c' => (ridx (B c' 1 1), (1 # Pos.of_nat (valence c))%Q)) (cls c)) \/
  (a = 0 /\ e = 0 /\ half0 c = true /\ nearP c a e = map (fun x => (ridx (dpt (fst x) (snd x) 1 0), half)) (bdarts c)) \/
  (exists d k c' d', adart c d k /\ dnext t (c, d) = Some (c', d') /\ B c a e = dpt c d k 0 /\
     nearP c a e = [(ridx (dpt c d k 1), half); (ridx (dpt c' d' k 1), half)]).
Proof.
  intros Hc Ha He Hav. unfold AcProofs.avg in Hav.
  assert (forall d k, adart c d k -> ifl c d = true -> B c a e = dpt c d k 0 -> nearP c a e = dartP c d k ->
     exists d k c' d', adart c d k /\ dnext t (c, d) = Some (c', d') /\ B c a e = dpt c d k 0 /\
     nearP c a e = [(ridx (dpt c d k 1), half); (ridx (dpt c' d' k 1), half)]) as K.
  { intros d k H1 H2 H3 H4. apply (ifl_dnext DI) in H2. destruct H2 as (c' & d' & En). exists d, k, c', d'. rewrite H4. unfold dartP. rewrite En. auto. }
  destruct (two01 a Ha) as [-> | ->]; destruct (two01 e He) as [-> | ->]; cbn [Nat.eqb andb orb] in Hav; try discriminate.
  - destruct (inner c) eqn:Hi; [left; unfold nearP; rewrite Hi; auto|]. cbn [orb] in Hav.
    destruct (half0 c) eqn:Hh; [right; left; unfold nearP; rewrite Hi, Hh; auto|]. cbn [orb] in Hav. right; right.
    pose proof (proj1 (flat2_iff c) Hav) as (Hi' & Hv & _).
    assert (ifl c (aidir c) = true) as Hif.
    { unfold aidir. destruct (ifl c 0) eqn:E; auto. destruct (val2_iface t Hcons c (proj2 (rvalidc c) Hc)) as [F|F]; auto; [lia|congruence]. }
    apply (K (aidir c) 0); auto.
    + split; [unfold aidir; destruct (ifl c 0); lia|right; auto].
    + unfold aidir. destruct (ifl c 0); reflexivity.
    + unfold nearP. rewrite Hi, Hh. reflexivity.
  - rewrite orb_false_r in Hav. right; right. apply (K 0 1); auto. split; auto.
  - right; right. apply (K 1 1); auto. split; auto.
Qed.

Lemma in_bdarts (c c' : pcorner) d : In (c', d) (bdarts c) <-> In c' (cls c) /\ d < 2 /\ dnext t (c', d) = None.
Proof.
  unfold bdarts. rewrite filter_In, in_darts. destruct (dnext t (c', d)) eqn:E; intuition; congruence.
Qed.
Lemma boundary_own (c : pcorner) d : fst c < np -> d < 2 -> dnext t (c, d) = None -> own (dpt c d 1 0).
Proof.
  intros H Hd Hn. apply (dnext_none DI) in Hn. destruct d as [|[|]]; [| |lia]; simpl; apply own_near; auto; unfold AcProofs.avg; simpl; rewrite Hn; reflexivity.
Qed.

Lemma aridx_neq x y : In x D -> In y D -> cmval m x = 0%Z -> cmval m y = 0%Z -> ridx x = ridx y -> x = y.
Proof. intros Hx Hy Zx Zy E. destruct (ridx_inj sizes m ES x y Hx Hy ltac:(lia) ltac:(lia) E) as [?|[? ?]]; auto. lia. Qed.

(** rows are those of functions with rows of their own *)
Lemma akid_rows y P r w : akid y P -> In y D -> In (r, w) P -> exists x, In x D /\ own x /\ r = ridx x.
Proof.
  intros K Hy Hin. destruct K as [y Ho|f i a1 b1 a2 b2 y Hf N1 N2 N3 N4 Hy'|c a e Hc Ha He Hav].
  - destruct Hin as [[= <- <-]|[]]. eauto.
  - apply nth_error_In in N2, N4. destruct (arem1_1 f b1 Hf N2), (arem2_1 f b2 Hf N4). destruct Hin as [[= <- <-]|[[= <- <-]|[]]]; eauto.
  - destruct (avg_cases c a e Hc Ha He Hav) as [(_ & _ & Hi & E)|[(_ & _ & Hh & E)|(d & k & c' & d' & Hk & Hn & _ & E)]]; rewrite E in Hin.
    + apply in_map_iff in Hin. destruct Hin as (c' & [= <- <-] & Hc'). pose proof (rcls_valid I RI c c' Hc Hc').
      exists (B c' 1 1). split; [apply (B_in I RI); auto|]. split; auto. apply own11; auto.
    + apply in_map_iff in Hin. destruct Hin as ([c' d'] & [= <- <-] & Hc'). apply in_bdarts in Hc'. destruct Hc' as (Hc' & Hd' & Hn).
      pose proof (rcls_valid I RI c c' Hc Hc'). eexists. split; [|split; [apply (boundary_own c' d'); auto|reflexivity]]. apply (dpt_in DI RI); auto.
    + destruct (dnext_np DI RI _ _ _ _ Hn) as [_ Hc']. pose proof (adart_lt _ _ _ Hk). pose proof (adart_cls _ _ _ _ _ Hc Hn Hk) as Hk'.
      assert (ifl c d = true) as F by (apply (ifl_dnext DI); eauto).
      assert (ifl c' d' = true) as F'. { apply (ifl_dnext DI). exists c, d. apply (dnext_sym t Hcons); auto. apply Hk. }
      destruct Hin as [[= <- <-]|[[= <- <-]|[]]]; [exists (dpt c d k 1)|exists (dpt c' d' k 1)]; (split; [apply (dpt_in DI RI); auto|split; [apply dart_own; auto|reflexivity]]).
Qed.

Lemma nodup_rows {A} (g : A -> dof) l : (forall x, In x l -> In (g x) D /\ own (g x)) -> (forall x y, In x l -> In y l -> g x = g y -> x = y) -> NoDup l ->
  NoDup (map (fun x => ridx (g x)) l).
Proof.
  intros Hg Hi N. induction N as [|a l Ha N IH]; simpl; constructor.
  - intros G. apply in_map_iff in G. destruct G as (b & E & Hb). destruct (Hg a) as [D1 [O1 _]]; [left; auto|]. destruct (Hg b) as [D2 [O2 _]]; [right; auto|].
    apply aridx_neq in E; auto. apply Hi in E; [subst; contradiction|right; auto|left; auto].
  - apply IH; intros; [apply Hg; right; auto|apply Hi; auto; right; auto].
Qed.

Lemma darts_nodup_cls (c : pcorner) : fst c < np -> NoDup (bdarts c).
Proof. intros H. apply NoDup_filter, darts_nodup, (cls_nodup t Hcons), rvalidc, H. Qed.

Lemma akid_nodup y P : akid y P -> In y D -> NoDup (map fst P).
Proof.
  intros K Hy. destruct K as [y Ho|f i a1 b1 a2 b2 y Hf N1 N2 N3 N4 Hy'|c a e Hc Ha He Hav].
  - repeat constructor. intros [].
  - apply nth_error_In in N2, N4. destruct (arem1_1 f b1 Hf N2) as [A1 [A2 _]], (arem2_1 f b2 Hf N4) as [A3 [A4 _]].
    repeat constructor; [|intros []]. intros [E|[]]. symmetry in E. apply aridx_neq in E; auto.
    injection E as Ep Eb. destruct (rem_spec DI RM f 1 Hf ltac:(lia)) as [R1 R2].
    pose proof (Permutation_in _ R1 N2) as G1. pose proof (Permutation_in _ R2 N4) as G2. apply in_without in G1, G2.
    destruct G1 as [G1 G1'], G2 as [G2 G2']. destruct (iface_np DI RI f Hf) as [Q1 Q2]. rewrite <- Ep, <- Eb in G2, G2'.
    pose proof (proj2 Hcons f Hf) as Hg. destruct Hg as [Hg|[Hg1 Hg2]]; [congruence|].
    destruct (roff_row _ (rbas_like I RI _ Q1) (snd (if1 f)) 1 (snd (if2 f)) 1 b1) as [E1 _]; auto.
  - destruct (avg_cases c a e Hc Ha He Hav) as [(_ & _ & Hi & E)|[(_ & _ & Hh & E)|(d & k & c' & d' & Hk & Hn & _ & E)]]; rewrite E.
    + rewrite map_map. cbn [fst]. apply (nodup_rows (fun c' => B c' 1 1)).
      * intros c' Hc'. pose proof (rcls_valid I RI c c' Hc Hc'). split; [apply (B_in I RI); auto|apply own11; auto].
      * intros x y Hx Hy' Exy. apply (B_inj I RI) in Exy; auto; [tauto|]. apply (rcls_valid I RI c x Hc Hx).
      * apply (cls_nodup t Hcons), rvalidc, Hc.
    + rewrite map_map. cbn [fst]. apply (nodup_rows (fun x => dpt (fst x) (snd x) 1 0)).
      * intros [c' d'] Hx. apply in_bdarts in Hx. destruct Hx as (Hc' & Hd' & Hn). pose proof (rcls_valid I RI c c' Hc Hc').
        split; [apply (dpt_in DI RI); auto|apply boundary_own; auto].
      * intros [c1 d1] [c2 d2] H1 H2 Exy. apply in_bdarts in H1, H2. destruct H1 as (Hc1 & Hd1 & _), H2 as (Hc2 & Hd2 & _). cbn [fst snd] in Exy.
        pose proof (rcls_valid I RI c c1 Hc Hc1). apply (dpt_inj0 DI RI) in Exy; auto. destruct Exy as (-> & _ & Ed). rewrite Ed; auto.
      * apply darts_nodup_cls, Hc.
    + destruct (dnext_np DI RI _ _ _ _ Hn) as [_ Hc']. pose proof (adart_lt _ _ _ Hk). pose proof (adart_cls _ _ _ _ _ Hc Hn Hk) as Hk'.
      assert (ifl c d = true) as F by (apply (ifl_dnext DI); eauto). pose proof (proj1 Hk) as Hd. pose proof (proj1 Hk') as Hd'.
      assert (ifl c' d' = true) as F'. { apply (ifl_dnext DI). exists c, d. apply (dnext_sym t Hcons); auto. }
      cbn [map fst]. repeat constructor; [|intros []]. intros [Ee|[]]. symmetry in Ee.
      apply aridx_neq in Ee; try (apply (dpt_in DI RI); auto); try (apply dart_own; auto).
      assert (c = c') as ->; [|apply (dnext_neq t Hcons) in Hn; auto].
      destruct d as [|[|]]; [| |lia]; (destruct d' as [|[|]]; [| |lia]); simpl in Ee; apply (B_inj I RI) in Ee; auto; tauto.
Qed.

Lemma bdarts_two (c : pcorner) : fst c < np -> inner c = false -> length (bdarts c) = 2.
Proof.
  intros Hc Hi. pose proof (proj2 (rvalidc c) Hc) as Hv. pose proof (boundary_idarts t Hcons c Hv Hi) as E.
  pose proof (darts_length (cls c)) as L. pose proof (RingProofs3.valence_pos I RI c Hc). unfold TopoProofs.valence in *.
  assert (forall l, length (filter (fun x => match dnext t x with None => true | Some _ => false end) l) + length (filter (is_iface_dart t) l) = length l) as K.
  { induction l as [|x l IH]; simpl; auto. unfold is_iface_dart at 1. destruct (dnext t x); simpl; lia. }
  specialize (K (darts (cls c))). unfold idarts in E. unfold bdarts. lia.
Qed.
Lemma half_not_inner c : half0 c = true -> inner c = false.
Proof. unfold AcProofs.half0. destruct (inner c); [discriminate|reflexivity]. Qed.

Lemma akid_sum y P : akid y P -> (sumQ (map snd P) == 1)%Q.
Proof.
  intros K. destruct K as [y Ho|f i a1 b1 a2 b2 y Hf N1 N2 N3 N4 Hy'|c a e Hc Ha He Hav]; try reflexivity.
  destruct (avg_cases c a e Hc Ha He Hav) as [(_ & _ & Hi & E)|[(_ & _ & Hh & E)|(d & k & c' & d' & Hk & Hn & _ & E)]]; rewrite E; try reflexivity.
  - rewrite map_map. cbn [snd]. rewrite sumQ_const. change (length (cls c)) with (valence c). pose proof (RingProofs3.valence_pos I RI c Hc).
    assert (Z.of_nat (valence c) = Zpos (Pos.of_nat (valence c))) as -> by lia. unfold Qeq. simpl. lia.
  - rewrite map_map. cbn [snd]. rewrite sumQ_const, bdarts_two by (auto using half_not_inner). reflexivity.
Qed.
Lemma akid_weight y P r w : akid y P -> In (r, w) P -> (0 <= w <= 1)%Q.
Proof.
  intros K Hin. assert (forall p, (0 <= 1 # p <= 1)%Q) as F by (intros p; unfold Qle; simpl; lia).
  assert (0 <= 1 <= 1)%Q as F1 by (split; discriminate).
  destruct K as [y Ho|f i a1 b1 a2 b2 y Hf N1 N2 N3 N4 Hy'|c a e Hc Ha He Hav].
  - destruct Hin as [[= <- <-]|[]]. auto.
  - destruct Hin as [[= <- <-]|[[= <- <-]|[]]]; apply F.
  - destruct (avg_cases c a e Hc Ha He Hav) as [(_ & _ & Hi & E)|[(_ & _ & Hh & E)|(d & k & c' & d' & Hk & Hn & _ & E)]]; rewrite E in Hin.
    + apply in_map_iff in Hin. destruct Hin as (c' & [= <- <-] & Hc'). apply F.
    + apply in_map_iff in Hin. destruct Hin as (c' & [= <- <-] & Hc'). apply F.
    + destruct Hin as [[= <- <-]|[[= <- <-]|[]]]; apply F.
Qed.
End P.
