(** The rows of every column of the matrix of gsDPatch. *)
From Verif Require Import Common TopoModel BaseModel BaseModel2 IndexSpec TopoSpec SmoothSpec SmoothSpec2 RingModel RingSpec DpModel DpSpec
  IndexProofs IndexTopoProofs ListLemmas TopoProofs PointProofs MapperProofs CountProofs MatrixProofs RingProofs RingProofs2 RingProofs3 DpProofs.
From Coq Require Import ZifyBool.

Lemma in_without l sel x : In x (without l sel) <-> In x l /\ ~ In x sel.
Proof.
  unfold without. rewrite filter_In, negb_true_iff, existsb_false. apply and_iff_compat_l. split.
  - intros H G. specialize (H x G). rewrite Nat.eqb_refl in H. discriminate.
  - intros H y Hy. apply Nat.eqb_neq. intros ->. contradiction.
Qed.
Lemma filter_perm {A} (f : A -> bool) l l' : Permutation l l' -> Permutation (filter f l) (filter f l').
Proof.
  induction 1; simpl; auto.
  - destruct (f x); auto.
  - destruct (f x), (f y); auto. constructor.
  - etransitivity; eauto.
Qed.

(** rows next to a side *)
Section RB2.
Variable b : rbasis.
Hypothesis Hb : ring_like b.

Lemma rifv_row2 c s k o : on_side c s = true -> k < 2 -> o < 2 -> In (rifv b k c s o) (roff b s o).
Proof.
  intros Hs Hk Ho. apply on_side_iff_cside in Hs. destruct Hs as [->| ->].
  - rewrite rifv_blk0. apply (proj1 (rblk_meet b Hb c o k _ Ho Hk) eq_refl).
  - rewrite rifv_blk1 by auto. apply (proj1 (rblk_meet b Hb c k o _ Hk Ho) eq_refl).
Qed.
Lemma in_dnear s o x : In x (dnear b s o) <-> exists c k, on_side c s = true /\ k < 2 /\ x = rifv b k c s o.
Proof.
  unfold dnear. rewrite in_flat_map. split.
  - intros (c & Hc & Hx). apply contained_corners_on in Hc. destruct Hx as [<-|[<-|[]]]; exists c; [exists 0|exists 1]; auto.
  - intros (c & k & Hc & Hk & ->). exists c. split; [apply contained_corners_on; exact Hc|].
    destruct k as [|[|]]; simpl; auto; lia.
Qed.
Lemma dnear_incl s o : o < 2 -> incl (dnear b s o) (roff b s o).
Proof. intros Ho x Hx. apply in_dnear in Hx. destruct Hx as (c & k & Hc & Hk & ->). apply rifv_row2; auto. Qed.
Lemma rifv_inj2 s o c c' k k' : o < 2 -> on_side c s = true -> on_side c' s = true -> k < 2 -> k' < 2 ->
  rifv b k c s o = rifv b k' c' s o -> c = c' /\ k = k'.
Proof.
  intros Ho Hc Hc' Hk Hk' E. pose proof Hc as C1. pose proof Hc' as C1'. apply on_side_iff_cside in Hc, Hc'.
  destruct Hc as [E1|E1], Hc' as [E2|E2].
  - rewrite E1 in E at 1. rewrite E2 in E. rewrite !rifv_blk0 in E. apply rblk_inj in E; auto. tauto.
  - exfalso. destruct s, c, c'; discriminate.
  - exfalso. destruct s, c, c'; discriminate.
  - rewrite E1 in E at 1. rewrite E2 in E. rewrite !rifv_blk1 in E by auto. apply rblk_inj in E; auto. tauto.
Qed.
Lemma dnear_nodup s o : o < 2 -> NoDup (dnear b s o).
Proof.
  intros Ho. unfold dnear. rewrite contained_corners_at. cbn [flat_map app].
  assert (corner_at s false <> corner_at s true) as N by (destruct s; discriminate).
  repeat constructor; simpl; intuition;
    match goal with E : rifv _ _ _ _ _ = rifv _ _ _ _ _ |- _ => apply rifv_inj2 in E; auto using on_side_corner_at; destruct E; congruence end.
Qed.
Lemma without_length s o : o < 2 -> length (without (roff b s o) (dnear b s o)) + 4 = length (roff b s o).
Proof.
  intros Ho. assert (length (dnear b s o) = 4) as E by (unfold dnear; rewrite contained_corners_at; reflexivity).
  rewrite <- E, <- app_length. apply Permutation_length, NoDup_Permutation.
  - apply NoDup_app_iff. split; [apply NoDup_filter, (rl_nodup b Hb); auto|]. split; [apply dnear_nodup; auto|].
    intros x Hx Hy. apply in_without in Hx. tauto.
  - apply (rl_nodup b Hb); auto.
  - intros x. rewrite in_app_iff, in_without. split.
    + intros [[H _]|H]; auto. apply dnear_incl in H; auto.
    + intros H. destruct (in_dec Nat.eq_dec x (dnear b s o)); auto.
Qed.
(** the second row, away from the corners, meets nothing *)
Lemma row1_blk s x c a e : In x (without (roff b s 1) (dnear b s 1)) -> a < 2 -> e < 2 -> x <> rblk b c a e.
Proof.
  intros H Ha He E. apply in_without in H. destruct H as [H1 H2].
  destruct (proj1 (rblk_meet b Hb c a e x Ha He) E) as [G1 G2].
  assert (side_dir s = 0 \/ side_dir s = 1) as [Hd|Hd] by (pose proof (side_dir_lt s); lia).
  - destruct (roff_row b Hb s 1 (cside c 0) a x) as [Es Ea]; auto; [rewrite side_dir_cside by lia; auto|].
    apply H2, in_dnear. exists c, e. rewrite Es. split; [apply on_side_cside|]. split; auto. rewrite rifv_blk0. congruence.
  - destruct (roff_row b Hb s 1 (cside c 1) e x) as [Es Ee]; auto; [rewrite side_dir_cside by lia; auto|].
    apply H2, in_dnear. exists c, a. rewrite Es. split; [apply on_side_cside|]. split; auto. rewrite rifv_blk1 by auto. congruence.
Qed.
Lemma row1_strip s x s' : In x (without (roff b s 1) (dnear b s 1)) -> ~ In x (rstrip b s').
Proof.
  intros H G. apply in_without in H. destruct H as [H1 H2]. apply in_rstrip in G. destruct G as [G1 _].
  destruct (Nat.eq_dec (side_dir s) (side_dir s')) as [Hd|Hd].
  - destruct (roff_row b Hb s 1 s' 0 x) as [_ E]; auto. discriminate.
  - assert (exists c, on_side c s = true /\ on_side c s' = true /\ s <> s') as (c & C1 & C2 & C3).
    { destruct s, s'; simpl in Hd; try lia; [exists SW|exists NW|exists SE|exists NE|exists SW|exists SE|exists NW|exists NE];
        repeat split; auto; discriminate. }
    apply H2, in_dnear. exists c, 0. split; auto. split; [lia|].
    assert (forall q, on_side c q = true -> touches c q) as T.
    { intros q Hq. apply on_side_iff_cside in Hq. destruct Hq as [->| ->]; apply cside_touches. }
    apply (rl_meet b Hb c s s' 0 1 x); auto.
Qed.
End RB2.

Lemma two01 n : n < 2 -> n = 0 \/ n = 1. Proof. lia. Qed.

Section P.
Variable DI : dinput.
Notation I := (dring DI).
Hypothesis RI : ring_input I.
Hypothesis RM : rows_match DI.
Variable m : cmap.
Hypothesis V : vals I m.
Hypothesis Hsup : forall c, fst c < length (ribases I) -> dsup I c = true.
Notation t := (ritopo I).
Notation np := (length (ribases I)).
Let Hcons : consistent t := ri_topo I RI.
Let Hnp : tnp t = np := ri_np I RI.
Notation cls := (cls t).
Notation valence := (valence t).
Notation inner := (inner t).
Notation ifl := (ifl t).
Notation rc0 := (rc0 I).
Notation sizes := (sizes I).
Notation D := (dofs_from 0 sizes).
Notation B := (B I).
Notation rbas := (rbas I).
Notation strip := (strip I).
Notation tri := (tri I).
Notation elb := (elb I).
Notation ridx := (ridx m).
Notation cidx := (cidx sizes).
Let rvalidc := rvalidc I RI.
Let ES : cmsizes m = sizes := va_sizes I m V.

Definition dpt (c : pcorner) (d k o : nat) : dof := match d with 0 => B c o k | _ => B c k o end.

(** central functions of the rows [o] next to an interface *)
Definition rem1 (f : iface) (o : nat) : list nat :=
  match dmatch DI f o with Ok (l1, _) => without l1 (dnear (rbas (fst (if1 f))) (snd (if1 f)) o) | Err => [] end.
Definition rem2 (f : iface) (o : nat) : list nat :=
  match dmatch DI f o with Ok (_, l2) => without l2 (dnear (rbas (fst (if2 f))) (snd (if2 f)) o) | Err => [] end.

Lemma iface_np f : In f (tif t) -> fst (if1 f) < np /\ fst (if2 f) < np.
Proof.
  intros H. rewrite <- Hnp. split; apply (sides_valid t Hcons); left; apply (in_iface_sides t); exists f; auto.
Qed.

Lemma rem_spec f o : In f (tif t) -> o < 2 ->
  Permutation (rem1 f o) (without (roff (rbas (fst (if1 f))) (snd (if1 f)) o) (dnear (rbas (fst (if1 f))) (snd (if1 f)) o)) /\
  Permutation (rem2 f o) (without (roff (rbas (fst (if2 f))) (snd (if2 f)) o) (dnear (rbas (fst (if2 f))) (snd (if2 f)) o)).
Proof.
  intros Hf Ho. destruct (RM f o Hf Ho) as (l1 & l2 & E & _ & P1 & P2). unfold rem1, rem2. rewrite E.
  split; apply filter_perm; assumption.
Qed.
Lemma rem_length f : In f (tif t) -> length (rem1 f 0) = length (rem2 f 0) /\ length (rem1 f 1) = length (rem1 f 0) /\ length (rem2 f 1) = length (rem2 f 0).
Proof.
  intros Hf. destruct (iface_np f Hf) as [Q1 Q2]. pose proof (rbas_like I RI _ Q1) as L1. pose proof (rbas_like I RI _ Q2) as L2.
  destruct (rem_spec f 0 Hf ltac:(lia)) as [A1 A2]. destruct (rem_spec f 1 Hf ltac:(lia)) as [A3 A4].
  apply Permutation_length in A1, A2, A3, A4.
  pose proof (without_length _ L1 (snd (if1 f)) 0 ltac:(lia)). pose proof (without_length _ L1 (snd (if1 f)) 1 ltac:(lia)).
  pose proof (without_length _ L2 (snd (if2 f)) 0 ltac:(lia)). pose proof (without_length _ L2 (snd (if2 f)) 1 ltac:(lia)).
  pose proof (rl_rows _ L1 (snd (if1 f))). pose proof (rl_rows _ L2 (snd (if2 f))).
  destruct (RM f 0 Hf ltac:(lia)) as (l1 & l2 & E & EL & P1 & P2). apply Permutation_length in P1, P2.
  change (basis_at DI) with rbas in P1, P2. lia.
Qed.
Lemma rem1_0 f x : In f (tif t) -> In x (rem1 f 0) <-> In x (rstrip (rbas (fst (if1 f))) (snd (if1 f))).
Proof. intros Hf. destruct (rem_spec f 0 Hf ltac:(lia)) as [A _]. split; apply Permutation_in; [|symmetry]; exact A. Qed.
Lemma rem2_0 f x : In f (tif t) -> In x (rem2 f 0) <-> In x (rstrip (rbas (fst (if2 f))) (snd (if2 f))).
Proof. intros Hf. destruct (rem_spec f 0 Hf ltac:(lia)) as [_ A]. split; apply Permutation_in; [|symmetry]; exact A. Qed.
Lemma rem1_nodup f o : In f (tif t) -> o < 2 -> NoDup (rem1 f o).
Proof.
  intros Hf Ho. destruct (rem_spec f o Hf Ho) as [A _]. eapply Permutation_NoDup; [symmetry; exact A|].
  apply NoDup_filter, (rl_nodup _ (rbas_like I RI _ (proj1 (iface_np f Hf)))); auto.
Qed.
Lemma rem2_nodup f o : In f (tif t) -> o < 2 -> NoDup (rem2 f o).
Proof.
  intros Hf Ho. destruct (rem_spec f o Hf Ho) as [_ A]. eapply Permutation_NoDup; [symmetry; exact A|].
  apply NoDup_filter, (rl_nodup _ (rbas_like I RI _ (proj2 (iface_np f Hf)))); auto.
Qed.

(** ** values of the functions in the second row *)
Lemma row1_value ps k : fst ps < np ->
  In k (without (roff (rbas (fst ps)) (snd ps) 1) (dnear (rbas (fst ps)) (snd ps) 1)) ->
  In (fst ps, k) D /\ cmval m (fst ps, k) = 0%Z.
Proof.
  intros Hp Hk. pose proof (rbas_like I RI _ Hp) as L. split.
  - apply (in_D I RI). simpl. split; auto. apply in_without in Hk. apply (rl_range _ L (snd ps) 1 k); [lia|tauto].
  - apply (va_other I m V).
    + intros (c & a & e & Hc & Ha & He & E). unfold RingProofs2.B in E. injection E as E1 E2. rewrite <- E1 in E2.
      apply (row1_blk _ L _ _ (snd c) a e Hk Ha He). exact E2.
    + intros ps' _ G. apply in_map_iff in G. destruct G as (k' & E & G). injection E as E1 ->. rewrite E1 in G.
      apply (row1_strip _ L (snd ps) k (snd ps') Hk G).
Qed.
Lemma rem1_1 f k : In f (tif t) -> In k (rem1 f 1) -> In (fst (if1 f), k) D /\ cmval m (fst (if1 f), k) = 0%Z.
Proof.
  intros Hf Hk. apply row1_value; [apply (iface_np f Hf)|]. destruct (rem_spec f 1 Hf ltac:(lia)) as [A _].
  eapply Permutation_in; eauto.
Qed.
Lemma rem2_1 f k : In f (tif t) -> In k (rem2 f 1) -> In (fst (if2 f), k) D /\ cmval m (fst (if2 f), k) = 0%Z.
Proof.
  intros Hf Hk. apply row1_value; [apply (iface_np f Hf)|]. destruct (rem_spec f 1 Hf ltac:(lia)) as [_ A].
  eapply Permutation_in; eauto.
Qed.

(** ** the rows and weights of a column *)
Definition darted (c : pcorner) (k : nat) : Prop := k = 1 \/ (k = 0 /\ inner c = false /\ valence c = 2 /\ rc0 c = false).

Inductive kid : dof -> list (nat * Q) -> Prop :=
| k_own y : cmval m y = 0%Z -> kid y [(ridx y, 1%Q)]
| k_strip f i a1 b1 a2 b2 y : In f (tif t) -> nth_error (rem1 f 0) i = Some a1 -> nth_error (rem1 f 1) i = Some b1 ->
    nth_error (rem2 f 0) i = Some a2 -> nth_error (rem2 f 1) i = Some b2 ->
    y = (fst (if1 f), a1) \/ y = (fst (if2 f), a2) ->
    kid y [(ridx (fst (if1 f), b1), half); (ridx (fst (if2 f), b2), half)]
| k_inner c : fst c < np -> inner c = true -> kid (B c 0 0) (map (fun c' => (ridx (B c' 1 1), (1 # Pos.of_nat (valence c))%Q)) (cls c))
| k_dart c d k c' d' : fst c < np -> d < 2 -> dnext t (c, d) = Some (c', d') -> darted c k ->
    kid (dpt c d k 0) [(ridx (dpt c d k 1), half); (ridx (dpt c' d' k 1), half)]
| k_tri0 c : fst c < np -> tri c = true -> kid (B c 0 0) ((ridx (B c 0 0), quarter) :: map (fun c' => (ridx (B c' 1 1), quarter)) (cls c))
| k_trib c d : fst c < np -> d < 2 -> tri c = true -> dnext t (c, d) = None ->
    kid (dpt c d 1 0) [(ridx (B c 1 1), half); (ridx (B c 0 0), half)].

Lemma dpt_in c d k o : fst c < np -> k < 2 -> o < 2 -> In (dpt c d k o) D.
Proof. intros H Hk Ho. unfold dpt. destruct d; apply (B_in I RI); auto. Qed.

Lemma ifl_dnext c d : ifl c d = true <-> exists c' d', dnext t (c, d) = Some (c', d').
Proof. unfold TopoProofs.ifl. rewrite dnext_iface. split; [intros ([c' d'] & H); eauto|intros (c' & d' & H); eauto]. Qed.
Lemma dnext_none c d : dnext t (c, d) = None -> ifl c d = false.
Proof. intros H. destruct (ifl c d) eqn:E; auto. apply ifl_dnext in E. destruct E as (? & ? & E). congruence. Qed.
Lemma dnext_np c d c' d' : dnext t (c, d) = Some (c', d') -> fst c < np /\ fst c' < np.
Proof. intros H. apply (dnext_valid t Hcons) in H. destruct H. split; apply rvalidc; auto. Qed.
Lemma dnext_in_cls c d c' d' : d < 2 -> dnext t (c, d) = Some (c', d') -> In c' (cls c).
Proof.
  intros Hd H. apply (cn_cls t Hcons); [|apply in_cn; eauto]. apply (dnext_valid t Hcons) in H. tauto.
Qed.

Lemma value11 c : fst c < np -> cmval m (B c 1 1) = 0%Z.
Proof.
  intros H. pose proof (va_near I m V c H 1 1 ltac:(lia) ltac:(lia)) as G. cbn [Nat.eqb andb] in G. rewrite !andb_false_r in G. cbn [andb] in G.
  assert (elb c 1 1 = false) as E.
  { unfold DpProofs.elb. destruct (inner c); [reflexivity|]. destruct (valence c =? 1); [reflexivity|].
    destruct (valence c =? 2); [|reflexivity]. cbn [Nat.eqb]. rewrite !andb_false_r. reflexivity. }
  rewrite E in G. exact G.
Qed.
Lemma value_tri c : fst c < np -> tri c = true -> (0 < cmval m (B c 0 0))%Z.
Proof. intros H T. pose proof (va_near I m V c H 0 0 ltac:(lia) ltac:(lia)) as G. rewrite T in G. exact G. Qed.

Lemma valence_pos c : fst c < np -> 1 <= valence c. Proof. apply (RingProofs3.valence_pos I RI). Qed.

(** eliminated functions at a dart *)
Lemma value_dart0 c d k : fst c < np -> d < 2 -> ifl c d = true -> darted c k -> (cmval m (dpt c d k 0) < 0)%Z.
Proof.
  intros H Hd Hf Hk.
  assert (k < 2) as K2 by (destruct Hk as [->|(-> & _)]; lia).
  assert (tri c && (k =? 0) = false) as T.
  { destruct Hk as [->|(-> & Hi & Hv & _)]; [apply andb_false_r|]. unfold DpProofs.tri. rewrite Hv. rewrite andb_false_r. reflexivity. }
  assert ((d = 0 /\ elb c 0 k = true) \/ (d = 1 /\ elb c k 0 = true)) as E.
  { pose proof (valence_pos c H) as VP. pose proof (fun H1 H2 => val1_boundary t Hcons c d (proj2 (rvalidc c) H) Hd H1 H2) as V1.
    unfold DpProofs.elb. destruct d as [|[|]]; [left|right|lia]; (split; [reflexivity|]).
    - destruct (inner c) eqn:Hi; [reflexivity|]. destruct (valence c =? 1) eqn:E1; [rewrite V1 in Hf by (auto; lia); discriminate|].
      destruct (valence c =? 2) eqn:E2.
      + rewrite Hf. destruct Hk as [->|(-> & _ & _ & Hc)]; [reflexivity|rewrite Hc; reflexivity].
      + destruct Hk as [->|(-> & _ & Hv & _)]; [reflexivity|lia].
    - destruct (inner c) eqn:Hi; [rewrite orb_true_r; reflexivity|]. destruct (valence c =? 1) eqn:E1; [rewrite V1 in Hf by (auto; lia); discriminate|].
      destruct (valence c =? 2) eqn:E2.
      + rewrite Hf. destruct Hk as [->|(-> & _ & _ & Hc)]; [rewrite orb_true_r; reflexivity|rewrite Hc; rewrite orb_true_r; reflexivity].
      + destruct Hk as [->|(-> & _ & Hv & _)]; [reflexivity|lia]. }
  destruct E as [[-> E]|[-> E]]; simpl dpt.
  - pose proof (va_near I m V c H 0 k ltac:(lia) K2) as G. rewrite E in G.
    cbn [Nat.eqb] in G. rewrite andb_true_r, T in G. exact G.
  - pose proof (va_near I m V c H k 0 K2 ltac:(lia)) as G. rewrite E, T in G. exact G.
Qed.
Lemma value_dart1 c d k : fst c < np -> d < 2 -> ifl c d = true -> darted c k -> cmval m (dpt c d k 1) = 0%Z.
Proof.
  intros H Hd Hf [->|(-> & Hi & Hv & Hc)].
  - unfold dpt. destruct d; apply value11; auto.
  - pose proof (val2_boundary t Hcons c (proj2 (rvalidc c) H) Hi Hv) as Eb.
    assert (tri c = false) as T by (unfold DpProofs.tri; rewrite Hv; apply andb_false_r).
    destruct d as [|[|]]; [| |lia]; simpl dpt.
    + pose proof (va_near I m V c H 1 0 ltac:(lia) ltac:(lia)) as G. rewrite T in G. cbn [andb] in G.
      unfold DpProofs.elb in G. rewrite Hi, Hv in G. cbn [Nat.eqb] in G. rewrite Hf in Eb. destruct (ifl c 1); [discriminate|].
      rewrite !andb_false_r in G. exact G.
    + pose proof (va_near I m V c H 0 1 ltac:(lia) ltac:(lia)) as G. rewrite T in G. cbn [andb] in G.
      unfold DpProofs.elb in G. rewrite Hi, Hv in G. cbn [Nat.eqb] in G. rewrite Hf in Eb. rewrite Eb in G.
      rewrite !andb_false_r in G. exact G.
Qed.
Lemma value_inner c : fst c < np -> inner c = true -> (cmval m (B c 0 0) < 0)%Z.
Proof.
  intros H Hi. pose proof (va_near I m V c H 0 0 ltac:(lia) ltac:(lia)) as G. unfold DpProofs.tri, DpProofs.elb in G. rewrite Hi in G. exact G.
Qed.
Lemma value_trib c d : fst c < np -> d < 2 -> tri c = true -> (cmval m (dpt c d 1 0) < 0)%Z.
Proof.
  intros H Hd T. pose proof T as T'. unfold DpProofs.tri in T'. apply andb_prop in T'. destruct T' as [Hi Hv]. apply negb_true_iff in Hi.
  destruct d; simpl dpt.
  - pose proof (va_near I m V c H 0 1 ltac:(lia) ltac:(lia)) as G. cbn [Nat.eqb] in G. rewrite andb_false_r in G.
    unfold DpProofs.elb in G. rewrite Hi in G. destruct (valence c =? 1) eqn:?; [lia|]. destruct (valence c =? 2) eqn:?; [lia|]. exact G.
  - pose proof (va_near I m V c H 1 0 ltac:(lia) ltac:(lia)) as G. cbn [Nat.eqb] in G. rewrite andb_false_r in G. cbn [andb] in G.
    unfold DpProofs.elb in G. rewrite Hi in G. destruct (valence c =? 1) eqn:?; [lia|]. destruct (valence c =? 2) eqn:?; [lia|]. exact G.
Qed.
Lemma strip_value f i a1 a2 y : In f (tif t) -> nth_error (rem1 f 0) i = Some a1 -> nth_error (rem2 f 0) i = Some a2 ->
  y = (fst (if1 f), a1) \/ y = (fst (if2 f), a2) -> exists ps, In ps (iface_sides t) /\ In y (strip ps) /\ (ps = if1 f \/ ps = if2 f).
Proof.
  intros Hf N1 N2 [->| ->]; [exists (if1 f)|exists (if2 f)]; (split; [apply (in_iface_sides t); eauto|split; [|auto]]); apply in_map_iff.
  - exists a1. split; auto. apply rem1_0; auto. eapply nth_error_In; eauto.
  - exists a2. split; auto. apply rem2_0; auto. eapply nth_error_In; eauto.
Qed.

Lemma darted_cls c c' k : fst c < np -> In c' (cls c) -> darted c k -> darted c' k.
Proof.
  intros H Hc [->|(-> & Hi & Hv & Hz)]; [left; auto|right]. pose proof (proj2 (rvalidc c) H) as Hvc.
  rewrite (inner_cls t Hcons c c'), (valence_cls t Hcons c c'), (rc0_cls I RI c c') by auto. auto.
Qed.

(** ** every column has its rows *)
Lemma kid_total y : In y D -> exists P, kid y P.
Proof.
  intros Hy. destruct (Z.eq_dec (cmval m y) 0) as [Ez|Ez]; [eexists; apply k_own; auto|].
  destruct (existsb (fun ps => existsb (dof_eqb y) (strip ps)) (iface_sides t)) eqn:Es.
  - apply existsb_exists in Es. destruct Es as (ps & Hps & Hy'). apply existsb_exists in Hy'. destruct Hy' as (y' & Hy' & E).
    apply dof_eqb_iff in E. subst y'. apply (in_iface_sides t) in Hps. destruct Hps as (f & Hf & Hps).
    destruct (rem_length f Hf) as (L1 & L2 & L3). apply in_map_iff in Hy'. destruct Hy' as (a & <- & Ha).
    assert (exists i, i < length (rem1 f 0) /\ (nth_error (rem1 f 0) i = Some a /\ ps = if1 f \/ nth_error (rem2 f 0) i = Some a /\ ps = if2 f)) as (i & Hi & Ni).
    { destruct Hps as [<-|<-].
      - apply rem1_0 in Ha; auto. apply In_nth_error in Ha. destruct Ha as (i & Ni). exists i. split; [apply nth_error_Some; congruence|auto].
      - apply rem2_0 in Ha; auto. apply In_nth_error in Ha. destruct Ha as (i & Ni). exists i. split; [|auto].
        rewrite L1. apply nth_error_Some. congruence. }
    destruct (nth_error (rem1 f 0) i) as [a1|] eqn:N1; [|apply nth_error_None in N1; lia].
    destruct (nth_error (rem2 f 0) i) as [a2|] eqn:N2; [|apply nth_error_None in N2; lia].
    destruct (nth_error (rem1 f 1) i) as [b1|] eqn:N3; [|apply nth_error_None in N3; lia].
    destruct (nth_error (rem2 f 1) i) as [b2|] eqn:N4; [|apply nth_error_None in N4; lia].
    eexists. eapply (k_strip f i a1 b1 a2 b2); eauto. destruct Ni as [[[= ->] ->]|[[= ->] ->]]; auto.
  - assert (forall ps, In ps (iface_sides t) -> ~ In y (strip ps)) as Hs.
    { intros ps Hps G. rewrite existsb_false in Es. specialize (Es ps Hps). rewrite existsb_false in Es. specialize (Es y G).
      rewrite dof_eqb_same in Es. discriminate. }
    assert (exists c a e, fst c < np /\ a < 2 /\ e < 2 /\ y = B c a e) as (c & a & e & Hc & Ha & He & ->).
    { destruct (in_dec dof_dec y (flat_map (fun c => [B c 0 0; B c 0 1; B c 1 0; B c 1 1]) (all_corners np))) as [G|G].
      - apply in_flat_map in G. destruct G as (c & Hc & G). apply in_all_corners in Hc.
        simpl in G. repeat (destruct G as [<-|G]; [eexists c, _, _; repeat split; eauto|]). contradiction.
      - exfalso. apply Ez, (va_other I m V); auto. intros (c & a & e & Hc & Ha & He & ->). apply G, in_flat_map. exists c. split; auto.
        destruct (two01 a Ha) as [-> | ->]; destruct (two01 e He) as [-> | ->]; simpl; auto. }
    pose proof (va_near I m V c Hc a e Ha He) as G. pose proof (Hsup c Hc) as Su. unfold dsup in Su. pose proof (valence_pos c Hc) as VP.
    assert (forall d, d < 2 -> ifl c d = true -> forall k, darted c k -> B c a e = dpt c d k 0 -> exists P, kid (B c a e) P) as KD.
    { intros d Hd Hf k Hk ->. apply ifl_dnext in Hf. destruct Hf as (c' & d' & En). eexists. eapply k_dart; eauto. }
    destruct (tri c && (a =? 0) && (e =? 0)) eqn:T.
    + apply andb_prop in T. destruct T as [T Te]. apply andb_prop in T. destruct T as [T Ta].
      assert (a = 0) as -> by lia. assert (e = 0) as -> by lia. eexists. apply k_tri0; auto.
    + destruct (elb c a e) eqn:Eb; [|contradiction]. unfold DpProofs.elb in Eb. destruct (inner c) eqn:Hi.
      * destruct (two01 a Ha) as [-> | ->]; destruct (two01 e He) as [-> | ->]; try discriminate.
        -- eexists. apply k_inner; auto.
        -- apply (KD 0 ltac:(lia)) with (k := 1); auto; [|left; auto]. apply (inner_iface t Hcons); auto. apply rvalidc; auto.
        -- apply (KD 1 ltac:(lia)) with (k := 1); auto; [|left; auto]. apply (inner_iface t Hcons); auto. apply rvalidc; auto.
      * destruct (valence c =? 1) eqn:E1; [discriminate|]. destruct (valence c =? 2) eqn:E2.
        -- apply orb_prop in Eb. destruct Eb as [Eb|Eb]; apply andb_prop in Eb; destruct Eb as [Eb1 Eb2]; apply andb_prop in Eb1; destruct Eb1 as [Eb1 Eb3].
           ++ assert (a = 0) as -> by lia. apply (KD 0 ltac:(lia) Eb1 e); auto. destruct (two01 e He) as [-> | ->]; [right|left; auto].
              split; auto. split; auto. split; [lia|]. destruct (rc0 c); auto; discriminate.
           ++ assert (e = 0) as -> by lia. apply (KD 1 ltac:(lia) Eb1 a); auto. destruct (two01 a Ha) as [-> | ->]; [right|left; auto].
              split; auto. split; auto. split; [lia|]. destruct (rc0 c); auto; discriminate.
        -- assert (tri c = true) as Ht by (unfold DpProofs.tri; rewrite Hi; simpl; lia).
           assert (exists d, d < 2 /\ B c a e = dpt c d 1 0) as (d & Hd & ->).
           { apply orb_prop in Eb. destruct Eb as [Eb|Eb]; [exists 0|exists 1]; (split; [lia|]); simpl; f_equal; lia. }
           destruct (dnext t (c, d)) as [[c' d']|] eqn:En; eexists; [eapply k_dart; eauto; left; auto|eapply k_trib; eauto].
Qed.

(** ** and only one list of rows *)
Lemma nearB c d k : fst c < np -> d < 2 -> k < 2 -> exists a e, a < 2 /\ e < 2 /\ dpt c d k 0 = B c a e.
Proof. intros H Hd Hk. destruct d as [|[|]]; [exists 0, k|exists k, 0|lia]; auto. Qed.

Lemma dpt_inj0 c d k c' d' k' : fst c < np -> d < 2 -> d' < 2 -> k < 2 -> k' < 2 -> dpt c d k 0 = dpt c' d' k' 0 ->
  c = c' /\ k = k' /\ (k = 1 -> d = d').
Proof.
  intros H Hd Hd' Hk Hk' E.
  destruct d as [|[|]]; [| |lia]; (destruct d' as [|[|]]; [| |lia]); simpl in E; apply (B_inj I RI) in E; auto; destruct E as (-> & E1 & E2); repeat split; lia.
Qed.

Lemma darted_lt c k : darted c k -> k < 2. Proof. intros [->|(-> & _)]; lia. Qed.

(** a number for every kind of column *)
Lemma kid_fun y P P' : kid y P -> kid y P' -> P = P'.
Proof.
  assert (forall y P, kid y P -> forall c a e, fst c < np -> a < 2 -> e < 2 -> y = B c a e ->
    forall f i a1 a2, In f (tif t) -> nth_error (rem1 f 0) i = Some a1 -> nth_error (rem2 f 0) i = Some a2 ->
    y = (fst (if1 f), a1) \/ y = (fst (if2 f), a2) -> False) as Sep.
  { clear y P P'. intros y P _ c a e Hc Ha He -> f i a1 a2 Hf N1 N2 Hy.
    destruct (strip_value f i a1 a2 _ Hf N1 N2 Hy) as (ps & _ & G & _). apply (strip_B I RI ps c a e); auto. }
  intros K K'.
  destruct K as [y Hz|f i a1 b1 a2 b2 y Hf N1 N2 N3 N4 Hy|c Hc Hi|c d k c' d' Hc Hd Hn Hk|c Hc T|c d Hc Hd T Hn].
  - (* own *)
    remember y as y0 eqn:Ey in K'. destruct K' as [z Hz'|f' i' a1' b1' a2' b2' z Hf' N1' N2' N3' N4' Hy'|c' Hc' Hi'|q d' k' q' d2' Hq Hd' Hn' Hk'|c' Hc' T'|c' d' Hc' Hd' T' Hn']; subst y.
    + reflexivity.
    + destruct (strip_value f' i' a1' a2' z Hf' N1' N3' Hy') as (ps & Hps & Hin & _). pose proof (va_strip I m V ps z Hps Hin). lia.
    + pose proof (value_inner c' Hc' Hi'). lia.
    + assert (ifl q d' = true) as F by (apply ifl_dnext; eauto). pose proof (value_dart0 q d' k' Hq Hd' F Hk'). lia.
    + pose proof (value_tri c' Hc' T'). lia.
    + pose proof (value_trib c' d' Hc' Hd' T'). lia.
  - (* strip *)
    assert (KK : kid y [(ridx (fst (if1 f), b1), half); (ridx (fst (if2 f), b2), half)]) by (eapply k_strip; eauto).
    destruct (strip_value f i a1 a2 y Hf N1 N3 Hy) as (ps & Hps & Hin & Hpf).
    remember y as y0 eqn:Ey in K'. destruct K' as [z Hz'|f' i' a1' b1' a2' b2' z Hf' N1' N2' N3' N4' Hy'|c' Hc' Hi'|q d' k' q' d2' Hq Hd' Hn' Hk'|c' Hc' T'|c' d' Hc' Hd' T' Hn']; subst y.
    + pose proof (va_strip I m V ps z Hps Hin). lia.
    + assert (forall ps', In z (strip ps') -> ps = ps') as U.
      { intros ps' G. assert (fst ps < np) as Hp by (rewrite <- Hnp; apply (sides_valid t Hcons); auto).
        destruct (Nat.eq_dec (fst ps) (fst ps')) as [E1|E1]; [destruct (side_eqb (snd ps) (snd ps')) eqn:E2|].
        - destruct ps as [p s], ps' as [p' s']. simpl in *. subst p'. destruct s, s'; simpl in E2; congruence.
        - exfalso. apply (strip_disjoint I RI ps ps' z); auto. intros E. rewrite E in E2. destruct (snd ps'); discriminate.
        - exfalso. apply (strip_disjoint I RI ps ps' z); auto. congruence. }
      assert (forall g i a1 a2, In g (tif t) -> nth_error (rem1 g 0) i = Some a1 -> nth_error (rem2 g 0) i = Some a2 ->
         z = (fst (if1 g), a1) \/ z = (fst (if2 g), a2) ->
         (ps = if1 g /\ z = (fst ps, a1)) \/ (ps = if2 g /\ z = (fst ps, a2))) as W.
      { intros g j x1 x2 Hg M1 M2 [Ez|Ez]; [left|right].
        - assert (In z (strip (if1 g))) as G. { rewrite Ez. apply in_map_iff. exists x1. split; auto. apply rem1_0; auto. eapply nth_error_In; eauto. }
          apply U in G. rewrite G. auto.
        - assert (In z (strip (if2 g))) as G. { rewrite Ez. apply in_map_iff. exists x2. split; auto. apply rem2_0; auto. eapply nth_error_In; eauto. }
          apply U in G. rewrite G. auto. }
      pose proof (W f i a1 a2 Hf N1 N3 Hy) as W1. pose proof (W f' i' a1' a2' Hf' N1' N3' Hy') as W2.
      assert (f = f') as <-.
      { apply (iface_unique t Hcons f f' ps); auto; [destruct W1 as [[-> _]|[-> _]]|destruct W2 as [[-> _]|[-> _]]]; auto. }
      pose proof (iface_ends_differ t Hcons f Hf) as Df.
      assert (i = i') as <-.
      { destruct W1 as [[E1 Z1]|[E1 Z1]], W2 as [[E2 Z2]|[E2 Z2]]; try congruence.
        - assert (a1 = a1') by congruence. subst a1'.
          eapply (proj1 (NoDup_nth_error _) (rem1_nodup f 0 Hf ltac:(lia))); [apply nth_error_Some; congruence|congruence].
        - assert (a2 = a2') by congruence. subst a2'.
          eapply (proj1 (NoDup_nth_error _) (rem2_nodup f 0 Hf ltac:(lia))); [apply nth_error_Some; congruence|congruence]. }
      congruence.
    + exfalso. eapply (Sep _ _ KK c' 0 0); eauto; lia.
    + exfalso. pose proof (darted_lt _ _ Hk'). destruct (nearB q d' k' Hq Hd' ltac:(lia)) as (a & e & Ha & He & E). eapply (Sep _ _ KK q a e); eauto.
    + exfalso. eapply (Sep _ _ KK c' 0 0); eauto; lia.
    + exfalso. destruct (nearB c' d' 1 Hc' Hd' ltac:(lia)) as (a & e & Ha & He & E). eapply (Sep _ _ KK c' a e); eauto.
  - (* inner *)
    remember (B c 0 0) as y0 eqn:Ey in K'. destruct K' as [z Hz'|f' i' a1' b1' a2' b2' z Hf' N1' N2' N3' N4' Hy'|c' Hc' Hi'|q d' k' q' d2' Hq Hd' Hn' Hk'|c' Hc' T'|c' d' Hc' Hd' T' Hn'].
    + subst z. pose proof (value_inner c Hc Hi). lia.
    + exfalso. refine (Sep z _ _ c 0 0 Hc _ _ Ey f' i' a1' a2' Hf' N1' N3' Hy'); [eapply (k_strip f' i'); eauto|lia|lia].
    + apply (B_inj I RI) in Ey; auto; try lia. destruct Ey as [-> _]. reflexivity.
    + exfalso. change (B c 0 0) with (dpt c 0 0 0) in Ey. pose proof (darted_lt _ _ Hk'). apply dpt_inj0 in Ey; auto; try lia.
      destruct Ey as (-> & -> & _). destruct Hk' as [?|(_ & Hi' & _)]; [lia|congruence].
    + exfalso. apply (B_inj I RI) in Ey; auto; try lia. destruct Ey as [-> _]. unfold DpProofs.tri in T'. rewrite Hi in T'. discriminate.
    + exfalso. change (B c 0 0) with (dpt c 0 0 0) in Ey. apply dpt_inj0 in Ey; auto; lia.
  - (* dart *)
    pose proof (darted_lt _ _ Hk) as Hk2.
    assert (ifl c d = true) as F by (apply ifl_dnext; eauto).
    remember (dpt c d k 0) as y0 eqn:Ey in K'. destruct K' as [z Hz'|f' i' a1' b1' a2' b2' z Hf' N1' N2' N3' N4' Hy'|c2 Hc' Hi'|q d2 k2 q' d3 Hq Hd' Hn' Hk'|c2 Hc' T'|c2 d2 Hc' Hd' T' Hn'].
    + subst z. pose proof (value_dart0 c d k Hc Hd F Hk). lia.
    + exfalso. destruct (nearB c d k Hc Hd Hk2) as (a & e & Ha & He & E). rewrite E in Ey. refine (Sep z _ _ c a e Hc Ha He Ey f' i' a1' a2' Hf' N1' N3' Hy'). eapply (k_strip f' i'); eauto.
    + exfalso. change (B c2 0 0) with (dpt c2 0 0 0) in Ey. apply dpt_inj0 in Ey; auto; try lia.
      destruct Ey as (-> & <- & _). destruct Hk as [?|(_ & Hi & _)]; [lia|congruence].
    + pose proof (darted_lt _ _ Hk'). apply dpt_inj0 in Ey; auto. destruct Ey as (-> & -> & Ed).
      assert (d2 = d) as ->.
      { destruct Hk as [->|(-> & Hi & Hv & Hz)]; [auto|]. pose proof (val2_boundary t Hcons c (proj2 (rvalidc c) Hc) Hi Hv) as Eb.
        assert (ifl c d2 = true) as F2 by (apply ifl_dnext; eauto).
        destruct d as [|[|]]; [| |lia]; (destruct d2 as [|[|]]; [| |lia]); auto; rewrite F, F2 in Eb; discriminate. }
      congruence.
    + exfalso. change (B c2 0 0) with (dpt c2 0 0 0) in Ey. apply dpt_inj0 in Ey; auto; try lia.
      destruct Ey as (-> & <- & _). destruct Hk as [?|(_ & Hi & Hv & _)]; [lia|]. unfold DpProofs.tri in T'. rewrite Hv in T'.
      rewrite andb_false_r in T'. discriminate.
    + exfalso. apply dpt_inj0 in Ey; auto. destruct Ey as (-> & <- & Ed). rewrite <- Ed in Hn by auto. congruence.
  - (* tri0 *)
    remember (B c 0 0) as y0 eqn:Ey in K'. destruct K' as [z Hz'|f' i' a1' b1' a2' b2' z Hf' N1' N2' N3' N4' Hy'|c' Hc' Hi'|q d' k' q' d2' Hq Hd' Hn' Hk'|c' Hc' T'|c' d' Hc' Hd' T' Hn'].
    + subst z. pose proof (value_tri c Hc T). lia.
    + exfalso. refine (Sep z _ _ c 0 0 Hc _ _ Ey f' i' a1' a2' Hf' N1' N3' Hy'); [eapply (k_strip f' i'); eauto|lia|lia].
    + exfalso. apply (B_inj I RI) in Ey; auto; try lia. destruct Ey as [-> _]. unfold DpProofs.tri in T. rewrite Hi' in T. discriminate.
    + exfalso. change (B c 0 0) with (dpt c 0 0 0) in Ey. pose proof (darted_lt _ _ Hk'). apply dpt_inj0 in Ey; auto; try lia.
      destruct Ey as (-> & -> & _). destruct Hk' as [?|(_ & Hi' & Hv & _)]; [lia|]. unfold DpProofs.tri in T. rewrite Hv in T.
      rewrite andb_false_r in T. discriminate.
    + apply (B_inj I RI) in Ey; auto; try lia. destruct Ey as [-> _]. reflexivity.
    + exfalso. change (B c 0 0) with (dpt c 0 0 0) in Ey. apply dpt_inj0 in Ey; auto; lia.
  - (* trib *)
    remember (dpt c d 1 0) as y0 eqn:Ey in K'. destruct K' as [z Hz'|f' i' a1' b1' a2' b2' z Hf' N1' N2' N3' N4' Hy'|c2 Hc' Hi'|q d2 k2 q' d3 Hq Hd' Hn' Hk'|c2 Hc' T'|c2 d2 Hc' Hd' T' Hn'].
    + subst z. pose proof (value_trib c d Hc Hd T). lia.
    + exfalso. destruct (nearB c d 1 Hc Hd ltac:(lia)) as (a & e & Ha & He & E). rewrite E in Ey. refine (Sep z _ _ c a e Hc Ha He Ey f' i' a1' a2' Hf' N1' N3' Hy'). eapply (k_strip f' i'); eauto.
    + exfalso. change (B c2 0 0) with (dpt c2 0 0 0) in Ey. apply dpt_inj0 in Ey; auto; lia.
    + exfalso. pose proof (darted_lt _ _ Hk'). apply dpt_inj0 in Ey; auto. destruct Ey as (-> & <- & Ed). specialize (Ed eq_refl). congruence.
    + exfalso. change (B c2 0 0) with (dpt c2 0 0 0) in Ey. apply dpt_inj0 in Ey; auto; lia.
    + apply dpt_inj0 in Ey; auto. destruct Ey as (-> & _). reflexivity.
Qed.

Ltac distinct_rows :=
  repeat constructor; simpl; intros G; repeat (destruct G as [G|G]); try contradiction.

(** two different uncoupled functions have different rows *)
Lemma ridx_neq x y : In x D -> In y D -> cmval m x = 0%Z -> (0 <= cmval m y)%Z -> ridx x = ridx y -> x = y.
Proof. intros Hx Hy Zx Zy E. destruct (ridx_inj sizes m ES x y Hx Hy ltac:(lia) Zy E) as [?|[? ?]]; auto. lia. Qed.

Definition freeIn (x : dof) : Prop := In x D /\ (0 <= cmval m x)%Z.

Lemma kid_rows y P r w : kid y P -> In y D -> In (r, w) P -> exists x, freeIn x /\ r = ridx x.
Proof.
  intros K Hy Hin.
  assert (forall c c', fst c < np -> In c' (cls c) -> freeIn (B c' 1 1)) as C11.
  { intros c c' Hc Hc'. pose proof (rcls_valid I RI c c' Hc Hc'). split; [apply (B_in I RI); auto|rewrite value11; auto; lia]. }
  destruct K as [y Hz|f i a1 b1 a2 b2 y Hf N1 N2 N3 N4 Hy'|c Hc Hi|c d k c' d' Hc Hd Hn Hk|c Hc T|c d Hc Hd T Hn].
  - destruct Hin as [[= <- <-]|[]]. exists y. split; [split; [auto|lia]|auto].
  - apply nth_error_In in N2, N4. destruct (rem1_1 f b1 Hf N2) as [A1 A2], (rem2_1 f b2 Hf N4) as [A3 A4].
    destruct Hin as [[= <- <-]|[[= <- <-]|[]]]; [exists (fst (if1 f), b1)|exists (fst (if2 f), b2)]; (split; [split; [assumption|lia]|reflexivity]).
  - apply in_map_iff in Hin. destruct Hin as (c' & [= <- <-] & Hc'). eexists. split; [eapply C11; eauto|reflexivity].
  - destruct (dnext_np _ _ _ _ Hn) as [_ Hc']. pose proof (dnext_dir t _ _ _ Hn) as Hd'.
    assert (In c' (cls c)) as Hcl by exact (dnext_in_cls c d c' d' Hd Hn).
    assert (ifl c d = true) as F by (apply ifl_dnext; eauto).
    assert (ifl c' d' = true) as F'. { apply ifl_dnext. exists c, d. apply (dnext_sym t Hcons); auto. }
    pose proof (darted_lt _ _ Hk).
    destruct Hin as [[= <- <-]|[[= <- <-]|[]]]; [exists (dpt c d k 1)|exists (dpt c' d' k 1)]; (split; [split; [apply dpt_in; auto|]|reflexivity]).
    + rewrite value_dart1; auto; lia.
    + rewrite value_dart1; auto; [lia|]. apply (darted_cls c); auto.
  - destruct Hin as [[= <- <-]|Hin].
    + exists (B c 0 0). split; [split; [auto|]|reflexivity]. pose proof (value_tri c Hc T). lia.
    + apply in_map_iff in Hin. destruct Hin as (c' & [= <- <-] & Hc'). eexists. split; [eapply C11; eauto|reflexivity].
  - destruct Hin as [[= <- <-]|[[= <- <-]|[]]]; [exists (B c 1 1)|exists (B c 0 0)]; (split; [split; [apply (B_in I RI); auto|]|reflexivity]).
    + rewrite value11; auto; lia.
    + pose proof (value_tri c Hc T). lia.
Qed.

Lemma nodup_corners c l : fst c < np -> incl l (cls c) -> NoDup l -> NoDup (map (fun c' => ridx (B c' 1 1)) l).
Proof.
  intros Hc Hl N. induction N as [|a l Ha N IH]; simpl; constructor.
  - intros G. apply in_map_iff in G. destruct G as (c' & E & Hc').
    assert (fst a < np) as V1 by (apply (rcls_valid I RI c); auto; apply Hl; left; auto).
    assert (fst c' < np) as V2 by (apply (rcls_valid I RI c); auto; apply Hl; right; auto).
    apply ridx_neq in E; try (apply (B_in I RI); auto); try (rewrite value11; auto; lia).
    apply (B_inj I RI) in E; auto. destruct E as [-> _]. contradiction.
  - apply IH. intros x Hx. apply Hl. right; auto.
Qed.

Lemma kid_nodup y P : kid y P -> In y D -> NoDup (map fst P).
Proof.
  intros K Hy. destruct K as [y Hz|f i a1 b1 a2 b2 y Hf N1 N2 N3 N4 Hy'|c Hc Hi|c d k c' d' Hc Hd Hn Hk|c Hc T|c d Hc Hd T Hn]; cbn [map fst].
  - repeat constructor. intros [].
  - apply nth_error_In in N2, N4. destruct (rem1_1 f b1 Hf N2) as [A1 A2], (rem2_1 f b2 Hf N4) as [A3 A4].
    repeat constructor; [|intros []]. intros [E|[]]. symmetry in E. apply ridx_neq in E; auto; [|lia].
    injection E as Ep Eb. destruct (rem_spec f 1 Hf ltac:(lia)) as [R1 R2].
    pose proof (Permutation_in _ R1 N2) as G1. pose proof (Permutation_in _ R2 N4) as G2. apply in_without in G1, G2.
    destruct G1 as [G1 G1'], G2 as [G2 G2']. destruct (iface_np f Hf) as [Q1 Q2]. rewrite <- Ep, <- Eb in G2, G2'.
    pose proof (proj2 Hcons f Hf) as Hg. 
    destruct Hg as [Hg|[Hg1 Hg2]]; [congruence|].
    destruct (roff_row _ (rbas_like I RI _ Q1) (snd (if1 f)) 1 (snd (if2 f)) 1 b1) as [E1 _]; auto.
  - rewrite map_map. cbn [fst]. apply (nodup_corners c); auto; [apply incl_refl|]. apply (cls_nodup t Hcons), rvalidc; auto.
  - destruct (dnext_np _ _ _ _ Hn) as [_ Hc']. pose proof (dnext_dir t _ _ _ Hn) as Hd'.
    assert (In c' (cls c)) as Hcl by exact (dnext_in_cls c d c' d' Hd Hn).
    assert (ifl c d = true) as F by (apply ifl_dnext; eauto).
    assert (ifl c' d' = true) as F'. { apply ifl_dnext. exists c, d. apply (dnext_sym t Hcons); auto. }
    pose proof (darted_lt _ _ Hk). repeat constructor; [|intros []]. intros [E|[]]. symmetry in E.
    apply ridx_neq in E; try (apply dpt_in; auto).
    + assert (c = c') as ->; [|apply (dnext_neq t Hcons) in Hn; auto].
      destruct d as [|[|]]; [| |lia]; (destruct d' as [|[|]]; [| |lia]); simpl in E; apply (B_inj I RI) in E; auto; tauto.
    + apply value_dart1; auto.
    + rewrite value_dart1; auto; [lia|]. apply (darted_cls c); auto.
  - rewrite map_map. cbn [fst]. constructor.
    + intros G. apply in_map_iff in G. destruct G as (c' & E & Hc'). pose proof (rcls_valid I RI c c' Hc Hc') as V'. pose proof (value_tri c Hc T).
      apply ridx_neq in E; try (apply (B_in I RI); auto); try lia; [|apply value11; auto].
      apply (B_inj I RI) in E; auto. lia.
    + apply (nodup_corners c); auto; [apply incl_refl|]. apply (cls_nodup t Hcons), rvalidc; auto.
  - repeat constructor; [|intros []]. intros [E|[]]. symmetry in E. pose proof (value_tri c Hc T).
    apply ridx_neq in E; try (apply (B_in I RI); auto); try lia; [|apply value11; auto]. apply (B_inj I RI) in E; auto. lia.
Qed.

Lemma sumQ_const {A} (l : list A) (q : Q) : (sumQ (map (fun _ => q) l) == inject_Z (Z.of_nat (length l)) * q)%Q.
Proof.
  induction l as [|a l IH]; cbn [map sumQ length]; [ring|]. rewrite IH, Nat2Z.inj_succ. unfold Z.succ. rewrite inject_Z_plus. ring.
Qed.

Lemma tri3 c : fst c < np -> tri c = true -> valence c = 3 /\ inner c = false.
Proof.
  intros Hc T. pose proof (Hsup c Hc) as S. unfold dsup in S. unfold DpProofs.tri in T. destruct (inner c); simpl in *; [discriminate|]. split; auto. lia.
Qed.

Lemma kid_sum y P : kid y P -> (sumQ (map snd P) == 1)%Q.
Proof.
  intros K. destruct K as [y Hz|f i a1 b1 a2 b2 y Hf N1 N2 N3 N4 Hy'|c Hc Hi|c d k c' d' Hc Hd Hn Hk|c Hc T|c d Hc Hd T Hn]; cbn [map snd];
    try reflexivity.
  - rewrite map_map. cbn [snd]. rewrite sumQ_const. change (length (cls c)) with (valence c). pose proof (valence_pos c Hc).
    assert (Z.of_nat (valence c) = Zpos (Pos.of_nat (valence c))) as -> by lia.
    unfold Qeq. simpl. lia.
  - cbn [sumQ]. rewrite map_map. cbn [snd]. rewrite sumQ_const. destruct (tri3 c Hc T) as [Ev _]. unfold TopoProofs.valence in Ev. rewrite Ev. reflexivity.
Qed.
Lemma kid_weight y P r w : kid y P -> In (r, w) P -> (0 <= w <= 1)%Q.
Proof.
  intros K Hin. assert (forall p, (0 <= 1 # p <= 1)%Q) as F by (intros p; unfold Qle; simpl; lia).
  assert (0 <= 1 <= 1)%Q as F1 by (split; discriminate).
  destruct K as [y Hz|f i a1 b1 a2 b2 y Hf N1 N2 N3 N4 Hy'|c Hc Hi|c d k c' d' Hc Hd Hn Hk|c Hc T|c d Hc Hd T Hn].
  - destruct Hin as [[= <- <-]|[]]. auto.
  - destruct Hin as [[= <- <-]|[[= <- <-]|[]]]; apply F.
  - apply in_map_iff in Hin. destruct Hin as (c' & [= <- <-] & Hc'). apply F.
  - destruct Hin as [[= <- <-]|[[= <- <-]|[]]]; apply F.
  - destruct Hin as [[= <- <-]|Hin]; [apply F|]. apply in_map_iff in Hin. destruct Hin as (c' & [= <- <-] & Hc'). apply F.
  - destruct Hin as [[= <- <-]|[[= <- <-]|[]]]; apply F.
Qed.
End P.
