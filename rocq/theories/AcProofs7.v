(** The special vertices of gsAlmostC1: statements of C68. *)
From Coq Require Import Reals Qreals Lra Nsatz.
From Verif Require Import Common TopoModel BaseModel BaseModel2 BaseSpec2 IndexSpec TopoSpec SmoothSpec SmoothSpec2 RefModel RefSpec RingModel RingSpec DpModel DpSpec
  IndexProofs IndexTopoProofs ListLemmas TopoProofs PointProofs MapperProofs CountProofs MatrixProofs HandlerProofs ResultProofs GeometryProofs
  BaseProofs2 RefProofs RingProofs RingProofs2 RingProofs3 DpProofs DpProofs2 DpProofs3 DpProofs4 PiSpec PiProofs TriangleModel TriangleSpec TriangleProofs EvModel EvSpec
  AcModel AcSpec AcSpec2 AcProofs AcProofs2 AcProofs3 AcProofs4 AcProofs5 AcProofs6.
From Verif Require EvProofs2 MapProofs.
From Coq Require Import ZifyBool.
Open Scope nat_scope.

Lemma rsum_Q n (f : nat -> Q) : rsum n (fun r => Q2R (f r)) = Q2R (sumQ (map f (seq 0 n))).
Proof.
  induction n as [|n IH]; [cbn; unfold Q2R; cbn; lra|]. cbn [rsum]. rewrite IH, seq_S, map_app. cbn [map plus].
  assert (forall l x, sumQ (l ++ [x]) == sumQ l + x)%Q as K by (induction l as [|y l IHl]; intros x; cbn [sumQ app]; [ring|rewrite IHl; ring]).
  rewrite (Qeq_eqR _ _ (K _ _)). rewrite Q2R_plus. reflexivity.
Qed.
Lemma rsum_single n f i : i < n -> (forall j, j < n -> j <> i -> f j = 0%R) -> rsum n f = f i.
Proof.
  induction n as [|n IH]; [lia|]. intros Hi H. cbn [rsum]. destruct (Nat.eq_dec i n) as [->|Hn].
  - rewrite (rsum_ext n f (fun _ => 0%R)) by (intros; apply H; lia). rewrite rsum_const. ring.
  - rewrite IH by (try lia; intros; apply H; lia). rewrite (H n) by lia. ring.
Qed.
Lemma rsum_three n f i j k : i < n -> j < n -> k < n -> NoDup [i; j; k] -> (forall r, ~ In r [i; j; k] -> f r = 0%R) -> rsum n f = (f i + f j + f k)%R.
Proof.
  intros Hi Hj Hk N Z.
  rewrite (rsum_ext n f (fun r => (if r =? i then f i else 0) + ((if r =? j then f j else 0) + (if r =? k then f k else 0)))%R).
  - rewrite !rsum_plus, !rsum_point by auto. ring.
  - intros r _. inversion N as [|? ? N1 N2]; subst. inversion N2 as [|? ? N3 _]; subst. cbn [In] in *.
    assert (i <> j /\ i <> k /\ j <> k) as (D1 & D2 & D3) by (repeat split; intros ->; auto).
    destruct (Nat.eqb_spec r i), (Nat.eqb_spec r j), (Nat.eqb_spec r k); subst; try congruence; try ring.
    rewrite Z by (intros [?|[?|[?|[]]]]; congruence). ring.
Qed.
Lemma rsum_nonneg n f : (forall k, k < n -> (0 <= f k)%R) -> (0 <= rsum n f)%R.
Proof. induction n as [|n IH]; intros H; cbn [rsum]; [lra|]. assert (0 <= rsum n f)%R by (apply IH; intros; apply H; lia). pose proof (H n ltac:(lia)). lra. Qed.

(** three points that are not on a line have independent barycentric coordinates *)
Lemma bary_independent k0 k1 k2 u v w x y z :
  convex_weights u -> convex_weights v -> convex_weights w ->
  vcross (vsub (combination k0 k1 k2 v) (combination k0 k1 k2 u)) (vsub (combination k0 k1 k2 w) (combination k0 k1 k2 u)) <> vzero ->
  (x * vx u + y * vy u + z * vz u = 0)%R -> (x * vx v + y * vy v + z * vz v = 0)%R -> (x * vx w + y * vy w + z * vz w = 0)%R ->
  (x = 0 /\ y = 0 /\ z = 0)%R.
Proof.
  intros (_ & _ & _ & Su) (_ & _ & _ & Sv) (_ & _ & _ & Sw) Nc E1 E2 E3.
  destruct u as [u0 u1 u2], v as [v0 v1 v2], w as [w0 w1 w2], k0 as [a0 a1 a2], k1 as [b0 b1 b2], k2 as [c0 c1 c2]. cbn [vx vy vz] in *.
  set (det := (u0 * (v1 * w2 - v2 * w1) - u1 * (v0 * w2 - v2 * w0) + u2 * (v0 * w1 - v1 * w0))%R).
  assert (det <> 0)%R as Nd.
  { intros Ed. apply Nc. unfold vcross, vsub, combination, vadd, vscale, vzero. cbn [vx vy vz]. unfold det in Ed. clear E1 E2 E3 Nc det.
    assert (u0 = 1 - u1 - u2)%R as -> by lra. assert (v0 = 1 - v1 - v2)%R as -> by lra. assert (w0 = 1 - w1 - w2)%R as -> by lra. clear Su Sv Sw.
    f_equal; nsatz. }
  assert (det * x = 0)%R as Dx by (unfold det; clear Su Sv Sw Nc Nd; nsatz).
  assert (det * y = 0)%R as Dy by (unfold det; clear Su Sv Sw Nc Nd; nsatz).
  assert (det * z = 0)%R as Dz by (unfold det; clear Su Sv Sw Nc Nd; nsatz).
  apply Rmult_integral in Dx, Dy, Dz. tauto.
Qed.

(** coordinates in a triangle are affine functions of the point *)
Lemma bary_affine k0 k1 k2 x y z : vcross (vsub k1 k0) (vsub k2 k0) <> vzero ->
  exists g0 g, forall w, convex_weights w -> (x * vx w + y * vy w + z * vz w = g0 + vdot g (combination k0 k1 k2 w))%R.
Proof.
  intros Nc. set (N := vcross (vsub k1 k0) (vsub k2 k0)) in *.
  assert (vdot N N <> 0)%R as Nn.
  { intros E. apply Nc. destruct N as [a b c]. unfold vdot in E. cbn [vx vy vz] in E. pose proof (Rle_0_sqr a). pose proof (Rle_0_sqr b). pose proof (Rle_0_sqr c). unfold Rsqr in *.
    assert (a * a = 0 /\ b * b = 0 /\ c * c = 0)%R as (X & Y & Z) by (repeat split; lra). unfold vzero. f_equal; apply Rmult_integral in X, Y, Z; tauto. }
  set (g := vadd (vscale ((y - x) / vdot N N)%R (vcross (vsub k2 k0) N)) (vscale ((z - x) / vdot N N)%R (vcross N (vsub k1 k0)))).
  exists (x - vdot g k0)%R, g. intros w (_ & _ & _ & S).
  assert (vdot g (combination k0 k1 k2 w) - vdot g k0 = (y - x) * vy w + (z - x) * vz w)%R as K.
  { replace (vdot g (combination k0 k1 k2 w) - vdot g k0)%R with (((y - x) * vy w + (z - x) * vz w) * vdot N N / vdot N N)%R; [field; auto|].
    unfold g. destruct w as [w0 w1 w2]. cbn [vx vy vz] in S |- *. assert (w0 = 1 - w1 - w2)%R as -> by lra. clear S g. 
    destruct k0 as [a0 a1 a2], k1 as [b0 b1 b2], k2 as [c0 c1 c2]. set (n := vdot N N) in *.
    unfold vdot at 1 2, vadd, vscale, combination. unfold N, vcross, vsub in *. cbn [vx vy vz] in *. unfold vadd, vscale. cbn [vx vy vz].
    assert (n = vdot N N) as En by reflexivity. unfold N, vdot, vcross, vsub in En. cbn [vx vy vz] in En. clearbody n. rewrite En. field. rewrite <- En. exact Nn. }
  assert (vx w = 1 - vy w - vz w)%R as -> by lra. lra.
Qed.
(** if points of a triangle are not on a line, neither are its corners *)
Lemma corners_spread k0 k1 k2 u v w : convex_weights u -> convex_weights v -> convex_weights w ->
  vcross (vsub (combination k0 k1 k2 v) (combination k0 k1 k2 u)) (vsub (combination k0 k1 k2 w) (combination k0 k1 k2 u)) <> vzero ->
  vcross (vsub k1 k0) (vsub k2 k0) <> vzero.
Proof.
  intros (_ & _ & _ & Su) (_ & _ & _ & Sv) (_ & _ & _ & Sw) Nc E. apply Nc. clear Nc.
  destruct u as [u0 u1 u2], v as [v0 v1 v2], w as [w0 w1 w2], k0 as [a0 a1 a2], k1 as [b0 b1 b2], k2 as [c0 c1 c2]. cbn [vx vy vz] in *.
  unfold vcross, vsub, combination, vadd, vscale, vzero in *. cbn [vx vy vz] in *. injection E as E1 E2 E3.
  assert (u0 = 1 - u1 - u2)%R as -> by lra. assert (v0 = 1 - v1 - v2)%R as -> by lra. assert (w0 = 1 - w1 - w2)%R as -> by lra. clear Su Sv Sw.
  f_equal; nsatz.
Qed.

Section S.
Variable DI : dinput.
Notation I := (dring DI).
Hypothesis RI : ring_input I.
Hypothesis RM : rows_match DI.
Notation t := (ritopo I).
Notation np := (length (ribases I)).
Hypothesis SU : supported SchemeAlmostC1 t.
Let Hcons : consistent t := ri_topo I RI.
Let Hnp : tnp t = np := ri_np I RI.
Notation cls := (cls t).
Notation valence := (valence t).
Notation inner := (inner t).
Notation B := (B I).
Notation spc := (spc DI).
Notation vlist := (vlist DI).
Let rvalidc := rvalidc I RI.

(** ** the rows *)
Lemma has_row_dof m D x r : is_ares DI m D -> has_row D x r -> In x (dofs_from 0 (sizes I)) /\ cmval m x = 0%Z /\ r = ridx m x.
Proof.
  intros HR [E Hlt]. pose proof HR as (_ & V & R1 & R2 & _). rewrite R1 in E. rewrite R2 in Hlt.
  assert (In x (dofs_from 0 (sizes I))) as Hx.
  { unfold cindex in E. destruct (cvalid m (fst x, snd x)) eqn:Ev; [|discriminate]. replace (fst x, snd x) with x in Ev by (destruct x; reflexivity).
    apply (cvalid_in (sizes I) m x); auto. apply (av_sizes I m V). }
  rewrite (cindex_ok (sizes I) m (av_sizes I m V) x Hx) in E. injection E as <-. split; auto. split; auto.
  destruct (ridx_onto (sizes I) m (av_sizes I m V) (ridx m x) Hlt) as (y & Hy & Fy & Ey).
  pose proof (val_le DI RI m V x Hx) as Le. pose proof (val_le DI RI m V y Hy) as Ley.
  unfold DpProofs.ridx in Hlt. destruct (cmval m x =? 0)%Z eqn:E0; [lia|]. destruct (0 <? cmval m x)%Z eqn:E1; [lia|].
  exfalso. rewrite cfree_split in Hlt. lia.
Qed.

Lemma sv_cls (c b : pcorner) : fst c < np -> same_vertex t c b <-> In b (cls c).
Proof. intros Hc. apply (same_vertex_cls t Hcons). apply rvalidc; auto. Qed.

(** functions of the rows of a vertex *)
Lemma vertex_rows_dof D c r0 r1 r2 r : fst c < np -> vertex_rows DI D c r0 r1 r2 -> In r [r0; r1; r2] ->
  exists b a e, In b (cls c) /\ a < 2 /\ e < 2 /\ has_row D (B b a e) r.
Proof.
  intros Hc HV Hr. assert (forall b, same_vertex t c b -> In b (cls c) /\ fst b < np) as K.
  { intros b Sb. apply (sv_cls c b Hc) in Sb. split; auto. apply (rcls_valid I RI c b); auto. }
  assert (forall b, same_vertex t c b -> forall r, has_row D (corner_dof DI b) r -> exists b a e, In b (cls c) /\ a < 2 /\ e < 2 /\ has_row D (B b a e) r) as K0.
  { intros b Sb r' H. destruct (K b Sb) as [H1 H2]. rewrite (corner_dof_B DI RI) in H by auto. exists b, 0, 0. repeat split; auto; apply H. }
  destruct HV as [v b0 b1 b2 r0 r1 r2 Hv Hv3 S0 S1 S2 L1 L2 Lo H0 H1 H2|b0 b1 b s r0 r1 r2 Hv N S0 S1 S2 Ei Lo H0 H1 H2];
    destruct Hr as [<-|[<-|[<-|[]]]]; eauto.
  destruct (K b S2) as [Hb Pb]. rewrite (edge_dof_dpt DI RI) in H2 by (auto; apply Ei). pose proof (side_dir_lt s) as Hd.
  destruct (side_dir s) as [|[|]]; [| |lia]; [exists b, 0, 1|exists b, 1, 0]; repeat split; auto; apply H2.
Qed.

Lemma rows_distinct m D c r0 r1 r2 : is_ares DI m D -> fst c < np -> vertex_rows DI D c r0 r1 r2 ->
  NoDup [r0; r1; r2] /\ r0 < drRows D /\ r1 < drRows D /\ r2 < drRows D.
Proof.
  intros HR Hc HV. pose proof (proj1 (proj2 HR)) as V.
  assert (forall x y r, has_row D x r -> has_row D y r -> x = y) as Inj.
  { intros x y r Hx Hy. destruct (has_row_dof m D x r HR Hx) as (X1 & X2 & X3), (has_row_dof m D y r HR Hy) as (Y1 & Y2 & Y3).
    apply (aridx_neq DI RI m V); auto. congruence. }
  assert (forall x, ~ lower x x) as Irr by (intros x [H|[_ H]]; lia).
  assert (forall x y z, lower x y -> lower y z -> lower x z) as Trans by (intros x y z H1 H2; unfold lower in *; lia).
  destruct HV as [v b0 b1 b2 r0 r1 r2 Hv Hv3 S0 S1 S2 L1 L2 Lo H0 H1 H2|b0 b1 b s r0 r1 r2 Hv N S0 S1 S2 Ei Lo H0 H1 H2].
  - split; [|split; [apply H0|split; [apply H1|apply H2]]].
    assert (r0 <> r1) by (intros ->; apply (Irr (corner_dof DI b1)); rewrite (Inj _ _ _ H0 H1) in L1; auto).
    assert (r1 <> r2) by (intros ->; apply (Irr (corner_dof DI b2)); rewrite (Inj _ _ _ H1 H2) in L2; auto).
    assert (r0 <> r2) by (intros ->; pose proof (Trans _ _ _ L1 L2) as L3; rewrite (Inj _ _ _ H0 H2) in L3; apply (Irr _ L3)).
    repeat constructor; simpl; intuition.
  - apply (sv_cls c _ Hc) in S0, S1, S2. pose proof (rcls_valid I RI c b0 Hc S0) as P0. pose proof (rcls_valid I RI c b1 Hc S1) as P1. pose proof (rcls_valid I RI c b Hc S2) as P2.
    rewrite (corner_dof_B DI RI) in H0, H1 by auto. rewrite (edge_dof_dpt DI RI) in H2 by (auto; apply Ei).
    assert (exists a e, a < 2 /\ e < 2 /\ (a, e) <> (0, 0) /\ dpt DI b (side_dir s) 1 0 = B b a e) as (a & e & Ha & He & Nae & Eb).
    { pose proof (side_dir_lt s) as Hd. destruct (side_dir s) as [|[|]]; [| |lia]; [exists 0, 1|exists 1, 0]; repeat split; auto; discriminate. }
    rewrite Eb in H2. split; [|split; [apply H0|split; [apply H1|apply H2]]].
    assert (r0 <> r1) by (intros ->; pose proof (Inj _ _ _ H0 H1) as E; apply (B_inj I RI) in E; auto; apply N; tauto).
    assert (r0 <> r2) by (intros ->; pose proof (Inj _ _ _ H0 H2) as E; apply (B_inj I RI) in E; auto; apply Nae; f_equal; symmetry; tauto).
    assert (r1 <> r2) by (intros ->; pose proof (Inj _ _ _ H1 H2) as E; apply (B_inj I RI) in E; auto; apply Nae; f_equal; symmetry; tauto).
    repeat constructor; simpl; intuition.
Qed.

Lemma rows_thm D c r0 r1 r2 : acCompute DI = Ok D -> fst c < np -> vertex_rows DI D c r0 r1 r2 ->
  NoDup [r0; r1; r2] /\ r0 < drRows D /\ r1 < drRows D /\ r2 < drRows D.
Proof. intros E. destruct (some_ares DI RI RM SU D E) as (m & HR). apply (rows_distinct m); auto. Qed.

Lemma rows_disjoint_thm D c r0 r1 r2 c' r0' r1' r2' r : acCompute DI = Ok D -> fst c < np -> fst c' < np ->
  vertex_rows DI D c r0 r1 r2 -> vertex_rows DI D c' r0' r1' r2' -> In r [r0; r1; r2] -> In r [r0'; r1'; r2'] -> same_vertex t c c'.
Proof.
  intros E Hc Hc' HV HV' Hr Hr'. destruct (some_ares DI RI RM SU D E) as (m & HR). pose proof (proj1 (proj2 HR)) as V.
  destruct (vertex_rows_dof D c r0 r1 r2 r Hc HV Hr) as (b & a & e & Hb & Ha & He & H1).
  destruct (vertex_rows_dof D c' r0' r1' r2' r Hc' HV' Hr') as (b' & a' & e' & Hb' & Ha' & He' & H2).
  destruct (has_row_dof m D _ r HR H1) as (X1 & X2 & X3), (has_row_dof m D _ r HR H2) as (Y1 & Y2 & Y3).
  assert (B b a e = B b' a' e') as Eb by (apply (aridx_neq DI RI m V); auto; congruence).
  apply (B_inj I RI) in Eb; auto; [|apply (rcls_valid I RI c b); auto]. destruct Eb as (<- & _).
  apply sv_cls; auto.
  apply (Permutation_in _ (Permutation_sym (cls_perm t Hcons c b (proj2 (rvalidc c) Hc) Hb))).
  apply (Permutation_in _ (cls_perm t Hcons c' b (proj2 (rvalidc c') Hc') Hb')). apply (cls_self t Hcons). apply rvalidc; auto.
Qed.

Lemma special_rows m D c : is_ares DI m D -> special DI c -> exists x0 x1 x2, vlist c = [x0; x1; x2] /\ vertex_rows DI D c (ridx m x0) (ridx m x1) (ridx m x2).
Proof.
  intros HR Hs. apply (spc_iff DI RI) in Hs. destruct Hs as [Hc Hs]. destruct (vlist_len DI RI SU c Hc Hs) as [L _].
  destruct (vlist c) as [|x0 [|x1 [|x2 [|]]]] eqn:E; try discriminate. exists x0, x1, x2. split; auto.
  apply (vlist_rows DI RI SU m D HR c c); auto. apply (cls_self t Hcons). apply rvalidc; auto.
Qed.

Lemma spare_not_own m D x : is_ares DI m D -> In x (dofs_from 0 (sizes I)) -> own DI m x -> ~ spare D (ridx m x).
Proof.
  intros HR Hx Ox Sp. pose proof HR as (_ & V & R1 & R2 & R3 & E1 & E2).
  assert (cidx (sizes I) x < drCols D) as Hc by (rewrite R3; apply cidx_lt; auto). specialize (Sp _ Hc).
  rewrite (E1 x [(ridx m x, 1%Q)] (ridx m x) 1%Q) in Sp; auto; [discriminate|apply ak_own; auto|left; auto].
Qed.

Lemma spare_special m D x : is_ares DI m D -> In x (dofs_from 0 (sizes I)) -> (0 <= cmval m x)%Z -> spare D (ridx m x) -> exists c, special DI c /\ In x (vlist c).
Proof.
  intros HR Hx Fx Sp. pose proof (proj1 (proj2 HR)) as V. pose proof (val_le DI RI m V x Hx) as Le.
  destruct (zero_cases DI RI m V x ltac:(lia)) as [Ox|Kx]; [exfalso; apply (spare_not_own m D x); auto|].
  destruct (kept_vlist DI RI SU m D HR x Kx) as (c & Hc & Hs & Hin). exists c. split; auto. apply (spc_iff DI RI); auto.
Qed.

Lemma spare_thm D r : acCompute DI = Ok D -> r < drRows D -> spare D r ->
  exists c r0 r1 r2, special DI c /\ vertex_rows DI D c r0 r1 r2 /\ In r [r0; r1; r2].
Proof.
  intros E Hr Sp. destruct (some_ares DI RI RM SU D E) as (m & HR). pose proof HR as (_ & V & _ & R2 & _). rewrite R2 in Hr.
  destruct (ridx_onto (sizes I) m (av_sizes I m V) r Hr) as (x & Hx & Fx & <-). destruct (spare_special m D x HR Hx Fx Sp) as (c & Hs & Hin).
  destruct (special_rows m D c HR Hs) as (x0 & x1 & x2 & Ev & Hv). exists c, (ridx m x0), (ridx m x1), (ridx m x2). split; auto. split; auto.
  rewrite Ev in Hin. destruct Hin as [<-|[<-|[<-|[]]]]; simpl; auto.
Qed.

(** ** the final matrix *)
Section G.
Variable F : refinedIn.
Variable nf : nat.
Variable cl : pcorner -> nat -> nat -> nat.
Variable pt : pcorner -> nat -> nat -> vec3.
Hypothesis RO : refined_ok DI F nf cl pt.

Lemma final_thm : exists D A, acFinal DI F = Ok (D, A) /\ acCompute DI = Ok D.
Proof. destruct (final_ok DI RI RM SU F nf cl pt RO) as (m & D & A & E & E2 & _). eauto. Qed.

Lemma near_dec x : {near_special DI cl x} + {~ near_special DI cl x}.
Proof.
  destruct (existsb (fun c => spc c && existsb (fun ae => x =? cl c (fst ae) (snd ae)) offs) (all_corners np)) eqn:E.
  - left. apply existsb_exists in E. destruct E as (c & Hc & E). apply andb_true_iff in E. destruct E as [Hs E]. apply existsb_exists in E.
    destruct E as ([a e] & Ho & E). apply in_offs in Ho. apply Nat.eqb_eq in E. apply in_all_corners in Hc. exists c, a, e. split; [apply (spc_iff DI RI); auto|]. tauto.
  - right. intros (c & a & e & Hs & Ha & He & Ex). apply (spc_iff DI RI) in Hs. destruct Hs as [Hc Hs].
    assert (existsb (fun c => spc c && existsb (fun ae => x =? cl c (fst ae) (snd ae)) offs) (all_corners np) = true) as E'; [|congruence].
    apply existsb_exists. exists c. split; [apply in_all_corners; auto|]. apply andb_true_iff. split; auto. apply existsb_exists. exists (a, e).
    split; [apply in_offs; auto|]. apply Nat.eqb_eq. exact Ex.
Qed.

Lemma triangle_thm D A c : acFinal DI F = Ok (D, A) -> special DI c -> exists b f r0 r1 r2 k0 k1 k2, same_vertex t c b /\ projection DI F b f /\
  vertex_rows DI D c r0 r1 r2 /\ forall c' a e, same_vertex t c c' -> a < 2 -> e < 2 ->
    convex_weights (V3 (A r0 (cl c' a e)) (A r1 (cl c' a e)) (A r2 (cl c' a e))) /\
    combination k0 k1 k2 (V3 (A r0 (cl c' a e)) (A r1 (cl c' a e)) (A r2 (cl c' a e))) = f (pt c' a e) /\
    forall r, ~ In r [r0; r1; r2] -> A r (cl c' a e) = 0%R.
Proof.
  intros E Hs. destruct (final_inv DI RI RM SU F nf cl pt RO D A E) as (m & Ec & HR & FI). destruct (proj1 (spc_iff DI RI c) Hs) as [Hc Sc].
  destruct (fi_tri _ _ _ _ _ _ _ _ FI c Hs) as (b & Hb & Fb & f & x0 & x1 & x2 & k0 & k1 & k2 & Pf & Ev & ET & T).
  exists b, f, (ridx m x0), (ridx m x1), (ridx m x2), k0, k1, k2. split; [apply sv_cls; auto|]. split; auto.
  split; [apply (vlist_rows DI RI SU m D HR c b); auto|]. intros c' a e Sv Ha He. apply T; auto. apply sv_cls in Sv; auto.
  apply (Permutation_in _ (cls_perm t Hcons c b (proj2 (rvalidc c) Hc) Hb)). exact Sv.
Qed.

Lemma elsewhere_thm D A r x : acFinal DI F = Ok (D, A) -> (exists c, special DI c) -> ~ near_special DI cl x ->
  A r x = rsum (drCols D) (fun k => Q2R (dentry D r k) * rf_t F x k)%R.
Proof.
  intros E Hex Hx. destruct (final_inv DI RI RM SU F nf cl pt RO D A E) as (m & Ec & HR & FI).
  rewrite (fi_out _ _ _ _ _ _ _ _ FI Hex r x Hx). reflexivity.
Qed.

Lemma regular_thm D A : acFinal DI F = Ok (D, A) -> (forall c, ~ special DI c) ->
  (forall r x, A r x = Q2R (dentry D r x)) /\ forall r, r < drRows D -> ~ spare D r.
Proof.
  intros E Hn. destruct (final_inv DI RI RM SU F nf cl pt RO D A E) as (m & Ec & HR & FI). split.
  - intros r x. rewrite (fi_regular _ _ _ _ _ _ _ _ FI Hn). reflexivity.
  - intros r Hr Sp. destruct (spare_thm D r Ec Hr Sp) as (c & r0 & r1 & r2 & Hs & _). apply (Hn c Hs).
Qed.

Lemma aunity2_thm D A : acFinal DI F = Ok (D, A) -> (exists c, special DI c) ->
  (forall x, x < nf -> rsum (drCols D) (rf_t F x) = 1%R) -> forall x, x < nf -> colSum (drRows D) A x = 1%R.
Proof.
  intros E Hex HT x Hx. destruct (final_inv DI RI RM SU F nf cl pt RO D A E) as (m & Ec & HR & _).
  destruct (near_dec x) as [(c & a & e & Hs & Ha & He & ->)|Hn].
  - destruct (triangle_thm D A c E Hs) as (b & f & r0 & r1 & r2 & k0 & k1 & k2 & _ & _ & HV & T). pose proof (proj1 (proj1 (spc_iff DI RI c) Hs)) as Hc.
    destruct (rows_distinct m D c r0 r1 r2 HR Hc HV) as (N & L0 & L1 & L2).
    destruct (T c a e) as ((_ & _ & _ & S) & _ & Z); auto; [apply sv_cls; auto; apply (cls_self t Hcons), rvalidc; auto|].
    cbn [vx vy vz] in S. unfold colSum. rewrite (rsum_three _ _ r0 r1 r2); auto.
  - unfold colSum. rewrite (rsum_ext _ _ (fun r => refined (drCols D) (real_of D) (rf_t F) r x)).
    + apply EvProofs2.colSum_refined; auto. intros k Hk. unfold colSum, real_of. rewrite (rsum_Q (drRows D) (fun r => dentry D r k)).
      rewrite (Qeq_eqR _ _ (acolumn_unity DI RI RM m D HR k Hk)). unfold Q2R. cbn. lra.
    + intros r _. apply elsewhere_thm; auto.
Qed.

Lemma anonneg_thm D A : acFinal DI F = Ok (D, A) -> (exists c, special DI c) ->
  (forall x k, x < nf -> (0 <= rf_t F x k)%R) -> forall r x, x < nf -> (0 <= A r x)%R.
Proof.
  intros E Hex HT r x Hx. destruct (final_inv DI RI RM SU F nf cl pt RO D A E) as (m & Ec & HR & _).
  destruct (near_dec x) as [(c & a & e & Hs & Ha & He & ->)|Hn].
  - destruct (triangle_thm D A c E Hs) as (b & f & r0 & r1 & r2 & k0 & k1 & k2 & _ & _ & HV & T). pose proof (proj1 (proj1 (spc_iff DI RI c) Hs)) as Hc.
    destruct (T c a e) as ((S0 & S1 & S2 & _) & _ & Z); auto; [apply sv_cls; auto; apply (cls_self t Hcons), rvalidc; auto|].
    cbn [vx vy vz] in *. destruct (in_dec Nat.eq_dec r [r0; r1; r2]) as [[<-|[<-|[<-|[]]]]|Hr]; auto. rewrite Z by auto. lra.
  - rewrite elsewhere_thm with (D := D); auto. apply rsum_nonneg. intros k Hk. apply Rmult_le_pos; auto.
    destruct (aentry_range DI RI RM m D HR r k Hk) as [Q0 _]. apply Qle_Rle in Q0. unfold Q2R at 1 in Q0. cbn in Q0. lra.
Qed.

(** ** independence *)
Lemma coef_special D A coef c r0 r1 r2 : acFinal DI F = Ok (D, A) -> (forall x, x < nf -> fcontrol (drRows D) A coef x = 0%R) -> special DI c ->
  spread DI F pt c -> vertex_rows DI D c r0 r1 r2 ->
  (exists b f k0 k1 k2, same_vertex t c b /\ projection DI F b f /\ forall c' a e, same_vertex t c c' -> a < 2 -> e < 2 ->
    convex_weights (V3 (A r0 (cl c' a e)) (A r1 (cl c' a e)) (A r2 (cl c' a e))) /\
    combination k0 k1 k2 (V3 (A r0 (cl c' a e)) (A r1 (cl c' a e)) (A r2 (cl c' a e))) = f (pt c' a e) /\
    forall r, ~ In r [r0; r1; r2] -> A r (cl c' a e) = 0%R) ->
  (coef r0 = 0 /\ coef r1 = 0 /\ coef r2 = 0)%R.
Proof.
  intros E H0 Hs Sp HV (b & f & k0 & k1 & k2 & Sb & Pf & T). destruct (final_inv DI RI RM SU F nf cl pt RO D A E) as (m & Ec & HR & _).
  pose proof (proj1 (proj1 (spc_iff DI RI c) Hs)) as Hc. destruct (rows_distinct m D c r0 r1 r2 HR Hc HV) as (N & L0 & L1 & L2).
  assert (forall c' a e, same_vertex t c c' -> a < 2 -> e < 2 ->
    (coef r0 * A r0 (cl c' a e) + coef r1 * A r1 (cl c' a e) + coef r2 * A r2 (cl c' a e) = 0)%R) as Z.
  { intros c' a e Sv Ha He. destruct (T c' a e Sv Ha He) as (_ & _ & Zr).
    assert (special DI c') as Hs' by (apply (cls_special DI RI c); auto; apply sv_cls; auto).
    rewrite <- (H0 (cl c' a e) (ro_lt _ _ _ _ _ RO c' a e Hs' Ha He)). unfold fcontrol. rewrite (rsum_three _ _ r0 r1 r2); auto.
    intros r Hr. rewrite Zr by auto. ring. }
  destruct (Sp b f Sb Pf) as (c0 & a0 & e0 & c1 & a1 & e1 & c2 & a2 & e2 & S0 & A0 & E0 & S1 & A1 & E1 & S2 & A2 & E2 & Nc).
  destruct (T c0 a0 e0 S0 A0 E0) as (W0 & K0 & _), (T c1 a1 e1 S1 A1 E1) as (W1 & K1 & _), (T c2 a2 e2 S2 A2 E2) as (W2 & K2 & _).
  rewrite <- K0, <- K1, <- K2 in Nc.
  apply (bary_independent k0 k1 k2 _ _ _ (coef r0) (coef r1) (coef r2) W0 W1 W2 Nc); cbn [vx vy vz]; apply Z; auto.
Qed.

(** the control points around a special vertex are an affine function of the points *)
Lemma affine_thm D A coef c : acFinal DI F = Ok (D, A) -> special DI c -> spread DI F pt c ->
  exists b f g0 g, same_vertex t c b /\ projection DI F b f /\ forall c' a e, same_vertex t c c' -> a < 2 -> e < 2 ->
    fcontrol (drRows D) A coef (cl c' a e) = (g0 + vdot g (f (pt c' a e)))%R.
Proof.
  intros E Hs Sp. destruct (triangle_thm D A c E Hs) as (b & f & r0 & r1 & r2 & k0 & k1 & k2 & Sb & Pf & HV & T).
  destruct (final_inv DI RI RM SU F nf cl pt RO D A E) as (m & Ec & HR & _).
  pose proof (proj1 (proj1 (spc_iff DI RI c) Hs)) as Hc. destruct (rows_distinct m D c r0 r1 r2 HR Hc HV) as (N & L0 & L1 & L2).
  assert (vcross (vsub k1 k0) (vsub k2 k0) <> vzero) as Nk.
  { destruct (Sp b f Sb Pf) as (c0 & a0 & e0 & c1 & a1 & e1 & c2 & a2 & e2 & S0 & A0 & E0 & S1 & A1 & E1 & S2 & A2 & E2 & Nc).
    destruct (T c0 a0 e0 S0 A0 E0) as (W0 & K0 & _), (T c1 a1 e1 S1 A1 E1) as (W1 & K1 & _), (T c2 a2 e2 S2 A2 E2) as (W2 & K2 & _).
    rewrite <- K0, <- K1, <- K2 in Nc. exact (corners_spread k0 k1 k2 _ _ _ W0 W1 W2 Nc). }
  destruct (bary_affine k0 k1 k2 (coef r0) (coef r1) (coef r2) Nk) as (g0 & g & G). exists b, f, g0, g. split; auto. split; auto.
  intros c' a e Sv Ha He. destruct (T c' a e Sv Ha He) as (W & K & Z). rewrite <- K, <- G by exact W. cbn [vx vy vz].
  unfold fcontrol. apply (rsum_three _ (fun r => coef r * A r (cl c' a e))%R r0 r1 r2); auto. intros r Hr. rewrite Z by auto. ring.
Qed.

Lemma corner_special_dec (x : dof) : {exists c, special DI c /\ x = corner_dof DI c} + {forall c, special DI c -> x <> corner_dof DI c}.
Proof.
  destruct (existsb (fun c => spc c && dof_eqb x (corner_dof DI c)) (all_corners np)) eqn:E.
  - left. apply existsb_exists in E. destruct E as (c & Hc & E). apply andb_true_iff in E. destruct E as [Hs E]. apply dof_eqb_iff in E.
    apply in_all_corners in Hc. exists c. split; auto. apply (spc_iff DI RI); auto.
  - right. intros c Hs Ex. apply (spc_iff DI RI) in Hs. destruct Hs as [Hc Hs]. rewrite existsb_false in E.
    specialize (E c (proj2 (in_all_corners np c) Hc)). rewrite Hs in E. cbn [andb] in E. subst x.
    rewrite (proj2 (dof_eqb_iff _ _) eq_refl) in E. discriminate.
Qed.

Lemma swap_control D coef x : rsum (drRows D) (fun r => coef r * rsum (drCols D) (fun k => Q2R (dentry D r k) * rf_t F x k))%R =
  rsum (drCols D) (fun k => rsum (drRows D) (fun r => coef r * Q2R (dentry D r k)) * rf_t F x k)%R.
Proof.
  rewrite (rsum_ext _ _ (fun r => rsum (drCols D) (fun k => coef r * Q2R (dentry D r k) * rf_t F x k)%R)).
  - rewrite rsum_swap. apply rsum_ext. intros k _. rewrite Rmult_comm, <- rsum_scal. apply rsum_ext. intros r _. ring.
  - intros r _. rewrite <- rsum_scal. apply rsum_ext. intros k _. ring.
Qed.

Lemma afindependent_thm D A coef : acFinal DI F = Ok (D, A) -> (exists c, special DI c) ->
  (forall c v, special DI c -> ~ interior_vertex t c -> is_sharp DI c -> has_valence t c v -> v <= 3) ->
  determined DI F nf cl (drCols D) -> (forall c, special DI c -> spread DI F pt c) ->
  (forall x, x < nf -> fcontrol (drRows D) A coef x = 0%R) -> forall r, r < drRows D -> coef r = 0%R.
Proof.
  intros E Hex Hv3 Det Spr H0 r Hr. destruct (final_inv DI RI RM SU F nf cl pt RO D A E) as (m & Ec & HR & FI). pose proof HR as (_ & V & R1 & R2 & R3 & _).
  rewrite R2 in Hr. destruct (ridx_onto (sizes I) m (av_sizes I m V) r Hr) as (x & Hx & Fx & <-).
  pose proof (val_le DI RI m V x Hx) as Le. assert (cmval m x = 0%Z) as Zx by lia.
  assert (forall c, special DI c -> In x (vlist c) -> coef (ridx m x) = 0%R) as K.
  { intros c Hs Hin. destruct (proj1 (spc_iff DI RI c) Hs) as [Hc Sc].
    destruct (fi_tri _ _ _ _ _ _ _ _ FI c Hs) as (b & Hb & Fb & f & x0 & x1 & x2 & k0 & k1 & k2 & Pf & Ev & ET & T).
    destruct (coef_special D A coef c (ridx m x0) (ridx m x1) (ridx m x2) E H0 Hs (Spr c Hs)) as (Z0 & Z1 & Z2).
    - apply (vlist_rows DI RI SU m D HR c b); auto.
    - exists b, f, k0, k1, k2. split; [apply sv_cls; auto|]. split; auto. intros c' a e Sv Ha He. apply T; auto. apply sv_cls in Sv; auto.
      apply (Permutation_in _ (cls_perm t Hcons c b (proj2 (rvalidc c) Hc) Hb)). exact Sv.
    - apply (vlist_cls DI RI c b x Hc Hb) in Hin. rewrite Ev in Hin. destruct Hin as [<-|[<-|[<-|[]]]]; auto. }
  destruct (zero_cases DI RI m V x Zx) as [Ox|Kx].
  - destruct (corner_special_dec x) as [(c & Hs & Ex)|Nx].
    + destruct (proj1 (spc_iff DI RI c) Hs) as [Hc Sc]. pose proof Ex as Ex'. rewrite (corner_dof_B DI RI) in Ex' by auto.
      apply (K c Hs). rewrite Ex'. rewrite Ex' in Ox. destruct (own_corner DI RI SU m c Hc Sc Ox) as [Hi Hr0].
      apply (corner_in_vlist DI RI SU c Hc Sc). pose proof (proj2 (rvalidc c) Hc) as Hvc.
      apply (Hv3 c (valence c) Hs); [|unfold is_sharp; rewrite (c0_rc0 DI RI c Hc); congruence|apply (has_valence_iff t Hcons); auto].
      intros Hin. apply (interior_vertex_iff t Hcons c Hvc) in Hin. congruence.
    + set (g := fun k => rsum (drRows D) (fun r => coef r * Q2R (dentry D r k))%R).
      assert (g (dcolumn DI (fst x) (snd x)) = 0%R) as G.
      { apply (Det g).
        - intros y Hy Ny. rewrite <- (H0 y Hy). unfold fcontrol. unfold g. rewrite <- swap_control. apply rsum_ext. intros r' _.
          rewrite (elsewhere_thm D A r' y E Hex Ny). reflexivity.
        - apply (in_D I RI x). exact Hx.
        - apply (in_D I RI x). exact Hx.
        - intros c Hs. rewrite <- surjective_pairing. apply Nx. exact Hs. }
      destruct (own_own DI RI m D HR x Hx Ox) as (r' & Er & Hr' & Eo). rewrite R1 in Er. rewrite (cindex_ok (sizes I) m (av_sizes I m V) x Hx) in Er. injection Er as <-.
      rewrite <- G. unfold g. rewrite (rsum_single _ _ (ridx m x)); auto.
      * rewrite Eo by auto. rewrite Nat.eqb_refl. unfold Q2R. cbn. field.
      * intros j Hj Nj. rewrite Eo by auto. apply Nat.eqb_neq in Nj. rewrite Nj. unfold Q2R. cbn. field.
  - destruct (kept_vlist DI RI SU m D HR x Kx) as (c & Hc & Hs & Hin). apply (K c); auto. apply (spc_iff DI RI); auto.
Qed.

(** ** sharp vertices with more than three patches *)
Lemma corner_row_only m D (c : pcorner) y P w : is_ares DI m D -> fst c < np -> own DI m (B c 0 0) -> In y (dofs_from 0 (sizes I)) -> akid DI m y P ->
  In (ridx m (B c 0 0), w) P -> y = B c 0 0.
Proof.
  intros HR Hc Oc Hy K Hin. pose proof (proj1 (proj2 HR)) as V. pose proof (B_in I RI c 0 0 Hc ltac:(lia) ltac:(lia)) as Bc.
  assert (forall x, In x (dofs_from 0 (sizes I)) -> own DI m x -> ridx m (B c 0 0) = ridx m x -> B c 0 0 = x) as Inj.
  { intros x Hx Ox Ex. apply (aridx_neq DI RI m V); auto; [apply Oc|apply Ox]. }
  assert (forall c' a e, fst c' < np -> a < 2 -> e < 2 -> (a, e) <> (0, 0) -> B c 0 0 <> B c' a e) as Nb.
  { intros c' a e Hc' Ha He Nae Eb. apply (B_inj I RI) in Eb; auto. destruct Eb as (_ & <- & <-). apply Nae; reflexivity. }
  destruct K as [y Ho|f i a1 b1 a2 b2 y Hf N1 N2 N3 N4 Hy'|b a e Hb Ha He Hav].
  - destruct Hin as [[= Er <-]|[]]. symmetry. apply Inj; auto.
  - apply nth_error_In in N2, N4. destruct (arem1_1 DI RI RM m V f b1 Hf N2) as [I1 O1], (arem2_1 DI RI RM m V f b2 Hf N4) as [I2 O2].
    destruct (iface_np DI RI f Hf) as [P1 P2]. destruct (rem_spec DI RM f 1 Hf ltac:(lia)) as [A1 A2].
    destruct Hin as [[= Er <-]|[[= Er <-]|[]]]; symmetry in Er; apply Inj in Er; auto; exfalso.
    + destruct (arow1_value DI RI m V (if1 f) b1) as (_ & H2 & _); [auto|eapply Permutation_in; eauto|]. apply (H2 c 0 0); auto.
    + destruct (arow1_value DI RI m V (if2 f) b2) as (_ & H2 & _); [auto|eapply Permutation_in; eauto|]. apply (H2 c 0 0); auto.
  - exfalso. destruct (avg_cases DI RI m b a e Hb Ha He Hav) as [(_ & _ & Hi & E)|[(_ & _ & Hh & E)|(d & k & c' & d' & Hk & Hn & _ & E)]]; rewrite E in Hin.
    + apply in_map_iff in Hin. destruct Hin as (c' & [= Er <-] & Hc'). pose proof (rcls_valid I RI b c' Hb Hc'). symmetry in Er.
      apply Inj in Er; [|apply (B_in I RI); auto|apply (own11 DI RI m V); auto]. apply (Nb c' 1 1) in Er; auto. discriminate.
    + apply in_map_iff in Hin. destruct Hin as ([c' d'] & [= Er <-] & Hc'). apply in_bdarts in Hc'. destruct Hc' as (Hc' & Hd' & Hn).
      pose proof (rcls_valid I RI b c' Hb Hc'). symmetry in Er. apply Inj in Er; [|apply (dpt_in DI RI); auto|apply (boundary_own DI RI m V c' d'); auto].
      destruct d' as [|[|]]; [| |cbn [snd] in Hd'; lia]; cbn [fst snd dpt] in Er; [apply (Nb c' 0 1) in Er|apply (Nb c' 1 0) in Er]; auto; discriminate.
    + destruct (dnext_np DI RI _ _ _ _ Hn) as [_ Hc']. pose proof (adart_lt DI RI b d k Hk) as Lk. pose proof (adart_cls DI RI b d c' d' k Hb Hn Hk) as Hk'.
      assert (ifl t b d = true) as Fd by (apply (ifl_dnext DI); eauto).
      assert (ifl t c' d' = true) as Fd'. { apply (ifl_dnext DI). exists b, d. apply (dnext_sym t Hcons); auto. apply Hk. }
      pose proof (proj1 Hk) as Ld. pose proof (proj1 Hk') as Ld'.
      assert (forall z j, fst z < np -> j < 2 -> B c 0 0 <> dpt DI z j k 1) as Nd.
      { intros z j Hz Hj. destruct j as [|[|]]; [| |lia]; cbn [dpt]; apply Nb; auto; intros [=]. }
      destruct Hin as [[= Er <-]|[[= Er <-]|[]]]; symmetry in Er; apply Inj in Er;
        try (apply (dpt_in DI RI); auto); try (apply (dart_own DI RI m V); auto); apply Nd in Er; auto.
Qed.

Lemma lost_thm D A c v : acFinal DI F = Ok (D, A) -> special DI c -> ~ interior_vertex t c -> is_sharp DI c -> has_valence t c v -> 3 < v ->
  (forall b x, same_vertex t c b -> x < nf -> ~ near_special DI cl x -> rf_t F x (dcolumn DI (fst b) (snd (corner_dof DI b))) = 0%R) ->
  exists r, r < drRows D /\ ~ spare D r /\ forall x, x < nf -> A r x = 0%R.
Proof.
  intros E Hs Hni Hsh Hval Hv HT. destruct (final_inv DI RI RM SU F nf cl pt RO D A E) as (m & Ec & HR & FI). pose proof HR as (_ & V & R1 & R2 & R3 & E1 & E2).
  destruct (proj1 (spc_iff DI RI c) Hs) as [Hc Sc]. pose proof (proj2 (rvalidc c) Hc) as Hvc. apply (has_valence_iff t Hcons c v Hvc) in Hval. subst v.
  pose proof (not_inner DI RI c Hc Hni) as Hi. unfold is_sharp in Hsh. rewrite (c0_rc0 DI RI c Hc) in Hsh. injection Hsh as Hsh.
  destruct (vlist_len DI RI SU c Hc Sc) as [L3 N3].
  assert (exists b, In b (cls c) /\ ~ In (B b 0 0) (vlist c)) as (b & Hb & Nb).
  { destruct (existsb (fun b => negb (existsb (dof_eqb (B b 0 0)) (vlist c))) (cls c)) eqn:Ex.
    - apply existsb_exists in Ex. destruct Ex as (b & Hb & Ex). exists b. split; auto. intros Hin. apply negb_true_iff in Ex. rewrite existsb_false in Ex.
      specialize (Ex _ Hin). rewrite (proj2 (dof_eqb_iff _ _) eq_refl) in Ex. discriminate.
    - exfalso. rewrite existsb_false in Ex. assert (length (map (fun b => B b 0 0) (cls c)) <= length (vlist c)) as Le.
      { apply NoDup_incl_length.
        - apply MapProofs.NoDup_map_inj; [|apply (cls_nodup t Hcons); auto]. intros b b' Hb Hb' Eb. apply (B_inj I RI) in Eb; auto; try lia; [tauto|apply (rcls_valid I RI c b); auto].
        - intros x Hx. apply in_map_iff in Hx. destruct Hx as (b & <- & Hb). specialize (Ex b Hb). apply negb_false_iff in Ex. apply existsb_exists in Ex.
          destruct Ex as (y & Hy & Ey). apply dof_eqb_iff in Ey. rewrite Ey. exact Hy. }
      rewrite map_length, L3 in Le. unfold TopoProofs.valence in Hv. lia. }
  pose proof (rcls_valid I RI c b Hc Hb) as Pb. assert (own DI m (B b 0 0)) as Ob.
  { apply (sharp_own DI RI m V b); auto; [rewrite (inner_cls t Hcons c b); auto|rewrite (rc0_cls I RI c b); auto]. }
  pose proof (B_in I RI b 0 0 Pb ltac:(lia) ltac:(lia)) as Bb. exists (ridx m (B b 0 0)).
  split; [rewrite R2; apply (ridx_lt (sizes I) m (av_sizes I m V)); auto; destruct Ob as [-> _]; lia|].
  split; [apply (spare_not_own m D); auto|]. intros x Hx. destruct (near_dec x) as [(z & a & e & Hz & Ha & He & ->)|Hn].
  - destruct (proj1 (spc_iff DI RI z) Hz) as [Pz Sz].
    destruct (fi_tri _ _ _ _ _ _ _ _ FI z Hz) as (z' & Hz' & Fz & f & x0 & x1 & x2 & k0 & k1 & k2 & Pf & Ev & ET & T).
    assert (In z (cls z')) as Zz by (apply (Permutation_in _ (cls_perm t Hcons z z' (proj2 (rvalidc z) Pz) Hz')); apply (cls_self t Hcons), rvalidc; auto).
    pose proof (rcls_valid I RI z z' Pz Hz') as Pz'. assert (spc z' = true) as Sz' by (rewrite (spc_cls DI RI z z'); auto).
    destruct (T z a e Zz Ha He) as (_ & _ & Zr). apply Zr.
    assert (forall x', In x' (vlist z') -> ridx m (B b 0 0) <> ridx m x') as Nx.
    { intros x' Hx' Er. apply (aridx_neq DI RI m V) in Er; auto; [|apply (vlist_zero DI RI SU m D HR z' x' Pz' Sz' Hx')|apply Ob|apply (vlist_zero DI RI SU m D HR z' x' Pz' Sz' Hx')].
      subst x'. apply Nb. assert (In b (cls z')) as Hbz.
      { destruct (vlist_split DI RI SU z' _ Pz' Sz' Hx') as [(q & Hq & Eq)|(_ & q & a' & e' & Hq & Ha' & He' & Eq & _)]; apply (B_inj I RI) in Eq; auto; destruct Eq as (-> & _); exact Hq. }
      apply (vlist_cls DI RI z' b _ Pz' Hbz) in Hx'. apply (vlist_cls DI RI c b _ Hc Hb). exact Hx'. }
    rewrite Ev in Nx. intros [Er|[Er|[Er|[]]]]; symmetry in Er; revert Er; apply Nx; simpl; auto.
  - rewrite (elsewhere_thm D A _ x E (ex_intro _ c Hs) Hn).
    assert (rsum (drCols D) (fun _ => 0%R) = 0%R) as Z by (rewrite rsum_const; ring). rewrite <- Z. apply rsum_ext. intros k Hk.
    destruct (Nat.eq_dec k (cidx (sizes I) (B b 0 0))) as [Ek|Nk].
    + rewrite Ek. rewrite (cidx_dof DI RI) by auto. rewrite <- (corner_dof_B DI RI) by auto. change (fst (corner_dof DI b)) with (fst b).
      rewrite (HT b x); auto; [ring|apply sv_cls; auto].
    + rewrite R3 in Hk. destruct (cidx_onto (sizes I) k Hk) as (y & Hy & <-). destruct (akid_total DI RI RM m V y Hy) as (P & K).
      rewrite (E2 y P (ridx m (B b 0 0)) Hy K); [unfold Q2R; cbn; ring|]. intros w Hin. apply Nk. f_equal.
      apply (corner_row_only m D b y P w); auto.
Qed.
End G.
End S.
