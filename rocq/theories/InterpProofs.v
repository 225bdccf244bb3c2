(** Proofs for C87. *)
From Coq Require Import Reals Lra ZifyBool.
From Verif Require Import Common SplineModel SurfGDSpec SurfGDProofs KernProofs KernProofs2 ListLemmas AsmProofs AsmProofs2 BihSpec BihProofs BihProofs2 EdgeModel EdgeSpec EdgeProofs EdgeProofs2 GluingModel InterpModel InterpSpec.
Open Scope R_scope.

Section Values.
Variable ev dv : sbasis -> nat -> R -> R.
Variable solver : nat -> (nat -> nat -> R) -> (nat -> R) -> nat -> R.

Lemma swap n m f : sumTo n (fun i => sumTo m (fun j => f i j)) = sumTo m (fun j => sumTo n (fun i => f i j)).
Proof. induction n as [|n IH]; cbn [sumTo]; [symmetry; apply sumTo_zero; reflexivity|]. rewrite IH, <- sumTo_add. reflexivity. Qed.
Lemma spline2_grid bu bv c x : spline2 ev bu bv c x = sumTo (bsize bv) (fun v => sumTo (bsize bu) (fun u => c (u + bsize bu * v)%nat * ev bu u (fst x)) * ev bv v (snd x)).
Proof.
  unfold spline2. rewrite sumTo_grid. apply sumTo_ext. intros v _. rewrite Rmult_comm, <- sumTo_scal. apply sumTo_ext. intros u Lu. destruct (grid_mod (bsize bu) u v Lu) as (-> & ->). ring.
Qed.
Lemma spline1_sub b c d x : spline1 ev b (fun j => c j - d j) x = spline1 ev b c x - spline1 ev b d x.
Proof. unfold spline1. induction (bsize b) as [|n IH]; cbn [sumTo]; [ring|]. rewrite IH. ring. Qed.


Lemma interp1_ok b v k : collocates ev solver b -> (k < bsize b)%nat -> spline1 ev b (interp1 ev solver b v) (anchor b k) = v k.
Proof. intros S K. rewrite <- (S v k K). unfold spline1, interp1, collocation. apply sumTo_ext. intros. ring. Qed.

Lemma nth_map_seq {A} (f : nat -> A) n i d : (i < n)%nat -> nth i (map f (seq 0 n)) d = f i.
Proof. intros L. rewrite (nth_indep _ d (f 0%nat)) by (rewrite map_length, seq_length; lia). rewrite map_nth. rewrite seq_nth by lia. reflexivity. Qed.

Theorem interp_pf : forall bu bv f g, collocates ev solver bu -> collocates ev solver bv -> on_grid bu bv (fun x => f x = Ok (g x)) ->
  exists c, interpFunction ev solver bu bv f = Ok c /\ length c = (bsize bu * bsize bv)%nat /\ on_grid bu bv (fun x => spline2 ev bu bv (fun i => nth i c 0) x = g x).
Proof.
  intros bu bv f g SU SV F. unfold interpFunction. rewrite (EdgeProofs.mapM_map f g (anchors bu bv)).
  2: { intros x I. unfold anchors in I. apply in_map_iff in I. destruct I as (i & <- & I). apply in_seq in I. assert (bsize bu <> 0)%nat by (intros Z; rewrite Z in I; cbn in I; lia). apply F; [apply Nat.mod_upper_bound; lia|apply Nat.div_lt_upper_bound; lia]. }
  cbn [bind]. unfold interpolateAtAnchors, anchors. rewrite !map_length, seq_length, Nat.eqb_refl. cbn [ensure bind]. eexists. split; [reflexivity|]. split; [now rewrite map_length, seq_length|].
  intros k l K L. rewrite spline2_grid. cbn [fst snd].
  set (val := fun k l => g (anchor bu k, anchor bv l)).
  assert (VAL : forall k l, (k < bsize bu)%nat -> (l < bsize bv)%nat -> nth (k + bsize bu * l) (map g (map (fun i => (anchor bu (i mod bsize bu), anchor bv (i / bsize bu))) (seq 0 (bsize bu * bsize bv)))) 0 = val k l).
  { intros k' l' K' L'. rewrite map_map. rewrite nth_map_seq by nia. destruct (grid_mod (bsize bu) k' l' K') as (-> & ->). reflexivity. }
  set (vals := map g _) in *.
  set (p := fun l => interp1 ev solver bu (fun k => nth (k + bsize bu * l) vals 0)).
  transitivity (sumTo (bsize bv) (fun v => sumTo (bsize bu) (fun u => interp1 ev solver bv (fun l => p l u) v * ev bu u (anchor bu k)) * ev bv v (anchor bv l))).
  { apply sumTo_ext. intros v Lv. f_equal. apply sumTo_ext. intros u Lu. f_equal. rewrite nth_map_seq by nia. destruct (grid_mod (bsize bu) u v Lu) as (-> & ->). reflexivity. }
  transitivity (sumTo (bsize bu) (fun u => sumTo (bsize bv) (fun v => interp1 ev solver bv (fun l => p l u) v * ev bv v (anchor bv l)) * ev bu u (anchor bu k))).
  { transitivity (sumTo (bsize bv) (fun v => sumTo (bsize bu) (fun u => interp1 ev solver bv (fun l => p l u) v * ev bu u (anchor bu k) * ev bv v (anchor bv l)))).
    { apply sumTo_ext. intros v _. rewrite Rmult_comm, <- sumTo_scal. apply sumTo_ext. intros. ring. }
    rewrite swap. apply sumTo_ext. intros u _. symmetry. rewrite Rmult_comm, <- sumTo_scal. apply sumTo_ext. intros. ring. }
  transitivity (spline1 ev bu (p l) (anchor bu k)).
  { unfold spline1 at 1. apply sumTo_ext. intros u _. f_equal. exact (interp1_ok bv (fun l => p l u) l SV L). }
  unfold p. rewrite (interp1_ok bu _ k SU K). exact (VAL k l K L).
Qed.

Lemma regular2 bu bv c d : regular ev bu -> regular ev bv -> on_grid bu bv (fun x => spline2 ev bu bv c x = spline2 ev bu bv d x) -> forall i, (i < bsize bu * bsize bv)%nat -> c i = d i.
Proof.
  intros RU RV E i I. assert (NZ : (bsize bu <> 0)%nat) by (intros Z; rewrite Z in I; cbn in I; lia).
  assert (X : forall u v, (u < bsize bu)%nat -> (v < bsize bv)%nat -> c (u + bsize bu * v)%nat - d (u + bsize bu * v)%nat = 0).
  { intros u v Lu Lv. refine (RU (fun u => c (u + bsize bu * v)%nat - d (u + bsize bu * v)%nat) _ u Lu). intros k K.
    refine (RV (fun v => spline1 ev bu (fun u => c (u + bsize bu * v)%nat - d (u + bsize bu * v)%nat) (anchor bu k)) _ v Lv). intros l L.
    pose proof (E k l K L) as Q. cbv beta in Q. rewrite !spline2_grid in Q. cbn [fst snd] in Q. change (sumTo (bsize bv) (fun v => spline1 ev bu (fun u => c (u + bsize bu * v)%nat) (anchor bu k) * ev bv v (anchor bv l)) = sumTo (bsize bv) (fun v => spline1 ev bu (fun u => d (u + bsize bu * v)%nat) (anchor bu k) * ev bv v (anchor bv l))) in Q.
    pose proof (spline1_sub bv (fun v => spline1 ev bu (fun u => c (u + bsize bu * v)%nat) (anchor bu k)) (fun v => spline1 ev bu (fun u => d (u + bsize bu * v)%nat) (anchor bu k)) (anchor bv l)) as S.
    transitivity (spline1 ev bv (fun v => spline1 ev bu (fun u => c (u + bsize bu * v)%nat) (anchor bu k) - spline1 ev bu (fun u => d (u + bsize bu * v)%nat) (anchor bu k)) (anchor bv l)).
    { unfold spline1 at 1 3. apply sumTo_ext. intros w _. rewrite spline1_sub. reflexivity. }
    rewrite S. unfold spline1 at 1 3. lra. }
  pose proof (X (i mod bsize bu)%nat (i / bsize bu)%nat (Nat.mod_upper_bound _ _ NZ) (Nat.div_lt_upper_bound _ _ _ NZ I)) as Q. replace (i mod bsize bu + bsize bu * (i / bsize bu))%nat with i in Q by (pose proof (Nat.div_mod i (bsize bu) NZ); lia). lra.
Qed.

Theorem exact_interp_pf : forall bu bv f d, good ev solver bu -> good ev solver bv -> on_grid bu bv (fun x => f x = Ok (spline2 ev bu bv d x)) ->
  exists c, interpFunction ev solver bu bv f = Ok c /\ length c = (bsize bu * bsize bv)%nat /\ forall i, (i < bsize bu * bsize bv)%nat -> nth i c 0 = d i.
Proof.
  intros bu bv f d (SU & RU) (SV & RV) F. destruct (interp_pf bu bv f _ SU SV F) as (c & E & L & P). exists c. split; [exact E|]. split; [exact L|]. intros i I. exact (regular2 bu bv _ _ RU RV P i I).
Qed.
Theorem unique_pf : forall b f a, good ev solver b -> interpolates1 ev b f a -> forall j, (j < bsize b)%nat -> a j = interp1 ev solver b (fun k => f (anchor b k)) j.
Proof.
  intros b f a (S & R) I j J. assert (Z : a j - interp1 ev solver b (fun k => f (anchor b k)) j = 0); [|lra]. refine (R (fun j => a j - interp1 ev solver b (fun k => f (anchor b k)) j) _ j J). intros k K. rewrite spline1_sub, (I k K), (interp1_ok b _ k S K). ring.
Qed.
Lemma inter1 b f : good ev solver b -> interpolates1 ev b f (interp1 ev solver b (fun k => f (anchor b k))).
Proof. intros (S & _) k K. now rewrite (interp1_ok b _ k S K). Qed.

(** a function made of the first two functions across *)
Lemma layers_pf bu bv dir f g0 g1 a c : let b := across_basis bu bv dir in let e := along_basis bu bv dir in good ev solver b -> good ev solver e -> (2 <= bsize b)%nat ->
  (forall x, f x = Ok (ev b 0 (row x (1 - dir)) * g0 (row x dir) + ev b 1 (row x (1 - dir)) * g1 (row x dir))) -> interpolates1 ev e g0 a -> interpolates1 ev e g1 c ->
  exists r, interpFunction ev solver bu bv f = Ok r /\ layers_are (bsize bu) (bsize bv) dir r a c.
Proof.
  intros b e GB GE LB F IA IC.
  destruct (exact_interp_pf bu bv f (fun i => match layer (bsize bu) dir i with O => a (place (bsize bu) dir i) | S O => c (place (bsize bu) dir i) | _ => 0 end)) as (r & E & L & P).
  { unfold b, e, across_basis, along_basis in GB, GE. destruct dir; assumption. }
  { unfold b, e, across_basis, along_basis in GB, GE. destruct dir; assumption. }
  { intros k l K L. rewrite F. f_equal. unfold spline2. cbn [fst snd].
    pose proof (sum_layers (bsize bu) (bsize bv) dir (fun i => ev b i (row (anchor bu k, anchor bv l) (1 - dir))) (fun j => ev e j (row (anchor bu k, anchor bv l) dir)) a c) as S. cbv beta zeta in S.
    transitivity (sumTo (bsize bu * bsize bv) (fun i => match layer (bsize bu) dir i with O => a (place (bsize bu) dir i) | S O => c (place (bsize bu) dir i) | _ => 0 end * (ev b (layer (bsize bu) dir i) (row (anchor bu k, anchor bv l) (1 - dir)) * ev e (place (bsize bu) dir i) (row (anchor bu k, anchor bv l) dir)))).
    { rewrite S by (unfold across, b, across_basis in *; destruct dir; exact LB). unfold e, along_basis in *. destruct dir; cbn [row Nat.sub fst snd] in *; [rewrite <- (IA k K), <- (IC k K)|rewrite <- (IA l L), <- (IC l L)]; reflexivity. }
    apply sumTo_ext. intros i _. f_equal. unfold layer, place, b, e, across_basis, along_basis. destruct dir; cbn [row Nat.sub fst snd]; ring. }
  exists r. split; [exact E|]. split; [exact L|exact P].
Qed.
Lemma ev_ok b i x : (i < bsize b)%nat -> evAt ev b i x = Ok (ev b i x).
Proof. intros L. unfold evAt. unfold bsize in L. replace (i + sdeg b + 1 <? length (sknots b))%nat with true by lia. reflexivity. Qed.
Lemma dv_ok b i x : (i < bsize b)%nat -> dvAt dv b i x = Ok (dv b i x).
Proof. intros L. unfold dvAt. unfold bsize in L. replace (i + sdeg b + 1 <? length (sknots b))%nat with true by lia. reflexivity. Qed.
Lemma trace_at comp bp beta bdy i dir x : let b := comp (1 - dir)%nat in (2 <= bsize b)%nat -> (i < bsize bp)%nat ->
  traceAt ev dv comp bp beta bdy i dir x = Ok (ev b 0 (row x (1 - dir)) * ev bp i (row x dir) + ev b 1 (row x (1 - dir)) * slope_trace ev dv b bp beta bdy i (row x dir)).
Proof.
  intros b Lb Li. unfold traceAt. fold b. rewrite (tau_ok b Lb), !ev_ok, dv_ok by lia. cbn [bind]. f_equal. unfold slope_trace, Rdiv. ring.
Qed.
Lemma normal_at comp bm alpha bdy i dir x : let b := comp (1 - dir)%nat in (2 <= bsize b)%nat -> (i < bsize bm)%nat ->
  normalAt ev comp bm alpha bdy i dir x = Ok (ev b 1 (row x (1 - dir)) * slope_normal ev b bm alpha bdy dir i (row x dir)).
Proof.
  intros b Lb Li. unfold normalAt. fold b. rewrite (tau_ok b Lb), !ev_ok by lia. cbn [bind]. unfold slope_normal. destruct bdy; f_equal; unfold Rdiv; ring.
Qed.
(** the functions at an edge, the coefficients along the edge being those of univariate interpolation *)
Theorem edge_interp_pf : forall bu bv dir comp bp bm alpha beta bdy, let b := across_basis bu bv dir in let e := along_basis bu bv dir in good ev solver b -> good ev solver e -> (2 <= bsize b)%nat -> comp (1 - dir)%nat = b ->
  exists cs, edgeInterp ev dv solver bu bv dir comp bp bm alpha beta bdy = Ok cs /\ length cs = how_many bp bm /\
    (forall i a c, (3 <= i < bsize bp - 3)%nat -> interpolates1 ev e (ev bp i) a -> interpolates1 ev e (slope_trace ev dv b bp beta bdy i) c ->
       exists r, nth_error cs (i - 3) = Some r /\ layers_are (bsize bu) (bsize bv) dir r a c) /\
    (forall i c, (2 <= i < bsize bm - 2)%nat -> interpolates1 ev e (slope_normal ev b bm alpha bdy dir i) c ->
       exists r, nth_error cs (bsize bp - 6 + (i - 2)) = Some r /\ layers_are (bsize bu) (bsize bv) dir r (fun _ => 0) c).
Proof.
  intros bu bv dir comp bp bm alpha beta bdy b e GB GE LB CB. unfold edgeInterp.
  destruct (mapM_ok_all (fun i => interpFunction ev solver bu bv (traceAt ev dv comp bp beta bdy i dir)) (fun k r => forall a c, interpolates1 ev e (ev bp (3 + k)) a -> interpolates1 ev e (slope_trace ev dv b bp beta bdy (3 + k)) c -> layers_are (bsize bu) (bsize bv) dir r a c) (seq 3 (bsize bp - 6))) as (A & EA & LA & PA).
  { intros k x H. apply nth_seq in H. destruct H as (-> & K).
    assert (F : forall x, traceAt ev dv comp bp beta bdy (3 + k) dir x = Ok (ev b 0 (row x (1 - dir)) * ev bp (3 + k) (row x dir) + ev b 1 (row x (1 - dir)) * slope_trace ev dv b bp beta bdy (3 + k) (row x dir))) by (intros x; rewrite trace_at by (rewrite ?CB; lia); rewrite CB; reflexivity).
    destruct (layers_pf bu bv dir _ _ _ _ _ GB GE LB F (inter1 e _ GE) (inter1 e _ GE)) as (r & E & _). exists r. split; [exact E|]. intros a c IA IC. destruct (layers_pf bu bv dir _ _ _ a c GB GE LB F IA IC) as (r' & E' & Q). rewrite E in E'. injection E' as <-. exact Q. }
  destruct (mapM_ok_all (fun i => interpFunction ev solver bu bv (normalAt ev comp bm alpha bdy i dir)) (fun k r => forall c, interpolates1 ev e (slope_normal ev b bm alpha bdy dir (2 + k)) c -> layers_are (bsize bu) (bsize bv) dir r (fun _ => 0) c) (seq 2 (bsize bm - 4))) as (B & EB & LLB & PB).
  { intros k x H. apply nth_seq in H. destruct H as (-> & K).
    assert (F : forall x, normalAt ev comp bm alpha bdy (2 + k) dir x = Ok (ev b 0 (row x (1 - dir)) * (fun _ => 0) (row x dir) + ev b 1 (row x (1 - dir)) * slope_normal ev b bm alpha bdy dir (2 + k) (row x dir))) by (intros x; rewrite normal_at by (rewrite ?CB; lia); rewrite CB; unfold slope_normal; f_equal; ring).
    assert (Z0 : interpolates1 ev e (fun _ => 0) (fun _ => 0)) by (intros q _; apply sumTo_zero; intros; ring).
    destruct (layers_pf bu bv dir _ _ _ _ _ GB GE LB F Z0 (inter1 e _ GE)) as (r & E & _). exists r. split; [exact E|]. intros c IC. destruct (layers_pf bu bv dir _ _ _ _ c GB GE LB F Z0 IC) as (r' & E' & Q). rewrite E in E'. injection E' as <-. exact Q. }
  rewrite EA. cbn [bind]. rewrite EB. cbn [bind]. rewrite seq_length in LA, LLB. exists (A ++ B). split; [reflexivity|]. split; [rewrite app_length; unfold how_many; lia|]. split.
  - intros i a c I IA IC. destruct (nth_error A (i - 3)) as [r|] eqn:N; [|apply nth_error_None in N; lia]. exists r. split; [rewrite nth_error_app1 by lia; exact N|]. apply (PA _ _ N); replace (3 + (i - 3))%nat with i by lia; assumption.
  - intros i c I IC. destruct (nth_error B (i - 2)) as [r|] eqn:N; [|apply nth_error_None in N; lia]. exists r. split; [rewrite nth_error_app2 by lia; rewrite LA; replace (bsize bp - 6 + (i - 2) - (bsize bp - 6))%nat with (i - 2)%nat by lia; exact N|]. apply (PB _ _ N). replace (2 + (i - 2))%nat with i by lia. assumption.
Qed.
(** both patches at an interface: no assumption that the functions be splines *)
Theorem interface_interp_pf : forall e bu bv comp comp' bp bm alpha beta alpha' beta', good ev solver e -> good ev solver bu -> good ev solver bv -> (2 <= bsize bu)%nat -> (2 <= bsize bv)%nat -> comp 0%nat = bu -> comp' 1%nat = bv ->
  exists cs cs', edgeInterp ev dv solver bu e 1 comp bp bm alpha beta false = Ok cs /\ edgeInterp ev dv solver e bv 0 comp' bp bm alpha' beta' false = Ok cs' /\ length cs = how_many bp bm /\ length cs' = how_many bp bm /\
    (forall i, (3 <= i < bsize bp - 3)%nat -> exists r r', nth_error cs (i - 3) = Some r /\ nth_error cs' (i - 3) = Some r' /\ forall j, (j < bsize e)%nat -> nth (bsize bu * j) r 0 = nth j r' 0) /\
    (forall i, (2 <= i < bsize bm - 2)%nat -> exists r r', nth_error cs (bsize bp - 6 + (i - 2)) = Some r /\ nth_error cs' (bsize bp - 6 + (i - 2)) = Some r' /\ forall j, (j < bsize e)%nat -> nth (bsize bu * j) r 0 = 0 /\ nth j r' 0 = 0).
Proof.
  intros e bu bv comp comp' bp bm alpha beta alpha' beta' GE GU GV LU LV CU CV.
  destruct (edge_interp_pf bu e 1 comp bp bm alpha beta false GU GE LU CU) as (cs & E & L & T & N). destruct (edge_interp_pf e bv 0 comp' bp bm alpha' beta' false GV GE LV CV) as (cs' & E' & L' & T' & N').
  cbn [across_basis along_basis] in T, N, T', N'.
  exists cs, cs'. split; [exact E|]. split; [exact E'|]. split; [exact L|]. split; [exact L'|].
  assert (I1 : forall j, (j < bsize e)%nat -> (bsize bu * j < bsize bu * bsize e)%nat /\ layer (bsize bu) 1 (bsize bu * j) = 0%nat /\ place (bsize bu) 1 (bsize bu * j) = j).
  { intros j J. unfold layer, place. destruct (grid_mod (bsize bu) 0 j ltac:(lia)) as (M & D). cbn [Nat.add] in M, D. rewrite M, D. repeat split. nia. }
  assert (I2 : forall j, (j < bsize e)%nat -> (j < bsize e * bsize bv)%nat /\ layer (bsize e) 0 j = 0%nat /\ place (bsize e) 0 j = j).
  { intros j J. unfold layer, place. rewrite Nat.div_small, Nat.mod_small by lia. repeat split. nia. }
  split.
  - intros i I. destruct (T i _ _ I (inter1 e _ GE) (inter1 e _ GE)) as (r & R & _ & P). destruct (T' i _ _ I (inter1 e _ GE) (inter1 e _ GE)) as (r' & R' & _ & P'). exists r, r'. split; [exact R|]. split; [exact R'|]. intros j J.
    destruct (I1 j J) as (X1 & X2 & X3). destruct (I2 j J) as (Y1 & Y2 & Y3). rewrite (P _ X1), (P' _ Y1), X2, Y2, X3, Y3. reflexivity.
  - intros i I. destruct (N i _ I (inter1 e _ GE)) as (r & R & _ & P). destruct (N' i _ I (inter1 e _ GE)) as (r' & R' & _ & P'). exists r, r'. split; [exact R|]. split; [exact R'|]. intros j J.
    destruct (I1 j J) as (X1 & X2 & X3). destruct (I2 j J) as (Y1 & Y2 & Y3). rewrite (P _ X1), (P' _ Y1), X2, Y2. split; reflexivity.
Qed.
(** the condition of first-order smoothness in the anchors along the edge *)
Theorem gluing_interp_pf : forall e bu bv comp comp' bp bm alpha beta alpha' beta', good ev solver e -> good ev solver bu -> good ev solver bv -> (2 <= bsize bu)%nat -> (2 <= bsize bv)%nat -> clamped_enough bu -> clamped_enough bv -> comp 0%nat = bu -> comp' 1%nat = bv ->
  exists cs cs', edgeInterp ev dv solver bu e 1 comp bp bm alpha beta false = Ok cs /\ edgeInterp ev dv solver e bv 0 comp' bp bm alpha' beta' false = Ok cs' /\
    (forall i, (3 <= i < bsize bp - 3)%nat -> exists r r', nth_error cs (i - 3) = Some r /\ nth_error cs' (i - 3) = Some r' /\ forall l, (l < bsize e)%nat -> let y := anchor e l in
       edge_value ev e (bsize bu) r y = ev bp i y /\ edge_value ev e 1 r' y = ev bp i y /\
       edge_slope ev bu e (bsize bu) 1 r y = - (beta y * dv bp i y) /\ edge_slope ev bv e 1 (bsize e) r' y = - (beta' y * dv bp i y) /\
       alpha' y * edge_slope ev bu e (bsize bu) 1 r y + alpha y * edge_slope ev bv e 1 (bsize e) r' y + (alpha' y * beta y + alpha y * beta' y) * dv bp i y = 0) /\
    (forall i, (2 <= i < bsize bm - 2)%nat -> exists r r', nth_error cs (bsize bp - 6 + (i - 2)) = Some r /\ nth_error cs' (bsize bp - 6 + (i - 2)) = Some r' /\ forall l, (l < bsize e)%nat -> let y := anchor e l in
       edge_value ev e (bsize bu) r y = 0 /\ edge_value ev e 1 r' y = 0 /\ edge_slope ev bu e (bsize bu) 1 r y = alpha y * ev bm i y /\ edge_slope ev bv e 1 (bsize e) r' y = - (alpha' y * ev bm i y) /\
       alpha' y * edge_slope ev bu e (bsize bu) 1 r y + alpha y * edge_slope ev bv e 1 (bsize e) r' y = 0).
Proof.
  intros e bu bv comp comp' bp bm alpha beta alpha' beta' GE GU GV LU LV (PU & TU) (PV & TV) CU CV.
  destruct (edge_interp_pf bu e 1 comp bp bm alpha beta false GU GE LU CU) as (cs & E & L & T & N). destruct (edge_interp_pf e bv 0 comp' bp bm alpha' beta' false GV GE LV CV) as (cs' & E' & L' & T' & N').
  cbn [across_basis along_basis] in T, N, T', N'.
  exists cs, cs'. split; [exact E|]. split; [exact E'|]. apply lt_INR in PU, PV. change (INR 0) with 0 in PU, PV.
  assert (I1 : forall q j, (q < 2)%nat -> (j < bsize e)%nat -> (q + bsize bu * j < bsize bu * bsize e)%nat /\ layer (bsize bu) 1 (q + bsize bu * j) = q /\ place (bsize bu) 1 (q + bsize bu * j) = j).
  { intros q j Q J. unfold layer, place. destruct (grid_mod (bsize bu) q j ltac:(lia)) as (M & D). rewrite M, D. repeat split. nia. }
  assert (I2 : forall q j, (q < 2)%nat -> (j < bsize e)%nat -> (q * bsize e + j < bsize e * bsize bv)%nat /\ layer (bsize e) 0 (q * bsize e + j) = q /\ place (bsize e) 0 (q * bsize e + j) = j).
  { intros q j Q J. unfold layer, place. destruct (grid_mod (bsize e) j q J) as (M & D). replace (q * bsize e + j)%nat with (j + bsize e * q)%nat by lia. rewrite M, D. repeat split. nia. }
  assert (S1 : forall r a c y, layers_are (bsize bu) (bsize e) 1 r a c -> edge_value ev e (bsize bu) r y = spline1 ev e a y /\ edge_slope ev bu e (bsize bu) 1 r y = INR (sdeg bu) / tknot bu (sdeg bu + 1) * (spline1 ev e c y - spline1 ev e a y)).
  { intros r a c y (_ & P). split; [|unfold edge_slope; f_equal; rewrite <- spline1_sub]; unfold edge_value, spline1; apply sumTo_ext; intros j J; f_equal; destruct (I1 0%nat j ltac:(lia) J) as (X1 & X2 & X3); destruct (I1 1%nat j ltac:(lia) J) as (Y1 & Y2 & Y3); cbn [Nat.add] in X1, X2, X3.
    - rewrite (P _ X1), X2, X3. reflexivity.
    - rewrite (P _ X1), (P _ Y1), X2, X3, Y2, Y3. reflexivity. }
  assert (S2 : forall r a c y, layers_are (bsize e) (bsize bv) 0 r a c -> edge_value ev e 1 r y = spline1 ev e a y /\ edge_slope ev bv e 1 (bsize e) r y = INR (sdeg bv) / tknot bv (sdeg bv + 1) * (spline1 ev e c y - spline1 ev e a y)).
  { intros r a c y (_ & P). split; [|unfold edge_slope; f_equal; rewrite <- spline1_sub]; unfold edge_value, spline1; apply sumTo_ext; intros j J; f_equal; destruct (I2 0%nat j ltac:(lia) J) as (X1 & X2 & X3); destruct (I2 1%nat j ltac:(lia) J) as (Y1 & Y2 & Y3); rewrite ?Nat.mul_1_l; cbn [Nat.mul Nat.add] in X1, X2, X3; rewrite Nat.mul_1_l in Y1, Y2, Y3.
    - rewrite (P _ X1), X2, X3. reflexivity.
    - rewrite (P _ X1), (P _ Y1), X2, X3, Y2, Y3. reflexivity. }
  assert (Z0 : forall y, spline1 ev e (fun _ => 0) y = 0) by (intros; apply sumTo_zero; intros; ring).
  split.
  - intros i I. destruct (T i _ _ I (inter1 e _ GE) (inter1 e _ GE)) as (r & R & P). destruct (T' i _ _ I (inter1 e _ GE) (inter1 e _ GE)) as (r' & R' & P'). exists r, r'. split; [exact R|]. split; [exact R'|]. intros l Ll y.
    destruct (S1 r _ _ y P) as (V1 & D1). destruct (S2 r' _ _ y P') as (V2 & D2). unfold y in V1, V2, D1, D2. rewrite (inter1 e (ev bp i) GE l Ll) in V1, V2, D1, D2. rewrite (inter1 e (slope_trace ev dv bu bp beta false i) GE l Ll) in D1. rewrite (inter1 e (slope_trace ev dv bv bp beta' false i) GE l Ll) in D2. fold y in V1, V2, D1, D2. unfold slope_trace in D1, D2. cbv iota in D1, D2.
    assert (Q1 : edge_slope ev bu e (bsize bu) 1 r y = - (beta y * dv bp i y)) by (rewrite D1; field; lra).
    assert (Q2 : edge_slope ev bv e 1 (bsize e) r' y = - (beta' y * dv bp i y)) by (rewrite D2; field; lra).
    split; [exact V1|]. split; [exact V2|]. split; [exact Q1|]. split; [exact Q2|]. rewrite Q1, Q2. ring.
  - intros i I. destruct (N i _ I (inter1 e _ GE)) as (r & R & P). destruct (N' i _ I (inter1 e _ GE)) as (r' & R' & P'). exists r, r'. split; [exact R|]. split; [exact R'|]. intros l Ll y.
    destruct (S1 r _ _ y P) as (V1 & D1). destruct (S2 r' _ _ y P') as (V2 & D2). unfold y in V1, V2, D1, D2. rewrite (inter1 e (slope_normal ev bu bm alpha false 1 i) GE l Ll), Z0 in D1. rewrite (inter1 e (slope_normal ev bv bm alpha' false 0 i) GE l Ll), Z0 in D2. rewrite Z0 in V1, V2. fold y in V1, V2, D1, D2. unfold slope_normal in D1, D2. cbv iota in D1, D2.
    assert (Q1 : edge_slope ev bu e (bsize bu) 1 r y = alpha y * ev bm i y) by (rewrite D1; field; lra).
    assert (Q2 : edge_slope ev bv e 1 (bsize e) r' y = - (alpha' y * ev bm i y)) by (rewrite D2; field; lra).
    split; [exact V1|]. split; [exact V2|]. split; [exact Q1|]. split; [exact Q2|]. rewrite Q1, Q2. ring.
Qed.
Theorem vertex_interp_pf : forall bu bv fs gs, good ev solver bu -> good ev solver bv -> (forall j, (j < 6)%nat -> on_grid bu bv (fun x => fs j x = Ok (gs j x))) ->
  exists cs, vertexInterp ev solver bu bv fs = Ok cs /\ length cs = 6%nat /\ forall j, (j < 6)%nat -> exists c, nth_error cs j = Some c /\ length c = (bsize bu * bsize bv)%nat /\
    on_grid bu bv (fun x => spline2 ev bu bv (fun i => nth i c 0) x = gs j x) /\ forall d, on_grid bu bv (fun x => spline2 ev bu bv d x = gs j x) -> forall i, (i < bsize bu * bsize bv)%nat -> nth i c 0 = d i.
Proof.
  intros bu bv fs gs (SU & RU) (SV & RV) F. unfold vertexInterp.
  destruct (mapM_ok_all (fun bfID => interpFunction ev solver bu bv (fs bfID)) (fun j c => length c = (bsize bu * bsize bv)%nat /\ on_grid bu bv (fun x => spline2 ev bu bv (fun i => nth i c 0) x = gs j x) /\ forall d, on_grid bu bv (fun x => spline2 ev bu bv d x = gs j x) -> forall i, (i < bsize bu * bsize bv)%nat -> nth i c 0 = d i) (seq 0 6)) as (cs & E & L & P).
  { intros k x H. apply nth_seq in H. destruct H as (-> & K). destruct (interp_pf bu bv (fs k) (gs k) SU SV (F k K)) as (c & E & L & Q). exists c. split; [exact E|]. split; [exact L|]. split; [exact Q|]. intros d D i I. apply (regular2 bu bv (fun i => nth i c 0) d RU RV); [|exact I]. intros a b A B. rewrite (Q a b A B). symmetry. exact (D a b A B). }
  exists cs. rewrite seq_length in L. split; [exact E|]. split; [exact L|]. intros j J. destruct (nth_error cs j) as [c|] eqn:N; [|apply nth_error_None in N; lia]. exists c. split; [reflexivity|]. exact (P j c N).
Qed.
End Values.

(** with the values of SplineModel.v these are the functions of GluingModel.v *)
Theorem same_pf : (forall comp bp beta bdy i dir x, traceAt (fun b => bspl (tknot b) (sdeg b)) (fun b => dbspl (tknot b) (sdeg b)) comp bp beta bdy i dir x = traceEval comp bp beta bdy i dir x) /\
  forall comp bm alpha bdy i dir x, normalAt (fun b => bspl (tknot b) (sdeg b)) comp bm alpha bdy i dir x = normalEval comp bm alpha bdy i dir x.
Proof. split; reflexivity. Qed.
