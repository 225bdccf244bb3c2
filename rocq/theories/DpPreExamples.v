(** Concrete multipatches for C70. *)
From Verif Require Import Common TopoModel BaseModel IndexSpec TopoSpec SmoothSpec SmoothSpec2 SmoothExamples RingModel RingSpec DpModel DpSpec
  DpPreModel DpPreSpec ListLemmas TopoProofs PointProofs GeometryProofs RingInstance RingExamples DpProofs4 DpExamples DpPreProofs.
From Coq Require Import ZifyBool.

(** the fan of three patches; corner 4 of patch 0, a vertex of a single patch, is marked sharp *)
Definition fan_flag : input := mkIn fan_topo [(5, 5); (5, 5); (5, 5)] ([false; false; false; true] ++ repeat false 8).
Lemma fan_flag_wf : well_formed fan_flag. Proof. wf. Qed.
(** the same fan with the last patch rotated *)
Definition turned_topo : topo :=
  mkT 3 [mkI (0, West) (1, South) false; mkI (1, West) (2, East) false]
      [(2, South); (0, South); (0, East); (0, North); (1, East); (1, North); (2, West); (2, North)].
Definition turned : input := mkIn turned_topo [(5, 5); (5, 5); (5, 5)] [true; false; false; false; true; false; false; false; false; true; false; false].
Lemma turned_wf : well_formed turned. Proof. wf. Qed.

Lemma fan_in : dp_input (dtensor fan).
Proof. apply tensor_pf; [exact fan_wf|]. apply (sup_check fan _ fan_wf). vm_compute. reflexivity. Qed.
Lemma fan_flag_in : dp_input (dtensor fan_flag).
Proof. apply tensor_pf; [exact fan_flag_wf|]. apply (sup_check fan_flag _ fan_flag_wf). vm_compute. reflexivity. Qed.
Lemma turned_in : dp_input (dtensor turned).
Proof. apply tensor_pf; [exact turned_wf|]. apply (sup_check turned _ turned_wf). vm_compute. reflexivity. Qed.

Lemma fan_check DI c c1 c2 c3 : dp_input DI -> fst c < length (ribases (dring DI)) -> NoDup [c1; c2; c3] ->
  cls (ritopo (dring DI)) c = [c2; c1; c3] \/ cls (ritopo (dring DI)) c = [c1; c2; c3] ->
  outer_corner DI c1 -> outer_corner DI c3 -> ~ outer_corner DI c2 -> fan_of DI c c1 c2 c3.
Proof.
  intros [RI _ _] Hc N E O1 O3 O2. pose proof (ri_topo _ RI) as Hcons.
  assert (forall b, In b [c1; c2; c3] <-> same_vertex (ritopo (dring DI)) c b) as Hl.
  { intros b. rewrite (same_vertex_cls _ Hcons c b) by (apply (RingProofs2.rvalidc _ RI); auto). destruct E as [-> | ->]; simpl; tauto. }
  split; auto. split.
  - intros Hi. destruct O1 as (s & H1 & H2). destruct (Hi c1 s) as (f & Hf & Ef); auto; [apply Hl; simpl; auto|].
    apply (iface_not_bd _ Hcons (fst c1, s)); auto. apply in_flat_map. exists f. split; auto. destruct Ef as [<-|<-]; simpl; auto.
  - split; [exists [c1; c2; c3]; auto|]. auto 10.
Qed.
Ltac outr := first [exists West; split; [reflexivity|simpl; tauto]|exists South; split; [reflexivity|simpl; tauto]|exists East; split; [reflexivity|simpl; tauto]].

(** no refinement; the control point at corner [c] of each patch is one, the others are zero *)
Definition no_refine : list tmat := repeat (mkTM 0 0 (fun _ _ => 0%Q)) 3.
Definition spike (l : list nat) : list (list Q) := map (fun i => map (fun k => if k =? i then 1%Q else 0%Q) (seq 0 25)) l.

Lemma nth_error_Some_lt {A} (l : list A) k u : nth_error l k = Some u -> k < length l.
Proof. intros H. apply nth_error_Some. congruence. Qed.

Definition pre_of (X : input) (T : list tmat) (P : list (list Q)) (f : dresult -> list Q -> bool) : bool :=
  match dCompute (dtensor X) with
  | Ok R => match dpPre (dring (dtensor X)) (drMap R) T P with Ok v => f R v | Err => false end
  | Err => false
  end.
Lemma pre_of_true X T P f : pre_of X T P f = true -> exists R v, dCompute (dtensor X) = Ok R /\ dpPre (dring (dtensor X)) (drMap R) T P = Ok v /\ f R v = true.
Proof.
  unfold pre_of. destruct (dCompute (dtensor X)) as [R|]; [|discriminate]. destruct (dpPre _ (drMap R) T P) as [v|] eqn:E; [|discriminate]. eauto.
Qed.

Lemma spike_fits X l : ibases X = [(5, 5); (5, 5); (5, 5)] -> length l = 3 -> fits_refined (dtensor X) no_refine (spike l).
Proof.
  intros E L. unfold fits_refined. cbn [dtensor dring ribases]. rewrite E, map_length. unfold no_refine, spike. rewrite repeat_length, map_length. split; auto. split; auto.
  intros p b M cs Hb HM Hcs. apply nth_error_In, repeat_spec in HM. subst M. cbn [tmRows tmCols Nat.eqb orb].
  apply nth_error_In, in_map_iff in Hcs. destruct Hcs as (i & <- & _). rewrite map_length, seq_length.
  apply nth_error_In in Hb. simpl in Hb. destruct Hb as [<-|[<-|[<-|[]]]]; reflexivity.
Qed.
Lemma spike_at l p i k u : nth_error l p = Some i -> transferred no_refine (spike l) p k u -> k < 25 /\ u = if k =? i then 1%Q else 0%Q.
Proof.
  intros E (M & cs & HM & Hcs & H). apply nth_error_In, repeat_spec in HM. subst M. cbn [tmRows tmCols] in H. destruct H as [[_ H]|[H _]]; [|lia].
  unfold spike in Hcs. rewrite nth_error_map, E in Hcs. cbn [option_map] in Hcs. assert (map (fun k => if k =? i then 1%Q else 0%Q) (seq 0 25) = cs) as <- by congruence. assert (k < 25) as Hk by (apply nth_error_Some_lt in H; rewrite map_length, seq_length in H; exact H).
  split; auto. rewrite nth_error_map in H. assert (nth_error (seq 0 25) k = Some k) as Es by (rewrite (nth_error_nth' _ 0) by (rewrite seq_length; lia); rewrite seq_nth by lia; reflexivity).
  rewrite Es in H. cbn [option_map] in H. congruence.
Qed.

Lemma fan_fan : fan_of (dtensor fan) (0, SW) (0, SW) (1, SW) (2, SW).
Proof.
  apply fan_check; [exact fan_in|simpl; lia|nd|right; vm_compute; reflexivity|exists South; simpl; tauto|exists West; simpl; tauto|].
  intros (s & H & Hb). destruct s; simpl in H; try contradiction; simpl in Hb; intuition discriminate.
Qed.
Lemma fan_flag_fan : fan_of (dtensor fan_flag) (0, SW) (0, SW) (1, SW) (2, SW).
Proof.
  apply fan_check; [exact fan_flag_in|simpl; lia|nd|right; vm_compute; reflexivity|exists South; simpl; tauto|exists West; simpl; tauto|].
  intros (s & H & Hb). destruct s; simpl in H; try contradiction; simpl in Hb; intuition discriminate.
Qed.
Lemma turned_fan : fan_of (dtensor turned) (0, SW) (0, SW) (1, SW) (2, SE).
Proof.
  apply fan_check; [exact turned_in|simpl; lia|nd|right; vm_compute; reflexivity|exists South; simpl; tauto|exists South; simpl; tauto|].
  intros (s & H & Hb). destruct s; simpl in H; try contradiction; simpl in Hb; intuition discriminate.
Qed.

Lemma smooth_refuted_pf : exists I T P R v c1 c2 c3 s, dp_input I /\ fits_refined I T P /\ dCompute I = Ok R /\ dpPre (dring I) (drMap R) T P = Ok v /\
  fan_of I c1 c1 c2 c3 /\ (forall b, In b [c1; c2; c3] -> nth_error (riC0 (dring I)) (vertIndex b) = Some false) /\ touches (snd c1) s /\
  let g b := dcontrol R (coef_of v) (inner_column I b) in ~ (dcontrol R (coef_of v) (vcolumn I c1 s 0 0) == (1 # 2) * (g c1 + g c3))%Q.
Proof.
  destruct (pre_of_true fan_flag no_refine (spike [0; 0; 0]) (fun R v => negb (Qeq_bool (dcontrol R (coef_of v) (vcolumn (dtensor fan_flag) (0, SW) West 0 0))
    ((1 # 2) * (dcontrol R (coef_of v) (inner_column (dtensor fan_flag) (0, SW)) + dcontrol R (coef_of v) (inner_column (dtensor fan_flag) (2, SW))))))) as (R & v & E & Ev & F).
  { vm_compute. reflexivity. }
  exists (dtensor fan_flag), no_refine, (spike [0; 0; 0]), R, v, (0, SW), (1, SW), (2, SW), West. split; [exact fan_flag_in|]. split; [apply spike_fits; reflexivity|].
  split; auto. split; auto. split; [exact fan_flag_fan|]. split; [intros b [<-|[<-|[<-|[]]]]; reflexivity|]. split; [exact Logic.I|].
  intros g Hg. apply Qeq_bool_iff in Hg. unfold g in Hg. rewrite Hg in F. discriminate.
Qed.

Lemma sharp_refuted_pf : exists I T P R v c1 c2 c3 s, dp_input I /\ fits_refined I T P /\ dCompute I = Ok R /\ dpPre (dring I) (drMap R) T P = Ok v /\
  fan_of I c1 c1 c2 c3 /\ (forall b, In b [c1; c2; c3] -> nth_error (riC0 (dring I)) (vertIndex b) = Some true) /\ touches (snd c1) s /\
  let g b := dcontrol R (coef_of v) (inner_column I b) in
  forall b u, In b [c1; c2; c3] -> transferred T P (fst b) (rcorner (basis_at I (fst b)) (snd b)) u ->
    ~ (dcontrol R (coef_of v) (vcolumn I c1 s 0 0) == (1 # 4) * (u + g c1 + g c2 + g c3))%Q.
Proof.
  destruct (pre_of_true turned no_refine (spike [0; 0; 4]) (fun R v => negb (Qeq_bool (dcontrol R (coef_of v) (vcolumn (dtensor turned) (0, SW) West 0 0))
    ((1 # 4) * (1 + dcontrol R (coef_of v) (inner_column (dtensor turned) (0, SW)) + dcontrol R (coef_of v) (inner_column (dtensor turned) (1, SW))
                + dcontrol R (coef_of v) (inner_column (dtensor turned) (2, SE))))))) as (R & v & E & Ev & F).
  { vm_compute. reflexivity. }
  exists (dtensor turned), no_refine, (spike [0; 0; 4]), R, v, (0, SW), (1, SW), (2, SE), West. split; [exact turned_in|]. split; [apply spike_fits; reflexivity|].
  split; auto. split; auto. split; [exact turned_fan|]. split; [intros b [<-|[<-|[<-|[]]]]; reflexivity|]. split; [exact Logic.I|].
  intros g b u Hb Hu Hg. assert (u = 1%Q) as ->.
  { destruct Hb as [<-|[<-|[<-|[]]]]; cbn [fst snd] in Hu; [apply (spike_at _ _ 0) in Hu|apply (spike_at _ _ 0) in Hu|apply (spike_at _ _ 4) in Hu];
      try reflexivity; destruct Hu as [_ ->]; vm_compute; reflexivity. }
  apply Qeq_bool_iff in Hg. unfold g in Hg. rewrite Hg in F. discriminate.
Qed.

Lemma dpre_nonvacuous_pf : dp_input (dtensor fan) /\ fan_of (dtensor fan) (0, SW) (0, SW) (1, SW) (2, SW) /\
  fits_refined (dtensor fan) no_refine (spike [6; 0; 0]) /\ exists R v, dCompute (dtensor fan) = Ok R /\
  dpPre (dring (dtensor fan)) (drMap R) no_refine (spike [6; 0; 0]) = Ok v /\
  (dcontrol R (coef_of v) (vcolumn (dtensor fan) (1%nat, SW) West 0 0) == 1 # 2)%Q.
Proof.
  split; [exact fan_in|]. split; [exact fan_fan|]. split; [apply spike_fits; reflexivity|].
  destruct (pre_of_true fan no_refine (spike [6; 0; 0]) (fun R v => Qeq_bool (dcontrol R (coef_of v) (vcolumn (dtensor fan) (1, SW) West 0 0)) (1 # 2))) as (R & v & E & Ev & F).
  { vm_compute. reflexivity. }
  exists R, v. split; auto. split; auto. apply Qeq_bool_iff. exact F.
Qed.
