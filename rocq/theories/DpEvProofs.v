(** Proofs for C73. *)
From Coq Require Import Reals Qreals Lra.
From Verif Require Import Common TopoModel BaseModel BaseModel2 IndexSpec TopoSpec SmoothSpec SmoothSpec2 RingModel RingSpec DpModel DpSpec
  IndexProofs IndexTopoProofs ListLemmas TopoProofs PointProofs MapperProofs CountProofs MatrixProofs HandlerProofs ResultProofs GeometryProofs
  RingProofs RingProofs2 RingProofs3 DpProofs DpProofs2 DpProofs3 DpProofs4 PiModel PiSpec PiProofs EvModel EvSpec EvProofs3 DpEvModel DpEvSpec.
From Verif Require EvProofs2 AcProofs7.
From Coq Require Import ZifyBool.
Open Scope nat_scope.

(** *** Functions near a corner *)
Lemma side_is c s : on_side c s = true -> s = cside c (side_dir s).
Proof. intros H. symmetry. now apply cside_of_on. Qed.
Lemma ring_swap B : ring_like B -> forall c k o, k <= 1 -> o <= 1 -> rifv B k c (cside c 0) o = rifv B o c (cside c 1) k.
Proof.
  intros RL c k o K O'. apply (rl_meet B RL c (cside c 1) (cside c 0) o k); try (apply touches_on, on_side_iff_cside; auto); try lia.
  - destruct c; discriminate.
  - apply and_comm. apply (rl_meet B RL c (cside c 0) (cside c 1) k o); try (apply touches_on, on_side_iff_cside; auto); try lia. destruct c; discriminate.
Qed.
Section W.
Context (B : rbasis) (SW : forall c k o, k <= 1 -> o <= 1 -> rifv B k c (cside c 0) o = rifv B o c (cside c 1) k).
Lemma fun_dir0 c k o : k <= 3 -> o <= 1 -> function_at B c o k = rifv B k c (cside c 0) o.
Proof. intros K O'. unfold function_at. destruct (Nat.leb_spec k 1); [symmetry; now apply SW|reflexivity]. Qed.
Lemma fun_dir1 c k o : o <= 1 -> function_at B c k o = rifv B k c (cside c 1) o.
Proof. intros O'. unfold function_at. destruct (Nat.leb_spec o 1); [reflexivity|lia]. Qed.
Lemma fun_side c s k o : on_side c s = true -> k <= 3 -> o <= 1 ->
  match side_dir s with 0 => function_at B c o k | _ => function_at B c k o end = rifv B k c s o.
Proof.
  intros ON K O'. rewrite (side_is c s ON) at 2. pose proof (side_dir_lt s) as H. destruct (side_dir s) as [|[|d]]; [|..|lia]; [now apply fun_dir0|now apply fun_dir1].
Qed.
End W.
Notation nobasis := (mkRB 0 (fun _ _ => []) (fun _ => 0) (fun _ _ _ _ => 0)).
Lemma along_column bases (c : pcorner) s k o : (forall d k o, k <= 1 -> o <= 1 -> rifv (nth (fst c) bases nobasis) k d (cside d 0) o = rifv (nth (fst c) bases nobasis) o d (cside d 1) k) ->
  on_side (snd c) s = true -> k <= 3 -> o <= 1 -> EvSpec.along (column_of bases) c s k o = sumN (map rsize (firstn (fst c) bases)) + rifv (nth (fst c) bases nobasis) k (snd c) s o.
Proof.
  intros SW ON K O'. rewrite <- (fun_side _ SW (snd c) s k o ON K O'). unfold EvSpec.along, column_of. destruct (side_dir s); reflexivity.
Qed.

(** *** Columns of the refined bases *)
Lemma blocks_inj (sizes : list nat) p q x y : p < length sizes -> q < length sizes -> x < nth p sizes 0 -> y < nth q sizes 0 ->
  sumN (firstn p sizes) + x = sumN (firstn q sizes) + y -> p = q /\ x = y.
Proof.
  revert p q. induction sizes as [|n sizes IH]; intros [|p] [|q]; cbn [length firstn sumN nth]; intros; try lia. destruct (IH p q); lia.
Qed.
Lemma blocks_lt (sizes : list nat) p x : p < length sizes -> x < nth p sizes 0 -> sumN (firstn p sizes) + x < sumN sizes.
Proof. revert p. induction sizes as [|n sizes IH]; intros [|p]; cbn [length firstn sumN nth]; intros; try lia. specialize (IH p). lia. Qed.
Lemma nth_sizes (bases : list rbasis) p : p < length bases -> nth p (map rsize bases) 0 = rsize (nth p bases nobasis).
Proof. intros H. exact (map_nth rsize bases nobasis p). Qed.

Lemma near_side a b : near a b -> exists d k o, d < 2 /\ k <= 3 /\ o <= 1 /\ (a, b) = match d with 0 => (o, k) | _ => (k, o) end.
Proof. intros (A & B & [H|H]); [exists 0, b, a|exists 1, a, b]; repeat split; lia. Qed.

Section Fine.
Context (bases : list rbasis) (SP : forall b, In b bases -> separated b).
Lemma sep_at p : p < length bases -> separated (nth p bases nobasis). Proof. intros H. apply SP, nth_In, H. Qed.
Lemma fun_range p c a b : p < length bases -> near a b -> function_at (nth p bases nobasis) c a b < rsize (nth p bases nobasis).
Proof.
  intros P NR. pose proof (sep_at p P) as S'. destruct (near_side a b NR) as (d & k & o & Hd & K & O' & E). destruct d as [|[|d]]; [..|lia]; injection E as -> ->.
  - rewrite fun_dir0 by (try apply (sp_swap _ S'); assumption). apply (sp_range _ S'); try assumption. apply on_side_iff_cside. now left.
  - rewrite fun_dir1 by assumption. apply (sp_range _ S'); try assumption. apply on_side_iff_cside. now right.
Qed.
Lemma column_inj (c c' : pcorner) a b a' b' : fst c < length bases -> fst c' < length bases -> near a b -> near a' b' -> column_of bases c a b = column_of bases c' a' b' -> c = c' /\ a = a' /\ b = b'.
Proof.
  intros L L' NR NR' E. unfold column_of in E. rewrite <- !firstn_map in E. apply blocks_inj in E; rewrite ?map_length, ?nth_sizes; try assumption; try (now apply fun_range).
  destruct E as (E1 & E2). rewrite <- E1 in E2. destruct (sp_inj _ (sep_at (fst c) L) _ _ _ _ _ _ NR NR' E2) as (E3 & E4). split; [|exact E4]. destruct c, c'. cbn [fst snd] in *. congruence.
Qed.
Lemma column_lt (c : pcorner) a b : fst c < length bases -> near a b -> column_of bases c a b < sumN (map rsize bases).
Proof. intros L NR. unfold column_of. rewrite <- firstn_map. apply blocks_lt; rewrite ?map_length, ?nth_sizes; try assumption. now apply fun_range. Qed.
Lemma fine_index p x : p < length bases -> x < rsize (nth p bases nobasis) -> cindex (cmap_of (map rsize bases)) x p = Ok (sumN (map rsize (firstn p bases)) + x).
Proof.
  intros P X. assert (IN : In (p, x) (dofs_from 0 (map rsize bases))). { apply (cvalid_in (map rsize bases) (cmap_of (map rsize bases)) (p, x) eq_refl). unfold cvalid. cbn [fst snd cmsizes cmap_of]. rewrite (nth_error_nth' (map rsize bases) 0) by (rewrite map_length; exact P). rewrite nth_sizes by exact P. lia. }
  pose proof (cindex_orig (map rsize bases) (p, x) IN) as E. cbn [fst snd] in E. rewrite E. f_equal. unfold DpProofs.cidx. rewrite pos_in_dofs; rewrite ?Nat.sub_0_r, ?map_length, ?nth_sizes; try lia. now rewrite firstn_map.
Qed.
End Fine.

(** *** The matrix before the treatment of the vertices *)
Section Coarse.
Context (I : dinput) (DP : dp_input I) (EM : ends_matched I) (D : dresult) (ED : dCompute I = Ok D).
Notation t := (ritopo (dring I)).
Notation np := (length (ribases (dring I))).
Notation oc := (column_of (ribases (dring I))).
Let RI := dp_ring I DP.
Let RM := dp_rows I DP.
Let SU := dp_supported I DP.
Let Hc : consistent t := ri_topo _ RI.
Let Hnp : tnp t = np := ri_np _ RI.

Definition ind (r : nat) : nat -> Q := fun x => if x =? r then 1%Q else 0%Q.
Lemma control_ind r c : r < drRows D -> (dcontrol D (ind r) c == dentry D r c)%Q.
Proof.
  intros L. unfold dcontrol. rewrite (sumQ_support _ [r]).
  - cbn. unfold ind. rewrite Nat.eqb_refl. ring.
  - apply seq_NoDup.
  - repeat constructor. intros [].
  - intros x [<-|[]]. apply in_seq. lia.
  - intros x _ NI. unfold ind. destruct (Nat.eqb_spec x r) as [->|N]; [exfalso; apply NI; now left|ring].
Qed.
Lemma entry_out r c : c < drCols D -> drRows D <= r -> dentry D r c = 0%Q.
Proof.
  intros C R. destruct (some_res I RI RM SU D ED) as (m & H). pose proof H as (_ & V & R1 & R2 & R3 & _ & E2). rewrite R3 in C. destruct (cidx_onto _ c C) as (y & Hy & <-).
  destruct (kid_total I RI RM m V (dsups I RI SU) y Hy) as (P & K). apply (E2 y P r Hy K). intros w Hin. destruct (kid_rows I RI RM m V y P r w K Hy Hin) as (x & (Hx & Hz) & ->).
  pose proof (ridx_lt _ m (va_sizes _ m V) x Hx Hz). lia.
Qed.
Lemma cols_eq : drCols D = sumN (map rsize (ribases (dring I))).
Proof. destruct (matrix_thm I RI RM SU) as (D' & E & _ & _ & C). rewrite ED in E. injection E as <-. exact C. Qed.
Lemma rows_eq : drRows D = cfreeSize (drMap D).
Proof. destruct (matrix_thm I RI RM SU) as (D' & E & _ & C & _). rewrite ED in E. injection E as <-. exact C. Qed.

Lemma like_at p : p < np -> ring_like (basis_at I p).
Proof. intros H. apply (rbas_like _ RI). exact H. Qed.
Lemma swap_at p : p < np -> forall d k o, k <= 1 -> o <= 1 -> rifv (nth p (ribases (dring I)) nobasis) k d (cside d 0) o = rifv (nth p (ribases (dring I)) nobasis) o d (cside d 1) k.
Proof. intros H. apply ring_swap. exact (like_at p H). Qed.
Lemma along_oc (c : pcorner) s k o : fst c < np -> on_side (snd c) s = true -> k <= 3 -> o <= 1 -> EvSpec.along oc c s k o = vcolumn I c s k o.
Proof. intros L ON K O'. rewrite (along_column (ribases (dring I)) c s k o (swap_at _ L) ON K O'). reflexivity. Qed.
Lemma oc_dir0 (c : pcorner) k o : fst c < np -> k <= 3 -> o <= 1 -> oc c o k = vcolumn I c (cside (snd c) 0) k o.
Proof. intros L K O'. rewrite <- along_oc; try assumption; [unfold EvSpec.along; rewrite side_dir_cside by lia; reflexivity|]. apply on_side_iff_cside. now left. Qed.
Lemma oc_dir1 (c : pcorner) k o : fst c < np -> k <= 3 -> o <= 1 -> oc c k o = vcolumn I c (cside (snd c) 1) k o.
Proof. intros L K O'. rewrite <- along_oc; try assumption; [unfold EvSpec.along; rewrite side_dir_cside by lia; reflexivity|]. apply on_side_iff_cside. now right. Qed.

Lemma across_iface (c : pcorner) s : (exists f, In f (tif t) /\ (if1 f = (fst c, s) \/ if2 f = (fst c, s))) -> on_side (snd c) s = true -> exists c' s', across t c s c' s'.
Proof.
  intros (f & Hf & E) ON. set (u := xorb (ifflip f) (pos_on s (snd c))).
  assert (C : snd c = corner_at s (xorb (ifflip f) u)). { unfold u. rewrite <- xorb_assoc, xorb_nilpotent, xorb_false_l. destruct (snd c), s; try discriminate ON; reflexivity. }
  destruct E as [E|E].
  - exists (fst (if2 f), corner_at (snd (if2 f)) u), (snd (if2 f)). exists f, u. cbn [fst snd]. repeat split; auto. left. split; [exact E|destruct (if2 f); reflexivity].
  - exists (fst (if1 f), corner_at (snd (if1 f)) u), (snd (if1 f)). exists f, u. cbn [fst snd]. repeat split; auto. right. split; [exact E|destruct (if1 f); reflexivity].
Qed.
Lemma across_valid (c : pcorner) s (c' : pcorner) s' : across t c s c' s' -> fst c < np /\ fst c' < np /\ on_side (snd c) s = true /\ on_side (snd c') s' = true.
Proof.
  intros X. destruct (joined_dnext I RI c s c' s' X) as (T1 & T2 & Q1 & Q2 & _). apply touches_on in T1, T2. auto.
Qed.

(** the third and the fourth functions *)
Lemma far_iface f u k coef : In f (tif t) -> k = 2 \/ k = 3 ->
  let c1 := (fst (if1 f), corner_at (snd (if1 f)) (xorb (ifflip f) u)) in let c2 := (fst (if2 f), corner_at (snd (if2 f)) u) in
  let s1 := snd (if1 f) in let s2 := snd (if2 f) in
  (dcontrol D coef (vcolumn I c1 s1 k 0) == (1 # 2) * (dcontrol D coef (vcolumn I c1 s1 k 1) + dcontrol D coef (vcolumn I c2 s2 k 1)))%Q /\
  (dcontrol D coef (vcolumn I c2 s2 k 0) == (1 # 2) * (dcontrol D coef (vcolumn I c1 s1 k 1) + dcontrol D coef (vcolumn I c2 s2 k 1)))%Q /\
  own_row I D (fst c1) (rifv (basis_at I (fst c1)) k (snd c1) s1 1) /\ own_row I D (fst c2) (rifv (basis_at I (fst c2)) k (snd c2) s2 1).
Proof.
  intros Hf K c1 c2 s1 s2. destruct (EM f u k Hf K) as (i & H). destruct (H 0 ltac:(lia)) as (l1 & l2 & M0 & N1 & N2), (H 1 ltac:(lia)) as (l1' & l2' & M1 & N3 & N4).
  exact (interface_thm I RI RM SU D f l1 l2 l1' l2' i _ _ _ _ ED Hf M0 M1 N1 N2 N3 N4 coef).
Qed.
Lemma far_avg (c : pcorner) s (c' : pcorner) s' k coef : across t c s c' s' -> k = 2 \/ k = 3 ->
  (dcontrol D coef (vcolumn I c s k 0) == (1 # 2) * (dcontrol D coef (vcolumn I c s k 1) + dcontrol D coef (vcolumn I c' s' k 1)))%Q /\
  own_row I D (fst c) (rifv (basis_at I (fst c)) k (snd c) s 1).
Proof.
  intros (f & u & Hf & C1 & C2 & [[E1 E2]|[E1 E2]]) K.
  - destruct (far_iface f u k coef Hf K) as (G & _ & G2 & _). rewrite E1, E2 in G. rewrite E1 in G2. cbn [fst snd] in G, G2. rewrite <- C1 in G, G2. rewrite <- C2 in G.
    destruct c as [p q], c' as [p' q']. cbn [fst snd] in *. split; [exact G|exact G2].
  - destruct (far_iface f (xorb (ifflip f) u) k coef Hf K) as (_ & G & _ & G2). rewrite <- xorb_assoc, xorb_nilpotent, xorb_false_l in G. rewrite E1, E2 in G. rewrite E1 in G2. cbn [fst snd] in G, G2. rewrite <- C1 in G, G2. rewrite <- C2 in G.
    destruct c as [p q], c' as [p' q']. cbn [fst snd] in *. split; [rewrite G; ring|exact G2].
Qed.
(** the functions next to the corners *)
Lemma own11 (c : pcorner) s : fst c < np -> on_side (snd c) s = true -> own_row I D (fst c) (rifv (basis_at I (fst c)) 1 (snd c) s 1).
Proof.
  intros L ON. destruct (some_res I RI RM SU D ED) as (m & H). destruct (inner_col I RI RM m D (fun _ => 0%Q) c H L) as (_ & G).
  replace (rifv (basis_at I (fst c)) 1 (snd c) s 1) with (snd (RingProofs2.B (dring I) c 1 1)); [exact G|].
  apply on_side_iff_cside in ON. destruct ON as [-> | ->]; [symmetry; apply rifv_blk0|]. symmetry. apply rifv_blk1; [exact (like_at _ L)|lia|lia].
Qed.
Lemma own_valid p k : own_row I D p k -> p < np /\ k < rsize (basis_at I p) /\ dcolumn I p k < drCols D /\ cis_free (drMap D) k p = true.
Proof.
  intros (r & E & L & _). destruct (some_res I RI RM SU D ED) as (m & H). pose proof H as (_ & V & R1 & R2 & R3 & _). rewrite R1 in *. pose proof (va_sizes _ m V) as ES.
  assert (CV : cvalid m (p, k) = true) by (unfold cindex in E; destruct (cvalid m (p, k)); [reflexivity|discriminate]). pose proof (proj1 (cvalid_in (sizes (dring I)) m (p, k) ES) CV) as IN.
  pose proof (proj1 (in_D (dring I) RI (p, k)) IN) as (P & K). cbn [fst snd] in P, K. split; [exact P|]. split; [exact K|]. split.
  - rewrite R3. destruct (cidx_column I RI p k P K) as (_ & <-). now apply cidx_lt.
  - unfold cis_free. destruct (0 <=? cmval m (p, k))%Z eqn:Z0; [reflexivity|exfalso]. unfold cindex in E. rewrite CV in E. rewrite R2, (cfree_split m) in L.
    replace (cmval m (p, k) =? 0)%Z with false in E by lia. replace (0 <? cmval m (p, k))%Z with false in E by lia. injection E as E. lia.
Qed.
Lemma own_other p k r r' : own_row I D p k -> cindex (drMap D) k p = Ok r' -> r <> r' -> dentry D r (dcolumn I p k) = 0%Q.
Proof.
  intros O' E N. pose proof (own_valid p k O') as (_ & _ & C & _). destruct O' as (r0 & E0 & L & H). rewrite E in E0. injection E0 as <-.
  destruct (lt_dec r (drRows D)) as [R|R]; [rewrite H by exact R; now replace (r =? r') with false by lia|]. apply entry_out; [exact C|lia].
Qed.

(** *** At an inner vertex *)
Section Vertex.
Context (c0 : pcorner) (L0 : fst c0 < tnp t) (l : list pcorner) (EL : cornerList t c0 = Ok l) (IN0 : vertex_inner t l = true).
Context (rw : pcorner -> nat -> nat -> nat).
Context (RW : forall c a b, In c l -> (a = 1 /\ b = 1) \/ (a = 1 /\ b = 2) \/ (a = 2 /\ b = 1) -> cindex (drMap D) (function_at (basis_at I (fst c)) (snd c) a b) (fst c) = Ok (rw c a b)).

Lemma l_cls : l = cls t c0.
Proof. unfold cls. now rewrite EL. Qed.
Lemma l_vertex : interior_vertex t c0.
Proof. apply (interior_vertex_iff t Hc c0); [unfold validc; exact L0|]. unfold inner. rewrite <- l_cls. exact IN0. Qed.
Lemma l_same c : In c l <-> same_vertex t c0 c.
Proof. rewrite l_cls. symmetry. apply (same_vertex_cls t Hc). exact L0. Qed.
Lemma l_np c : In c l -> fst c < np.
Proof. intros H. rewrite l_cls in H. rewrite <- Hnp. exact (cls_valid t Hc c0 c L0 H). Qed.
Lemma l_next c s c' s' : In c l -> across t c s c' s' -> In c' l.
Proof.
  intros Ic X. rewrite l_cls in Ic |- *. apply (cls_closed t Hc c0 c L0 Ic). apply in_cn. destruct (joined_dnext I RI c s c' s' X) as (_ & _ & _ & _ & G). exists (side_dir s), (side_dir s'). split; [apply side_dir_lt|exact G].
Qed.
Lemma l_across c s : In c l -> on_side (snd c) s = true -> exists c' s', across t c s c' s' /\ In c' l.
Proof.
  intros Ic ON. destruct (across_iface c s) as (c' & s' & X); [apply l_vertex; [now apply l_same|now apply touches_on]|exact ON|]. exists c', s'. split; [exact X|]. exact (l_next c s c' s' Ic X).
Qed.
Lemma far_own c s : In c l -> on_side (snd c) s = true -> own_row I D (fst c) (rifv (basis_at I (fst c)) 2 (snd c) s 1).
Proof. intros Ic ON. destruct (l_across c s Ic ON) as (c' & s' & X & _). exact (proj2 (far_avg c s c' s' 2 (fun _ => 0%Q) X (or_introl eq_refl))). Qed.
(** the functions 11, 12, 21 *)
Lemma own_fun c a b : In c l -> (a = 1 /\ b = 1) \/ (a = 1 /\ b = 2) \/ (a = 2 /\ b = 1) -> own_row I D (fst c) (function_at (basis_at I (fst c)) (snd c) a b).
Proof.
  intros Ic [(-> & ->)|[(-> & ->)|(-> & ->)]].
  - rewrite fun_dir1 by lia. apply own11; [now apply l_np|]. apply on_side_iff_cside. now right.
  - rewrite fun_dir0; [|exact (swap_at _ (l_np c Ic))|lia|lia]. apply far_own; [exact Ic|]. apply on_side_iff_cside. now left.
  - rewrite fun_dir1 by lia. apply far_own; [exact Ic|]. apply on_side_iff_cside. now right.
Qed.
Lemma zero_fun r c a b : ~ involved rw l r -> In c l -> (a = 1 /\ b = 1) \/ (a = 1 /\ b = 2) \/ (a = 2 /\ b = 1) -> dentry D r (oc c a b) = 0%Q.
Proof.
  intros NI Ic H. change (dentry D r (dcolumn I (fst c) (function_at (basis_at I (fst c)) (snd c) a b)) = 0%Q). apply (own_other _ _ _ (rw c a b)); [now apply own_fun|now apply RW|].
  intros ->. apply NI. exists c. split; [exact Ic|]. destruct H as [(-> & ->)|[(-> & ->)|(-> & ->)]]; auto.
Qed.
Lemma sum_zero {X} (g : X -> Q) ls : (forall x, In x ls -> (g x == 0)%Q) -> (sumQ (map g ls) == 0)%Q.
Proof. induction ls as [|x ls IH]; intros H; cbn [map sumQ]; [reflexivity|]. rewrite H by now left. rewrite IH by (intros; apply H; now right). ring. Qed.
Lemma inner_is c : In c l -> inner_column I c = oc c 1 1.
Proof. intros Ic. unfold inner_column. symmetry. apply oc_dir0; [now apply l_np|lia|lia]. Qed.
Lemma zero00 r c : r < drRows D -> ~ involved rw l r -> In c l -> (dentry D r (oc c 0 0) == 0)%Q.
Proof.
  intros R NI Ic. rewrite oc_dir0 by (try apply l_np; assumption || lia). rewrite <- control_ind by exact R.
  assert (SV : same_vertex t c0 c) by now apply l_same. assert (Hv : validc t c) by (unfold validc; rewrite Hnp; now apply l_np).
  assert (LC : forall b, In b (cls t c) <-> same_vertex t c b) by (intros b; symmetry; apply (same_vertex_cls t Hc); exact Hv).
  assert (SUB : forall b, In b (cls t c) -> In b l). { intros b Hb. rewrite l_cls. rewrite l_cls in Ic. apply (in_cls t Hc c0 b L0). apply (in_cls t Hc c b Hv) in Hb. apply (in_cls t Hc c0 c L0) in Ic. eapply (reach_trans t); eassumption. }
  rewrite (inner_thm I RI RM SU D c (cside (snd c) 0) (length (cls t c)) (cls t c) (ind r) ED (l_np c Ic)).
  - rewrite sum_zero; [ring|]. intros b Hb. rewrite control_ind by exact R. rewrite inner_is by now apply SUB. rewrite (zero_fun r b 1 1 NI) by (try apply SUB; auto). reflexivity.
  - apply touches_on, on_side_iff_cside. now left.
  - intros b s Sb Ts. apply l_vertex; [|exact Ts]. apply l_same, SUB, LC, Sb.
  - exists (cls t c). split; [apply (cls_nodup t Hc); exact Hv|]. split; [exact LC|reflexivity].
  - apply (cls_nodup t Hc). exact Hv.
  - exact LC.
Qed.
Lemma zero10 r c s : r < drRows D -> ~ involved rw l r -> In c l -> on_side (snd c) s = true -> (dentry D r (vcolumn I c s 1 0) == 0)%Q.
Proof.
  intros R NI Ic ON. destruct (l_across c s Ic ON) as (c' & s' & X & Ic'). destruct (across_valid c s c' s' X) as (_ & L' & _ & ON').
  rewrite <- control_ind by exact R. rewrite (corner_thm I RI RM SU D c s c' s' (ind r) ED X), !control_ind by exact R.
  rewrite <- !along_oc by (try apply l_np; assumption || lia).
  assert (Z1 : forall e q, In e l -> dentry D r (EvSpec.along oc e q 1 1) = 0%Q) by (intros e q Ie; unfold EvSpec.along; destruct (side_dir q); now apply zero_fun; auto).
  rewrite !Z1 by assumption. reflexivity.
Qed.
Lemma vcol_lt c s k o : In c l -> on_side (snd c) s = true -> k <= 3 -> o <= 1 -> vcolumn I c s k o < drCols D.
Proof.
  intros Ic ON K O'. pose proof (l_np c Ic) as L. destruct (some_res I RI RM SU D ED) as (m & H). pose proof H as (_ & _ & _ & _ & R3 & _). rewrite R3.
  destruct (le_lt_dec k 1) as [K1|K1].
  - destruct (vcol I RI c s k o L) as (-> & IN & _); [now apply touches_on|lia|lia|]. now apply cidx_lt.
  - assert (KK : k = 2 \/ k = 3) by lia. destruct (l_across c s Ic ON) as (c' & s' & (f & u & Hf & C1 & C2 & E) & _).
    assert (IN : In (rifv (basis_at I (fst c)) k (snd c) s o) (roff (basis_at I (fst c)) s o)).
    { destruct (RM f o Hf ltac:(lia)) as (k1 & k2 & M & _ & P1 & P2). destruct E as [[E1 E2]|[E1 E2]].
      - destruct (EM f u k Hf KK) as (i & G). destruct (G o ltac:(lia)) as (l1 & l2 & M' & N1 & _). rewrite M in M'. injection M' as <- <-. apply nth_error_In in N1. apply filter_In in N1. rewrite E1 in *. cbn [fst snd] in *. rewrite <- C1 in N1. exact (Permutation_in _ P1 (proj1 N1)).
      - destruct (EM f (xorb (ifflip f) u) k Hf KK) as (i & G). destruct (G o ltac:(lia)) as (l1 & l2 & M' & _ & N1). rewrite M in M'. injection M' as <- <-. apply nth_error_In in N1. apply filter_In in N1. rewrite E1 in *. cbn [fst snd] in *. rewrite <- C1 in N1. exact (Permutation_in _ P2 (proj1 N1)). }
    destruct (cidx_column I RI (fst c) (rifv (basis_at I (fst c)) k (snd c) s o) L) as (IN' & E'); [apply (rl_range _ (like_at _ L) s o); [lia|exact IN]|]. unfold vcolumn. rewrite <- E'. now apply cidx_lt.
Qed.
Lemma others_coarse : others_ok t oc rw l (fun r c => Q2R (dentry D r c)).
Proof.
  intros r NI. destruct (lt_dec r (drRows D)) as [R|R].
  - split.
    + intros c a b Ic AB A2 B2 H. transitivity (Q2R 0); [apply Qeq_eqR|unfold Q2R; cbn; lra]. pose proof (l_np c Ic) as L.
      destruct a as [|[|[|a]]]; [..|lia]; destruct b as [|[|[|b]]]; cbn in AB, H; try lia.
      * now apply zero00.
      * rewrite oc_dir0 by (assumption || lia). apply zero10; try assumption. apply on_side_iff_cside. now left.
      * rewrite oc_dir1 by (assumption || lia). apply zero10; try assumption. apply on_side_iff_cside. now right.
      * rewrite (zero_fun r c 1 1 NI Ic) by auto. reflexivity.
      * rewrite (zero_fun r c 1 2 NI Ic) by auto. reflexivity.
      * rewrite (zero_fun r c 2 1 NI Ic) by auto. reflexivity.
    + intros k K c s c' s' Ic X. destruct (across_valid c s c' s' X) as (L & L' & ON & ON'). rewrite !along_oc by (assumption || lia).
      destruct (far_avg c s c' s' k (ind r) X K) as (G & _). rewrite !control_ind in G by exact R. apply Qeq_eqR in G. rewrite G, Q2R_mult, Q2R_plus. f_equal. unfold Q2R. cbn. lra.
  - assert (Z : forall c s k o, In c l -> on_side (snd c) s = true -> k <= 3 -> o <= 1 -> Q2R (dentry D r (vcolumn I c s k o)) = 0%R).
    { intros c s k o Ic ON K O'. rewrite entry_out; [unfold Q2R; cbn; lra|now apply vcol_lt|lia]. }
    split.
    + intros c a b Ic AB A2 B2 H. pose proof (l_np c Ic) as L. destruct (near_side a b ltac:(unfold near; destruct a as [|[|[|a]]]; [..|lia]; destruct b as [|[|[|b]]]; cbn in AB, H; lia)) as (d & k & o & Hd & K & O' & E).
      destruct d as [|[|d]]; [..|lia]; injection E as -> ->; [rewrite oc_dir0 by assumption|rewrite oc_dir1 by assumption]; apply Z; try assumption; apply on_side_iff_cside; auto.
    + intros k K c s c' s' Ic X. destruct (across_valid c s c' s' X) as (L & L' & ON & ON'). assert (Ic' : In c' l) by exact (l_next c s c' s' Ic X).
      rewrite !along_oc by (assumption || lia). rewrite !Z by (assumption || lia). lra.
Qed.
End Vertex.
End Coarse.
