(** Properties C57 and C58: the gluing data and the functions at an interface of the C1 construction on surfaces. *)
From Verif Require Import Common SplineModel SplineSpec GluingModel GluingSpec SurfGDModel SurfGDSpec SurfGDProofs SurfGDProofs2 SurfGDExamples.
Open Scope R_scope.

(** The first system: its solutions are the stationary points of the functional, squared defect of the gluing condition minus
    penalty: around a solution there is no term of first order. *)
Theorem C57_stationary : forall jacR jacL lam els c, solves 7 (sysMat jacR jacL lam els) (sysRhs lam els) c <->
  forall d, cost jacR jacL lam (concat els) (plus_vec c d) = cost jacR jacL lam (concat els) c + curvature jacR jacL lam (concat els) d.
Proof. exact stationary_pf. Qed.
Print Assumptions C57_stationary.

(** Data that satisfy the gluing condition at all nodes solve the system exactly if alpha is constantly 1 on both sides. *)
Theorem C57_exact : forall jacR jacL lam els c, lam <> 0 -> good_rule (concat els) -> (forall k, In k (concat els) -> defect jacR jacL c (qt k) = (0, 0, 0)) ->
  (solves 7 (sysMat jacR jacL lam els) (sysRhs lam els) c <-> forall t, aR c t = 1 /\ aL c t = 1).
Proof. exact exact_pf. Qed.
Print Assumptions C57_exact.

(** There are geometries with exact data for which no solution of the system is exact, whatever penalty and quadrature. *)
Theorem C57_exact_refuted : exists jacR jacL g, (forall t, defect jacR jacL g t = (0, 0, 0)) /\ (forall t, 0 <= t -> 0 < aR g t /\ 0 < aL g t) /\
  forall lam els c, lam <> 0 -> good_rule (concat els) -> solves 7 (sysMat jacR jacL lam els) (sysRhs lam els) c -> exists k, In k (concat els) /\ defect jacR jacL c (qt k) <> (0, 0, 0).
Proof. exact exact_refuted_pf. Qed.
Print Assumptions C57_exact_refuted.

(** The penalty has the wrong sign: a solution need not be a minimum. *)
Theorem C57_minimum_refuted : exists jacR jacL c, forall lam els, 0 < lam -> (forall k, In k (concat els) -> 0 < qw k) -> concat els <> [] ->
  solves 7 (sysMat jacR jacL lam els) (sysRhs lam els) c /\ exists d, cost jacR jacL lam (concat els) (plus_vec c d) < cost jacR jacL lam (concat els) c.
Proof. exact minimum_refuted_pf. Qed.
Print Assumptions C57_minimum_refuted.

(** The second system, which splits beta. *)
Theorem C57_split_stationary : forall g lam els c, solves 4 (sysMatBeta g lam els) (sysRhsBeta g els) c <->
  forall d, split_cost g lam (concat els) (plus_vec c d) = split_cost g lam (concat els) c + split_curvature g lam (concat els) d.
Proof. exact split_stationary_pf. Qed.
Print Assumptions C57_split_stationary.

(** A splitting without error solves the second system only if both parts vanish. *)
Theorem C57_split_exact : forall g lam els c, lam <> 0 -> good_rule (concat els) -> (forall k, In k (concat els) -> split_defect g c (qt k) = 0) ->
  (solves 4 (sysMatBeta g lam els) (sysRhsBeta g els) c <-> forall t, bR c t = 0 /\ bL c t = 0).
Proof. exact split_exact_pf. Qed.
Print Assumptions C57_split_exact.

(** So there are data whose beta can be split exactly, and no solution does so. *)
Theorem C57_split_refuted : exists g e, (forall t, split_defect g e t = 0) /\ (forall t, 0 < aR g t /\ 0 < aL g t) /\
  forall lam els c, lam <> 0 -> good_rule (concat els) -> solves 4 (sysMatBeta g lam els) (sysRhsBeta g els) c -> exists k, In k (concat els) /\ split_defect g c (qt k) <> 0.
Proof. exact split_refuted_pf. Qed.
Print Assumptions C57_split_refuted.

(** The data are evaluated as they enter the systems, *)
Theorem C57_evals : forall c b t, evalAlpha_R c t = aR c t /\ evalAlpha_L c t = aL c t /\ evalBeta_R b t = bR b t /\ evalBeta_L b t = bL b t.
Proof. exact evals_pf. Qed.
Print Assumptions C57_evals.

(** but for beta itself: evalBeta gives the beta of the systems only if its last two coefficients agree, *)
Theorem C57_evalBeta : forall c, (forall t, evalBeta c t = bt c t) <-> c 5%nat = c 6%nat.
Proof. exact evalBeta_pf. Qed.
Print Assumptions C57_evalBeta.

(** and in general it does not. *)
Theorem C57_evalBeta_refuted : exists c t, 0 < t < 1 /\ evalBeta c t <> bt c t.
Proof. exact evalBeta_refuted_pf. Qed.
Print Assumptions C57_evalBeta_refuted.

(** The data at the boundary. *)
Theorem C57_boundary : forall t, evalAlpha_R edgeSol t = 1 /\ evalAlpha_L edgeSol t = 1 /\ evalBeta_R edgeSolBeta t = 0 /\ evalBeta_L edgeSolBeta t = 0 /\ evalBeta edgeSol t = 0.
Proof. exact edge_data_pf. Qed.
Print Assumptions C57_boundary.

(** A parallelogram beside a square: beta is -1, and the system has the exact data as solution. *)
Theorem C57_nonvacuous : good_rule (concat simpson) /\ (forall t, defect skewR flatL skew7 t = (0, 0, 0)) /\ (forall lam, solves 7 (sysMat skewR flatL lam simpson) (sysRhs lam simpson) skew7) /\ bt skew7 0 = -1 /\
  split_defect skew7 skew4 0 = 0 /\ solves 4 (sysMatBeta skew7 0 simpson) (sysRhsBeta skew7 simpson) skew4.
Proof. exact solution_example_pf. Qed.
Print Assumptions C57_nonvacuous.

(** A plus function has the value of the spline, its derivative along the edge, and - beta times its derivative across. *)
Theorem C58_plus_jet : forall comp bs n sol solB bd bfID uv s, open_basis (comp (1 - uv)%nat) 2 -> (1 <= sdeg (comp (1 - uv)%nat))%nat -> double_start (comp (1 - uv)%nat) -> open_basis bs n -> (bfID < n)%nat ->
  exists N N', (forall s, evalSingle bs bfID s = Ok (N s)) /\ (forall s, derivSingle bs bfID s = Ok (N' s)) /\ (forall s, rderiv N s (N' s)) /\
    edge_jet (surfEdge comp bs sol solB bd true bfID uv) uv s (N s) (N' s) (if bd then 0 else - (match uv with O => bL solB s | _ => bR solB s end) * N' s).
Proof. exact plus_jet_pf. Qed.
Print Assumptions C58_plus_jet.

(** A minus function vanishes on the edge and has the derivative +- alpha times the spline times the slope of the second
    function of the patch. *)
Theorem C58_minus_jet : forall comp bs n sol solB bd bfID uv s, open_basis (comp (1 - uv)%nat) 2 -> (1 <= sdeg (comp (1 - uv)%nat))%nat -> double_start (comp (1 - uv)%nat) -> open_basis bs n -> (bfID < n)%nat ->
  exists N, (forall s, evalSingle bs bfID s = Ok (N s)) /\
    edge_jet (surfEdge comp bs sol solB bd false bfID uv) uv s 0 0
      ((match uv with O => - (1) | _ => 1 end) * (if bd then 1 else match uv with O => aL sol s | _ => aR sol s end) * N s * slope (comp (1 - uv)%nat)).
Proof. exact minus_jet_pf. Qed.
Print Assumptions C58_minus_jet.

(** What the plus functions miss of the gluing condition is what the splitting of beta misses. *)
Theorem C58_plus_defect : forall compR compL bs n sol solB bfID s,
  open_basis (compR 0%nat) 2 -> (1 <= sdeg (compR 0%nat))%nat -> double_start (compR 0%nat) -> open_basis (compL 1%nat) 2 -> (1 <= sdeg (compL 1%nat))%nat -> double_start (compL 1%nat) -> open_basis bs n -> (bfID < n)%nat ->
  exists v a dR dL, edge_jet (surfEdge compR bs sol solB false true bfID 1) 1 s v a dR /\ edge_jet (surfEdge compL bs sol solB false true bfID 0) 0 s v a dL /\
    evalSingle bs bfID s = Ok v /\ derivSingle bs bfID s = Ok a /\
    aR sol s * dL + aL sol s * dR + bt sol s * a = - split_defect sol solB s * a.
Proof. exact plus_defect_pf. Qed.
Print Assumptions C58_plus_defect.

(** What the minus functions miss is the difference of the slopes. *)
Theorem C58_minus_defect : forall compR compL bs n sol solB bfID s,
  open_basis (compR 0%nat) 2 -> (1 <= sdeg (compR 0%nat))%nat -> double_start (compR 0%nat) -> open_basis (compL 1%nat) 2 -> (1 <= sdeg (compL 1%nat))%nat -> double_start (compL 1%nat) -> open_basis bs n -> (bfID < n)%nat ->
  exists m dR dL, edge_jet (surfEdge compR bs sol solB false false bfID 1) 1 s 0 0 dR /\ edge_jet (surfEdge compL bs sol solB false false bfID 0) 0 s 0 0 dL /\
    evalSingle bs bfID s = Ok m /\
    aR sol s * dL + aL sol s * dR = aR sol s * aL sol s * m * (slope (compR 0%nat) - slope (compL 1%nat)).
Proof. exact minus_defect_pf. Qed.
Print Assumptions C58_minus_defect.

(** With data that are exact at a point, the two plus functions have the same value and the same gradient there, *)
Theorem C58_plus_smooth : forall jacR jacL compR compL bs n sol solB bfID s,
  open_basis (compR 0%nat) 2 -> (1 <= sdeg (compR 0%nat))%nat -> double_start (compR 0%nat) -> open_basis (compL 1%nat) 2 -> (1 <= sdeg (compL 1%nat))%nat -> double_start (compL 1%nat) -> open_basis bs n -> (bfID < n)%nat ->
  independent (Fu (jacR (0, s))) (Fv (jacR (0, s))) -> Fu (jacL (s, 0)) = Fv (jacR (0, s)) -> aR sol s <> 0 -> aL sol s <> 0 -> defect jacR jacL sol s = (0, 0, 0) -> split_defect sol solB s = 0 ->
  exists v g, evalSingle bs bfID s = Ok v /\ smooth3 jacR 1 (surfEdge compR bs sol solB false true bfID 1) s v g /\ smooth3 jacL 0 (surfEdge compL bs sol solB false true bfID 0) s v g.
Proof. exact plus_smooth_pf. Qed.
Print Assumptions C58_plus_smooth.

(** and so have the minus functions if the second functions of the two patches have the same slope. *)
Theorem C58_minus_smooth : forall jacR jacL compR compL bs n sol solB bfID s,
  open_basis (compR 0%nat) 2 -> (1 <= sdeg (compR 0%nat))%nat -> double_start (compR 0%nat) -> open_basis (compL 1%nat) 2 -> (1 <= sdeg (compL 1%nat))%nat -> double_start (compL 1%nat) -> open_basis bs n -> (bfID < n)%nat ->
  independent (Fu (jacR (0, s))) (Fv (jacR (0, s))) -> Fu (jacL (s, 0)) = Fv (jacR (0, s)) -> aR sol s <> 0 -> aL sol s <> 0 -> defect jacR jacL sol s = (0, 0, 0) -> slope (compR 0%nat) = slope (compL 1%nat) ->
  exists g, smooth3 jacR 1 (surfEdge compR bs sol solB false false bfID 1) s 0 g /\ smooth3 jacL 0 (surfEdge compL bs sol solB false false bfID 0) s 0 g.
Proof. exact minus_smooth_pf. Qed.
Print Assumptions C58_minus_smooth.

(** With different first elements the minus functions do not fit together, since they are not scaled. *)
Theorem C58_meshes_refuted : exists jacR jacL compR compL bs n sol solB bfID,
  open_basis (compR 0%nat) 2 /\ (1 <= sdeg (compR 0%nat))%nat /\ double_start (compR 0%nat) /\ open_basis (compL 1%nat) 2 /\ (1 <= sdeg (compL 1%nat))%nat /\ double_start (compL 1%nat) /\ open_basis bs n /\ (bfID < n)%nat /\
  (forall s, independent (Fu (jacR (0, s))) (Fv (jacR (0, s))) /\ Fu (jacL (s, 0)) = Fv (jacR (0, s)) /\ aR sol s = 1 /\ aL sol s = 1 /\ defect jacR jacL sol s = (0, 0, 0) /\ split_defect sol solB s = 0) /\
  ~ exists v g, smooth3 jacR 1 (surfEdge compR bs sol solB false false bfID 1) 0 v g /\ smooth3 jacL 0 (surfEdge compL bs sol solB false false bfID 0) 0 v g.
Proof. exact meshes_refuted_pf. Qed.
Print Assumptions C58_meshes_refuted.

(** With a simple first inner knot the plus functions do not fit together: the knot with number degree + 2 is not the right one. *)
Theorem C58_simple_knots_refuted : exists jacR jacL compR compL bs n sol solB bfID,
  open_basis (compR 0%nat) 2 /\ (1 <= sdeg (compR 0%nat))%nat /\ open_basis (compL 1%nat) 2 /\ (1 <= sdeg (compL 1%nat))%nat /\ open_basis bs n /\ (bfID < n)%nat /\
  (forall s, independent (Fu (jacR (0, s))) (Fv (jacR (0, s))) /\ Fu (jacL (s, 0)) = Fv (jacR (0, s)) /\ aR sol s = 1 /\ aL sol s = 1 /\ defect jacR jacL sol s = (0, 0, 0) /\ split_defect sol solB s = 0) /\
  ~ exists v g, smooth3 jacR 1 (surfEdge compR bs sol solB false true bfID 1) 0 v g /\ smooth3 jacL 0 (surfEdge compL bs sol solB false true bfID 0) 0 v g.
Proof. exact simple_knots_refuted_pf. Qed.
Print Assumptions C58_simple_knots_refuted.

(** The least squares system of a function: if the function is in the space, its coefficients are a solution, and every
    solution has the values of the function at all nodes. *)
Theorem C58_projection : forall n els c x, (forall k, In k (concat els) -> 0 < pw k * pmeas k) -> (forall k, In k (concat els) -> prhs k = sumTo n (fun i => pval k i * c i)) ->
  solves n (projMat els) (projRhs els) c /\
  (solves n (projMat els) (projRhs els) x -> forall k, In k (concat els) -> sumTo n (fun i => pval k i * x i) = prhs k).
Proof. exact projection_pf. Qed.
Print Assumptions C58_projection.

(** A parallelogram beside a square, with a double knot. *)
Theorem C58_nonvacuous : exists v g, evalSingle two 1 1 = Ok v /\
  smooth3 skewR 1 (surfEdge (fun _ => two) two skew7 skew4 false true 1 1) 1 v g /\ smooth3 flatL 0 (surfEdge (fun _ => two) two skew7 skew4 false true 1 0) 1 v g.
Proof. exact smooth_example_pf. Qed.
Print Assumptions C58_nonvacuous.

(** Two nodes, two functions. *)
Theorem C58_projection_nonvacuous : let els := [[mkPNode 1 2 (fun i => match i with 0%nat => 1 | _ => 0 end) 3; mkPNode 2 1 (fun _ => 1 / 2) 4]] in
  solves 2 (projMat els) (projRhs els) (fun i => match i with 0%nat => 3 | _ => 5 end).
Proof. exact projection_example_pf. Qed.
Print Assumptions C58_projection_nonvacuous.
