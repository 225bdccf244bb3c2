(** Property C40: the functions at an edge of the approximate C1 construction. *)
From Coq Require Import Lra.
From Verif Require Import Common SplineModel SplineSpec GluingModel GluingSpec GluingProofs GluingExamples.
Open Scope R_scope.

(** Value and derivatives at the edge of a trace function: the spline, its derivative, and - beta times its derivative. *)
Theorem C40_trace_jet : forall comp bp n beta boundary bfID m s, open_basis (comp (1 - m)%nat) 2 -> (1 <= sdeg (comp (1 - m)%nat))%nat -> open_basis bp n -> (bfID < n)%nat ->
  exists N N', (forall s, evalSingle bp bfID s = Ok (N s)) /\ (forall s, rderiv N s (N' s)) /\
    edge_jet (traceEval comp bp beta boundary bfID m) m s (N s) (N' s) (if boundary then 0 else - beta s * N' s).
Proof. exact trace_jet_pf. Qed.
Print Assumptions C40_trace_jet.

(** The same for a normal derivative function: 0, 0, and +- alpha times the spline. *)
Theorem C40_normal_jet : forall comp bm n alpha boundary bfID m s, open_basis (comp (1 - m)%nat) 2 -> (1 <= sdeg (comp (1 - m)%nat))%nat -> open_basis bm n -> (bfID < n)%nat ->
  exists N, (forall s, evalSingle bm bfID s = Ok (N s)) /\
    edge_jet (normalEval comp bm alpha boundary bfID m) m s 0 0
      (match m with O => - (1) | _ => 1 end * (if boundary then INR (sdeg (comp (1 - m)%nat)) / tknot (comp (1 - m)%nat) (sdeg (comp (1 - m)%nat) + 1) else alpha s) * N s).
Proof. exact normal_jet_pf. Qed.
Print Assumptions C40_normal_jet.

(** For any gluing data: the two trace functions have the same trace, and the cross derivatives satisfy the gluing condition. *)
Theorem C40_glued : forall compA compB bp n betaA betaB alphaA alphaB bfID mA mB s,
  open_basis (compA (1 - mA)%nat) 2 -> open_basis (compB (1 - mB)%nat) 2 -> (1 <= sdeg (compA (1 - mA)%nat))%nat -> (1 <= sdeg (compB (1 - mB)%nat))%nat -> open_basis bp n -> (bfID < n)%nat ->
  exists v a dA dB, edge_jet (traceEval compA bp betaA false bfID mA) mA s v a dA /\ edge_jet (traceEval compB bp betaB false bfID mB) mB s v a dB /\
    alphaB * dA + alphaA * dB + (alphaA * betaB s + alphaB * betaA s) * a = 0.
Proof. exact glued_pf. Qed.
Print Assumptions C40_glued.

Theorem C40_glued_normal : forall compA compB bm n alphaA alphaB bfID s,
  open_basis (compA 0%nat) 2 -> open_basis (compB 1%nat) 2 -> (1 <= sdeg (compA 0%nat))%nat -> (1 <= sdeg (compB 1%nat))%nat -> open_basis bm n -> (bfID < n)%nat ->
  exists dA dB, edge_jet (normalEval compA bm alphaA false bfID 1) 1 s 0 0 dA /\ edge_jet (normalEval compB bm alphaB false bfID 0) 0 s 0 0 dB /\
    alphaB s * dA + alphaA s * dB = 0.
Proof. exact glued_normal_pf. Qed.
Print Assumptions C40_glued_normal.

(** With the exact gluing data of two planar geometries with the same edge, the two functions have the same value and the
    same gradient: together they are continuously differentiable. *)
Theorem C40_planar_trace : forall jacA jacB compA compB bp n bfID mA mB s,
  open_basis (compA (1 - mA)%nat) 2 -> open_basis (compB (1 - mB)%nat) 2 -> (1 <= sdeg (compA (1 - mA)%nat))%nat -> (1 <= sdeg (compB (1 - mB)%nat))%nat -> open_basis bp n -> (bfID < n)%nat ->
  tangent2 (jacA (near_edge mA s 0)) mA = tangent2 (jacB (near_edge mB s 0)) mB -> tangent2 (jacA (near_edge mA s 0)) mA <> (0, 0) ->
  exists v g, smooth2 jacA mA (traceEval compA bp (betaPlanar jacA mA) false bfID mA) s v g /\
              smooth2 jacB mB (traceEval compB bp (betaPlanar jacB mB) false bfID mB) s v g.
Proof. exact planar_trace_pf. Qed.
Print Assumptions C40_planar_trace.

Theorem C40_planar_normal : forall jacA jacB compA compB bm n bfID mA mB s,
  open_basis (compA (1 - mA)%nat) 2 -> open_basis (compB (1 - mB)%nat) 2 -> (1 <= sdeg (compA (1 - mA)%nat))%nat -> (1 <= sdeg (compB (1 - mB)%nat))%nat -> open_basis bm n -> (bfID < n)%nat ->
  tangent2 (jacA (near_edge mA s 0)) mA = tangent2 (jacB (near_edge mB s 0)) mB ->
  exists g, smooth2 jacA mA (normalEval compA bm (alphaPlanar jacA mA) false bfID mA) s 0 g /\
            smooth2 jacB mB (normalEval compB bm (alphaPlanar jacB mB) false bfID mB) s 0 g.
Proof. exact planar_normal_pf. Qed.
Print Assumptions C40_planar_normal.

(** there is only one gradient where a geometry is regular *)
Theorem C40_gradient_unique : forall J m a d g h, xu J * yv J - xv J * yu J <> 0 -> gradient2 J m a d g -> gradient2 J m a d h -> g = h.
Proof. exact gradient_unique_pf. Qed.
Print Assumptions C40_gradient_unique.

(** The same on surfaces; for the normal derivative functions the two surfaces have the same unit normal. *)
Theorem C40_surface_trace : forall jacA jacB compA compB bp n bfID mA mB s,
  open_basis (compA (1 - mA)%nat) 2 -> open_basis (compB (1 - mB)%nat) 2 -> (1 <= sdeg (compA (1 - mA)%nat))%nat -> (1 <= sdeg (compB (1 - mB)%nat))%nat -> open_basis bp n -> (bfID < n)%nat ->
  tangent3 (jacA (near_edge mA s 0)) mA = tangent3 (jacB (near_edge mB s 0)) mB -> tangent3 (jacA (near_edge mA s 0)) mA <> (0, 0, 0) ->
  exists v g, smooth3 jacA mA (traceEval compA bp (betaSurface jacA mA) false bfID mA) s v g /\
              smooth3 jacB mB (traceEval compB bp (betaSurface jacB mB) false bfID mB) s v g.
Proof. exact surface_trace_pf. Qed.
Print Assumptions C40_surface_trace.

Theorem C40_surface_normal : forall jacA jacB compA compB bm n bfID mA mB s nu,
  open_basis (compA (1 - mA)%nat) 2 -> open_basis (compB (1 - mB)%nat) 2 -> (1 <= sdeg (compA (1 - mA)%nat))%nat -> (1 <= sdeg (compB (1 - mB)%nat))%nat -> open_basis bm n -> (bfID < n)%nat ->
  tangent3 (jacA (near_edge mA s 0)) mA = tangent3 (jacB (near_edge mB s 0)) mB -> tangent3 (jacA (near_edge mA s 0)) mA <> (0, 0, 0) ->
  unit_normal (jacA (near_edge mA s 0)) nu -> unit_normal (jacB (near_edge mB s 0)) nu ->
  exists g, smooth3 jacA mA (normalEval compA bm (alphaSurface jacA mA) false bfID mA) s 0 g /\
            smooth3 jacB mB (normalEval compB bm (alphaSurface jacB mB) false bfID mB) s 0 g.
Proof. exact surface_normal_pf. Qed.
Print Assumptions C40_surface_normal.

(** Two patches with different cross derivatives and quadratic splines; the gluing data are not trivial. *)
Example C40_nonvacuous : open_basis quad 4 /\
  (forall s, tangent2 (leftJ (near_edge 1 s 0)) 1 = tangent2 (rightJ (near_edge 0 s 0)) 0 /\ tangent2 (leftJ (near_edge 1 s 0)) 1 <> (0, 0) /\
    alphaPlanar leftJ 1 s = -1 /\ alphaPlanar rightJ 0 s = -1 /\ betaPlanar leftJ 1 s = - (1 / 2) /\ betaPlanar rightJ 0 s = - s) /\
  exists v g, smooth2 leftJ 1 (traceEval (fun _ => quad) quad (betaPlanar leftJ 1) false 1 1) 1 v g /\
              smooth2 rightJ 0 (traceEval (fun _ => quad) quad (betaPlanar rightJ 0) false 1 0) 1 v g.
Proof.
  split; [exact quad_open|]. split.
  - intros s. split; [reflexivity|]. split; [intros H; injection H; lra|]. unfold alphaPlanar, betaPlanar. cbn [edgePoint leftJ rightJ xu xv yu yv fst]. replace (0 * 0 + 1 * 1) with 1 by ring. rewrite sqrt_1. repeat split; field.
  - apply (C40_planar_trace leftJ rightJ (fun _ => quad) (fun _ => quad) quad 4 1 1 0 1); try (apply (open_less _ 4); [lia|exact quad_open]); try (cbn; lia); [reflexivity|]. intros H. injection H. lra.
Qed.
