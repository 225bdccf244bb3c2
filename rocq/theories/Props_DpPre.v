(** Property C70: the coefficients that gsDPatch computes from a geometry. *)
From Verif Require Import Common TopoModel BaseModel IndexSpec TopoSpec SmoothSpec SmoothSpec2 SmoothExamples RingModel RingSpec DpModel DpSpec
  DpPreModel DpPreSpec DpExamples DpPreProofs DpPreExamples.

(** _preCoefficients succeeds, with one coefficient per row.  Every function with a row of its own gets its control point on the refined patch. *)
Theorem C70_pre : forall I, dp_input I -> forall T P, fits_refined I T P -> forall R, dCompute I = Ok R ->
  exists v, dpPre (dring I) (drMap R) T P = Ok v /\ length v = drRows R /\
  forall p k r u, own_row I R p k -> cindex (drMap R) k p = Ok r -> transferred T P p k u -> nth_error v r = Some u.
Proof. exact (fun I H => dpre_thm I (dp_ring I H) (dp_rows I H) (dp_supported I H)). Qed.
Print Assumptions C70_pre.

(** The control point next to both sides of a corner is the one of the refined patch. *)
Theorem C70_inner : forall I, dp_input I -> forall T P, fits_refined I T P -> forall R v b u,
  dCompute I = Ok R -> dpPre (dring I) (drMap R) T P = Ok v -> fst b < length (ribases (dring I)) ->
  transferred T P (fst b) (rifv (basis_at I (fst b)) 1 (snd b) (cside (snd b) 0) 1) u -> (dcontrol R (coef_of v) (inner_column I b) == u)%Q.
Proof. exact (fun I H => inner_point_thm I (dp_ring I H) (dp_rows I H) (dp_supported I H)). Qed.
Print Assumptions C70_inner.

(** At a boundary vertex of three patches that is not skipped, the corner control point is the midpoint of the control points next to it on
    the two outer patches.  The next control point on the boundary lies between the inner one and the reflected one. *)
Theorem C70_vertex : forall I, dp_input I -> forall T P, fits_refined I T P -> forall R v c c1 c2 c3,
  dCompute I = Ok R -> dpPre (dring I) (drMap R) T P = Ok v -> fan_of I c c1 c2 c3 -> ~ skipped I c1 c2 c3 ->
  let g b := dcontrol R (coef_of v) (inner_column I b) in
  forall b s, In b [c1; c2; c3] -> touches (snd b) s ->
    (dcontrol R (coef_of v) (vcolumn I b s 0 0) == (1 # 2) * (g c1 + g c3))%Q /\
    (In (fst b, s) (tbd (ritopo (dring I))) -> (dcontrol R (coef_of v) (vcolumn I b s 1 0) == (1 # 2) * (g b + (g c1 + g c3 - g c2)))%Q).
Proof. exact (fun I H => dvertex_thm I (dp_ring I H) (dp_rows I H) (dp_supported I H)). Qed.
Print Assumptions C70_vertex.

(** At a skipped vertex the row keeps the control point [u] of one of the corners. *)
Theorem C70_skipped : forall I, dp_input I -> forall T P, fits_refined I T P -> forall R v c c1 c2 c3,
  dCompute I = Ok R -> dpPre (dring I) (drMap R) T P = Ok v -> fan_of I c c1 c2 c3 -> skipped I c1 c2 c3 ->
  let g b := dcontrol R (coef_of v) (inner_column I b) in
  exists b0 u, In b0 [c1; c2; c3] /\ transferred T P (fst b0) (rcorner (basis_at I (fst b0)) (snd b0)) u /\
  forall b s, In b [c1; c2; c3] -> touches (snd b) s ->
    (dcontrol R (coef_of v) (vcolumn I b s 0 0) == (1 # 4) * (u + g c1 + g c2 + g c3))%Q /\
    (In (fst b, s) (tbd (ritopo (dring I))) -> (dcontrol R (coef_of v) (vcolumn I b s 1 0) == (1 # 2) * (g b + u))%Q).
Proof. exact (fun I H => dskipped_thm I (dp_ring I H) (dp_rows I H) (dp_supported I H)). Qed.
Print Assumptions C70_skipped.

(** False: every boundary vertex of three patches without sharp corner is corrected.  A sharp corner anywhere else switches it off. *)
Theorem C70_smooth_refuted : exists I T P R v c1 c2 c3 s, dp_input I /\ fits_refined I T P /\ dCompute I = Ok R /\ dpPre (dring I) (drMap R) T P = Ok v /\
  fan_of I c1 c1 c2 c3 /\ (forall b, In b [c1; c2; c3] -> nth_error (riC0 (dring I)) (vertIndex b) = Some false) /\ touches (snd c1) s /\
  let g b := dcontrol R (coef_of v) (inner_column I b) in ~ (dcontrol R (coef_of v) (vcolumn I c1 s 0 0) == (1 # 2) * (g c1 + g c3))%Q.
Proof. exact smooth_refuted_pf. Qed.
Print Assumptions C70_smooth_refuted.

(** False: a sharp boundary vertex of three patches keeps a corner control point of the geometry. *)
Theorem C70_sharp_refuted : exists I T P R v c1 c2 c3 s, dp_input I /\ fits_refined I T P /\ dCompute I = Ok R /\ dpPre (dring I) (drMap R) T P = Ok v /\
  fan_of I c1 c1 c2 c3 /\ (forall b, In b [c1; c2; c3] -> nth_error (riC0 (dring I)) (vertIndex b) = Some true) /\ touches (snd c1) s /\
  let g b := dcontrol R (coef_of v) (inner_column I b) in
  forall b u, In b [c1; c2; c3] -> transferred T P (fst b) (rcorner (basis_at I (fst b)) (snd b)) u ->
    ~ (dcontrol R (coef_of v) (vcolumn I c1 s 0 0) == (1 # 4) * (u + g c1 + g c2 + g c3))%Q.
Proof. exact sharp_refuted_pf. Qed.
Print Assumptions C70_sharp_refuted.

(** Example: three patches in a fan. *)
Theorem C70_nonvacuous : dp_input (dtensor fan) /\ fan_of (dtensor fan) (0, SW) (0, SW) (1, SW) (2, SW) /\
  fits_refined (dtensor fan) no_refine (spike [6; 0; 0]) /\ exists R v, dCompute (dtensor fan) = Ok R /\
  dpPre (dring (dtensor fan)) (drMap R) no_refine (spike [6; 0; 0]) = Ok v /\
  (dcontrol R (coef_of v) (vcolumn (dtensor fan) (1%nat, SW) West 0 0) == 1 # 2)%Q.
Proof. exact dpre_nonvacuous_pf. Qed.
Print Assumptions C70_nonvacuous.
