(** Property C68: the special vertices of gsAlmostC1. *)
From Coq Require Import Reals Qreals.
From Verif Require Import Common TopoModel BaseModel IndexSpec TopoSpec SmoothSpec SmoothSpec2 SmoothExamples RingModel RingSpec DpModel DpSpec
  DpExamples PiSpec TriangleModel TriangleSpec EvSpec AcModel AcSpec AcSpec2 AcProofs7 AcExamples AcExamples2.
Open Scope nat_scope.

(** The final matrix is computed. *)
Theorem C68_final : forall I, ac_input I -> forall F nf cl pt, refined_ok I F nf cl pt ->
  exists R A, acFinal I F = Ok (R, A) /\ acCompute I = Ok R.
Proof. exact (fun I H => final_thm I (ac_ring I H) (ac_rows I H) (ac_supported I H)). Qed.
Print Assumptions C68_final.

(** At a special vertex the columns of the refined functions around it hold the coordinates of their control points in one triangle (in the
    plane of the mean normal, on surfaces), in the three rows of the vertex; all other rows are zero there. *)
Theorem C68_triangle : forall I, ac_input I -> forall F nf cl pt, refined_ok I F nf cl pt -> forall R A c, acFinal I F = Ok (R, A) -> special I c ->
  exists b f r0 r1 r2 k0 k1 k2, same_vertex (ritopo (dring I)) c b /\ projection I F b f /\ vertex_rows I R c r0 r1 r2 /\
    forall c' a e, same_vertex (ritopo (dring I)) c c' -> a < 2 -> e < 2 ->
      convex_weights (V3 (A r0 (cl c' a e)) (A r1 (cl c' a e)) (A r2 (cl c' a e))) /\
      combination k0 k1 k2 (V3 (A r0 (cl c' a e)) (A r1 (cl c' a e)) (A r2 (cl c' a e))) = f (pt c' a e) /\
      forall r, ~ In r [r0; r1; r2] -> A r (cl c' a e) = 0%R.
Proof. exact (fun I H => triangle_thm I (ac_ring I H) (ac_rows I H) (ac_supported I H)). Qed.
Print Assumptions C68_triangle.

(** For all coefficients the new control points around a special vertex are one affine function of the projected old ones: they lie in a plane. *)
Theorem C68_affine : forall I, ac_input I -> forall F nf cl pt, refined_ok I F nf cl pt -> forall R A coef c, acFinal I F = Ok (R, A) -> special I c ->
  spread I F pt c -> exists b f g0 g, same_vertex (ritopo (dring I)) c b /\ projection I F b f /\
    forall c' a e, same_vertex (ritopo (dring I)) c c' -> a < 2 -> e < 2 ->
      fcontrol (drRows R) A coef (cl c' a e) = (g0 + vdot g (f (pt c' a e)))%R.
Proof. exact (fun I H => affine_thm I (ac_ring I H) (ac_rows I H) (ac_supported I H)). Qed.
Print Assumptions C68_affine.

(** All other columns are those of the refinement. *)
Theorem C68_elsewhere : forall I, ac_input I -> forall F nf cl pt, refined_ok I F nf cl pt -> forall R A r x, acFinal I F = Ok (R, A) ->
  (exists c, special I c) -> ~ near_special I cl x -> A r x = rsum (drCols R) (fun k => Q2R (dentry R r k) * rf_t F x k)%R.
Proof. exact (fun I H => elsewhere_thm I (ac_ring I H) (ac_rows I H) (ac_supported I H)). Qed.
Print Assumptions C68_elsewhere.

(** Without special vertices nothing is refined, and no row is empty. *)
Theorem C68_regular : forall I, ac_input I -> forall F nf cl pt, refined_ok I F nf cl pt -> forall R A, acFinal I F = Ok (R, A) ->
  (forall c, ~ special I c) -> (forall r x, A r x = Q2R (dentry R r x)) /\ forall r, r < drRows R -> ~ spare R r.
Proof. exact (fun I H => regular_thm I (ac_ring I H) (ac_rows I H) (ac_supported I H)). Qed.
Print Assumptions C68_regular.

(** Columns sum to one if those of the refinement do ... *)
Theorem C68_unity : forall I, ac_input I -> forall F nf cl pt, refined_ok I F nf cl pt -> forall R A, acFinal I F = Ok (R, A) ->
  (exists c, special I c) -> (forall x, x < nf -> rsum (drCols R) (rf_t F x) = 1%R) -> forall x, x < nf -> colSum (drRows R) A x = 1%R.
Proof. exact (fun I H => aunity2_thm I (ac_ring I H) (ac_rows I H) (ac_supported I H)). Qed.
Print Assumptions C68_unity.

(** ... and no entry is negative if none of the refinement is. *)
Theorem C68_nonneg : forall I, ac_input I -> forall F nf cl pt, refined_ok I F nf cl pt -> forall R A, acFinal I F = Ok (R, A) ->
  (exists c, special I c) -> (forall x k, x < nf -> (0 <= rf_t F x k)%R) -> forall r x, x < nf -> (0 <= A r x)%R.
Proof. exact (fun I H => anonneg_thm I (ac_ring I H) (ac_rows I H) (ac_supported I H)). Qed.
Print Assumptions C68_nonneg.

(** The three rows of a vertex are distinct rows of the matrix; *)
Theorem C68_rows : forall I, ac_input I -> forall R c r0 r1 r2, acCompute I = Ok R -> fst c < length (ribases (dring I)) ->
  vertex_rows I R c r0 r1 r2 -> NoDup [r0; r1; r2] /\ r0 < drRows R /\ r1 < drRows R /\ r2 < drRows R.
Proof. exact (fun I H => rows_thm I (ac_ring I H) (ac_rows I H) (ac_supported I H)). Qed.
Print Assumptions C68_rows.

(** two vertices share no row; *)
Theorem C68_disjoint : forall I, ac_input I -> forall R c r0 r1 r2 c' r0' r1' r2' r, acCompute I = Ok R ->
  fst c < length (ribases (dring I)) -> fst c' < length (ribases (dring I)) -> vertex_rows I R c r0 r1 r2 -> vertex_rows I R c' r0' r1' r2' ->
  In r [r0; r1; r2] -> In r [r0'; r1'; r2'] -> same_vertex (ritopo (dring I)) c c'.
Proof. exact (fun I H => rows_disjoint_thm I (ac_ring I H) (ac_rows I H) (ac_supported I H)). Qed.
Print Assumptions C68_disjoint.

(** and every row that was left empty before belongs to a special vertex. *)
Theorem C68_spare : forall I, ac_input I -> forall R r, acCompute I = Ok R -> r < drRows R -> spare R r ->
  exists c r0 r1 r2, special I c /\ vertex_rows I R c r0 r1 r2 /\ In r [r0; r1; r2].
Proof. exact (fun I H => spare_thm I (ac_ring I H) (ac_rows I H) (ac_supported I H)). Qed.
Print Assumptions C68_spare.

(** The basis functions are linearly independent if sharp boundary vertices have at most three patches ... *)
Theorem C68_independent : forall I, ac_input I -> forall F nf cl pt, refined_ok I F nf cl pt -> forall R A coef, acFinal I F = Ok (R, A) ->
  (exists c, special I c) ->
  (forall c v, special I c -> ~ interior_vertex (ritopo (dring I)) c -> is_sharp I c -> has_valence (ritopo (dring I)) c v -> v <= 3) ->
  determined I F nf cl (drCols R) -> (forall c, special I c -> spread I F pt c) ->
  (forall x, x < nf -> fcontrol (drRows R) A coef x = 0%R) -> forall r, r < drRows R -> coef r = 0%R.
Proof. exact (fun I H => afindependent_thm I (ac_ring I H) (ac_rows I H) (ac_supported I H)). Qed.
Print Assumptions C68_independent.

(** ... and at a sharp boundary vertex with more patches a basis function is lost whenever the corner functions of the vertex refine into the
    functions around it: a row that had an entry before has none afterwards. *)
Theorem C68_lost : forall I, ac_input I -> forall F nf cl pt, refined_ok I F nf cl pt -> forall R A c v, acFinal I F = Ok (R, A) ->
  special I c -> ~ interior_vertex (ritopo (dring I)) c -> is_sharp I c -> has_valence (ritopo (dring I)) c v -> 3 < v ->
  (forall b x, same_vertex (ritopo (dring I)) c b -> x < nf -> ~ near_special I cl x ->
     rf_t F x (dcolumn I (fst b) (snd (corner_dof I b))) = 0%R) ->
  exists r, r < drRows R /\ ~ spare R r /\ forall x, x < nf -> A r x = 0%R.
Proof. exact (fun I H => lost_thm I (ac_ring I H) (ac_rows I H) (ac_supported I H)). Qed.
Print Assumptions C68_lost.

(** Without the bound on the number of patches independence fails. *)
Theorem C68_independent_refuted : exists I F nf cl pt R A coef, ac_input I /\ refined_ok I F nf cl pt /\ (exists c, special I c) /\
  determined I F nf cl (drCols R) /\ (forall c, special I c -> spread I F pt c) /\ acFinal I F = Ok (R, A) /\
  (forall x, x < nf -> fcontrol (drRows R) A coef x = 0%R) /\ exists r, r < drRows R /\ ~ spare R r /\ coef r <> 0%R.
Proof. exact independent_refuted_pf. Qed.
Print Assumptions C68_independent_refuted.

(** Every input with a special vertex has refined patches that satisfy all hypotheses above; *)
Theorem C68_hypotheses : forall I, ac_input I -> (exists c, special I c) -> exists F nf cl pt,
  refined_ok I F nf cl pt /\ (forall c, special I c -> spread I F pt c) /\
  (forall R, acCompute I = Ok R -> determined I F nf cl (drCols R) /\ (forall x, x < nf -> rsum (drCols R) (rf_t F x) = 1%R)) /\
  (forall x k, (0 <= rf_t F x k)%R) /\
  (forall c x, special I c -> ~ near_special I cl x -> rf_t F x (dcolumn I (fst c) (snd (corner_dof I c))) = 0%R).
Proof. exact hypotheses_pf. Qed.
Print Assumptions C68_hypotheses.

(** three patches around a point: 51 functions, three empty rows before the treatment of the vertex. *)
Theorem C68_nonvacuous : ac_input (dtensor three_patches) /\ special (dtensor three_patches) (0, SW) /\ asize_of three_patches = (51, 75) /\
  aspare_of three_patches = [0; 17; 34].
Proof. exact ac2_nonvacuous_pf. Qed.
Print Assumptions C68_nonvacuous.
