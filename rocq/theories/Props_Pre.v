(** Property C69: the geometry exported by gsAlmostC1. *)
From Coq Require Import Reals Qreals.
From Verif Require Import Common TopoModel BaseModel BaseModel2 IndexSpec TopoSpec SmoothSpec SmoothSpec2 RingModel RingSpec DpModel DpSpec
  PiSpec TriangleModel TriangleSpec AcModel AcSpec AcSpec2 PreModel PreSpec PreProofs PreExamples.
Open Scope nat_scope.

(** Coefficients taken over from a geometry: one for every row, the control point of the function that keeps the row. *)
Theorem C69_free : forall I, ac_input I -> forall P, fits I P -> forall R, acCompute I = Ok R ->
  exists v, cfreeCoefs (drMap R) P = Ok v /\ length v = drRows R /\
    forall x r u, has_row R x r -> point_at P x u -> nth_error v r = Some u.
Proof. exact (fun I H => free_thm I (ac_ring I H) (ac_rows I H) (ac_supported I H)). Qed.
Print Assumptions C69_free.

(** Control points written into patches: cut into the patches in order; a wrong number of them is refused. *)
Theorem C69_set : forall (sz : list nat) (v : list vec3),
  (length v = sumN sz -> exists L, setCoefs sz v = Ok L /\ map (@length vec3) L = sz /\ concat L = v) /\
  (length v <> sumN sz -> setCoefs sz v = Err).
Proof. exact (fun sz v => conj (setCoefs_ok sz v) (setCoefs_err sz v)). Qed.
Print Assumptions C69_set.

(** The local patches hold the columns of the matrix applied to these coefficients. *)
Theorem C69_local : forall I, ac_input I -> forall P, fits I P -> forall R, acCompute I = Ok R ->
  exists v L, cfreeCoefs (drMap R) P = Ok v /\ acLocal I R P = Ok L /\ fits I L /\ length (concat L) = drCols R /\
    forall k, k < drCols R -> points (concat L) k = weighted (drRows R) (fun r => Q2R (dentry R r k)) (points v).
Proof. exact (fun I H => local_thm I (ac_ring I H) (ac_rows I H) (ac_supported I H)). Qed.
Print Assumptions C69_local.

(** The precomputed coefficients change only in the rows of the special vertices. *)
Theorem C69_pre : forall I, ac_input I -> forall P, fits I P -> forall F nf cl pt, refined_ok I F nf cl pt -> forall R A, acFinal I F = Ok (R, A) ->
  exists v, acPre (dring I) (drMap R) F P = Ok v /\ length v = drRows R /\
    forall x r u, has_row R x r -> ~ special_row I R r -> point_at P x u -> nth_error v r = Some u.
Proof. exact (fun I H => pre_thm I (ac_ring I H) (ac_rows I H) (ac_supported I H)). Qed.
Print Assumptions C69_pre.

(** The exported geometry has one control point for every refined function: its column applied to the precomputed coefficients. *)
Theorem C69_export : forall I, ac_input I -> forall P, fits I P -> forall F nf cl pt, refined_ok I F nf cl pt -> forall R A, acFinal I F = Ok (R, A) ->
  exists v G, acPre (dring I) (drMap R) F P = Ok v /\ acExport I F nf P = Ok G /\ length G = nf /\
    forall x, x < nf -> nth_error G x = Some (weighted (drRows R) (fun r => A r x) (points v)).
Proof. exact (fun I H => export_ok I (ac_ring I H) (ac_rows I H) (ac_supported I H)). Qed.
Print Assumptions C69_export.

(** Around a special vertex it has the control points of the refined patches, projected to one plane on surfaces. *)
Theorem C69_vertex : forall I, ac_input I -> forall P, fits I P -> forall F nf cl pt, refined_ok I F nf cl pt -> forall R A c v,
  acFinal I F = Ok (R, A) -> special I c -> acPre (dring I) (drMap R) F P = Ok v ->
  exists b f, same_vertex (ritopo (dring I)) c b /\ projection I F b f /\
    forall c' a e, same_vertex (ritopo (dring I)) c c' -> a < 2 -> e < 2 ->
      weighted (drRows R) (fun r => A r (cl c' a e)) (points v) = f (pt c' a e).
Proof. exact (fun I H => vertex_geo I (ac_ring I H) (ac_rows I H) (ac_supported I H)). Qed.
Print Assumptions C69_vertex.

(** Everywhere else it has those of the refined local patches. *)
Theorem C69_elsewhere : forall I, ac_input I -> forall P, fits I P -> forall F nf cl pt, refined_ok I F nf cl pt -> forall R A v L x,
  acFinal I F = Ok (R, A) -> (exists c, special I c) -> corners_near I F nf cl -> acPre (dring I) (drMap R) F P = Ok v -> acLocal I R P = Ok L ->
  x < nf -> ~ near_special I cl x ->
  weighted (drRows R) (fun r => A r x) (points v) = weighted (drCols R) (rf_t F x) (points (concat L)).
Proof. exact (fun I H => elsewhere_geo I (ac_ring I H) (ac_rows I H) (ac_supported I H)). Qed.
Print Assumptions C69_elsewhere.

(** Without special vertices the exported geometry is the local one. *)
Theorem C69_regular : forall I, ac_input I -> forall P, fits I P -> forall F nf cl pt, refined_ok I F nf cl pt -> forall R A L,
  acFinal I F = Ok (R, A) -> (forall c, ~ special I c) -> nf = drCols R -> acLocal I R P = Ok L -> acExport I F nf P = Ok (concat L).
Proof. exact (fun I H => regular_geo I (ac_ring I H) (ac_rows I H) (ac_supported I H)). Qed.
Print Assumptions C69_regular.

(** If around the special vertices the refined local patches lie in the planes of the projections, the exported geometry equals them: ... *)
Theorem C69_geometry : forall I, ac_input I -> forall P, fits I P -> forall F nf cl pt, refined_ok I F nf cl pt -> forall R A L G,
  acFinal I F = Ok (R, A) -> (exists c, special I c) -> corners_near I F nf cl -> acLocal I R P = Ok L ->
  points_of I F (drCols R) cl pt (concat L) -> (forall c, special I c -> in_plane I F pt c) -> acExport I F nf P = Ok G ->
  length G = nf /\ forall x, x < nf -> nth_error G x = Some (weighted (drCols R) (rf_t F x) (points (concat L))).
Proof. exact (fun I H => geometry_thm I (ac_ring I H) (ac_rows I H) (ac_supported I H)). Qed.
Print Assumptions C69_geometry.

(** ... in particular in the plane. *)
Theorem C69_planar : forall I, ac_input I -> forall P, fits I P -> forall F nf cl pt, refined_ok I F nf cl pt -> forall R A L G,
  acFinal I F = Ok (R, A) -> (exists c, special I c) -> corners_near I F nf cl -> acLocal I R P = Ok L ->
  points_of I F (drCols R) cl pt (concat L) -> rf_dim F = 2 -> flat_points P -> acExport I F nf P = Ok G ->
  length G = nf /\ forall x, x < nf -> nth_error G x = Some (weighted (drCols R) (rf_t F x) (points (concat L))).
Proof. exact (fun I H => planar_thm I (ac_ring I H) (ac_rows I H) (ac_supported I H)). Qed.
Print Assumptions C69_planar.

(** The patches given to _preCoefficients(patches) are ignored: the geometry of the constructor is exported instead of the given one. *)
Theorem C69_given_refuted : exists I F nf cl pt P given G G', ac_input I /\ (forall c, ~ special I c) /\ refined_ok I F nf cl pt /\
  fits I P /\ fits I given /\ acExportGiven I F nf P given = Ok G /\ acExport I F nf given = Ok G' /\ G <> G' /\ G' = concat given.
Proof. exact given_refuted_pf. Qed.
Print Assumptions C69_given_refuted.

(** Every geometry has refined patches with these properties. *)
Theorem C69_hypotheses : forall I, ac_input I -> forall P, fits I P -> exists F nf cl pt R A L G, refined_ok I F nf cl pt /\ rf_dim F = 2 /\
  corners_near I F nf cl /\ acFinal I F = Ok (R, A) /\ acLocal I R P = Ok L /\ points_of I F (drCols R) cl pt (concat L) /\ acExport I F nf P = Ok G.
Proof. exact pre_hypotheses_pf. Qed.
Print Assumptions C69_hypotheses.
