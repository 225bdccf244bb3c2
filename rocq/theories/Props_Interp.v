(** C87: interpolation of the functions at edges and vertices (approximate C1, option interpolation). *)
From Coq Require Import Reals.
From Verif Require Import Common SplineModel EdgeModel EdgeSpec EdgeExamples GluingModel InterpModel InterpSpec InterpProofs InterpExamples.
Open Scope R_scope.

(** With solvers for the two collocation systems, interpolation succeeds and the spline has the values of the function in all anchors. *)
Theorem C87_interpolates : forall (ev : sbasis -> nat -> R -> R) (solver : nat -> (nat -> nat -> R) -> (nat -> R) -> nat -> R),
  forall bu bv f g, collocates ev solver bu -> collocates ev solver bv -> on_grid bu bv (fun x => f x = Ok (g x)) ->
  exists c, interpFunction ev solver bu bv f = Ok c /\ length c = (bsize bu * bsize bv)%nat /\ on_grid bu bv (fun x => spline2 ev bu bv (fun i => nth i c 0) x = g x).
Proof. exact interp_pf. Qed.
Print Assumptions C87_interpolates.

(** A function that is a spline in the anchors keeps its coefficients. *)
Theorem C87_exact : forall (ev : sbasis -> nat -> R -> R) (solver : nat -> (nat -> nat -> R) -> (nat -> R) -> nat -> R),
  forall bu bv f d, good ev solver bu -> good ev solver bv -> on_grid bu bv (fun x => f x = Ok (spline2 ev bu bv d x)) ->
  exists c, interpFunction ev solver bu bv f = Ok c /\ length c = (bsize bu * bsize bv)%nat /\ forall i, (i < bsize bu * bsize bv)%nat -> nth i c 0 = d i.
Proof. exact exact_interp_pf. Qed.
Print Assumptions C87_exact.

(** At an edge, all functions kept are there in order; each has coefficients in the two layers at the edge only, those of the univariate interpolation of its trace and of its slope along the edge. *)
Theorem C87_edge : forall (ev : sbasis -> nat -> R -> R) (dv : sbasis -> nat -> R -> R) (solver : nat -> (nat -> nat -> R) -> (nat -> R) -> nat -> R),
  forall bu bv dir comp bp bm alpha beta bdy, let b := across_basis bu bv dir in let e := along_basis bu bv dir in good ev solver b -> good ev solver e -> (2 <= bsize b)%nat -> comp (1 - dir)%nat = b ->
  exists cs, edgeInterp ev dv solver bu bv dir comp bp bm alpha beta bdy = Ok cs /\ length cs = how_many bp bm /\
    (forall i a c, (3 <= i < bsize bp - 3)%nat -> interpolates1 ev e (ev bp i) a -> interpolates1 ev e (slope_trace ev dv b bp beta bdy i) c ->
       exists r, nth_error cs (i - 3) = Some r /\ layers_are (bsize bu) (bsize bv) dir r a c) /\
    (forall i c, (2 <= i < bsize bm - 2)%nat -> interpolates1 ev e (slope_normal ev b bm alpha bdy dir i) c ->
       exists r, nth_error cs (bsize bp - 6 + (i - 2)) = Some r /\ layers_are (bsize bu) (bsize bv) dir r (fun _ => 0) c).
Proof. exact edge_interp_pf. Qed.
Print Assumptions C87_edge.

(** Across an interface the two patches have the same coefficients at the edge, whether or not the functions are splines; normal functions vanish there. *)
Theorem C87_interface : forall (ev : sbasis -> nat -> R -> R) (dv : sbasis -> nat -> R -> R) (solver : nat -> (nat -> nat -> R) -> (nat -> R) -> nat -> R),
  forall e bu bv comp comp' bp bm alpha beta alpha' beta', good ev solver e -> good ev solver bu -> good ev solver bv -> (2 <= bsize bu)%nat -> (2 <= bsize bv)%nat -> comp 0%nat = bu -> comp' 1%nat = bv ->
  exists cs cs', edgeInterp ev dv solver bu e 1 comp bp bm alpha beta false = Ok cs /\ edgeInterp ev dv solver e bv 0 comp' bp bm alpha' beta' false = Ok cs' /\ length cs = how_many bp bm /\ length cs' = how_many bp bm /\
    (forall i, (3 <= i < bsize bp - 3)%nat -> exists r r', nth_error cs (i - 3) = Some r /\ nth_error cs' (i - 3) = Some r' /\ forall j, (j < bsize e)%nat -> nth (bsize bu * j) r 0 = nth j r' 0) /\
    (forall i, (2 <= i < bsize bm - 2)%nat -> exists r r', nth_error cs (bsize bp - 6 + (i - 2)) = Some r /\ nth_error cs' (bsize bp - 6 + (i - 2)) = Some r' /\ forall j, (j < bsize e)%nat -> nth (bsize bu * j) r 0 = 0 /\ nth j r' 0 = 0).
Proof. exact interface_interp_pf. Qed.
Print Assumptions C87_interface.

(** In the anchors along the interface, values and slopes across are those of the functions interpolated, so the condition of first-order smoothness with the gluing data holds there. *)
Theorem C87_gluing : forall (ev : sbasis -> nat -> R -> R) (dv : sbasis -> nat -> R -> R) (solver : nat -> (nat -> nat -> R) -> (nat -> R) -> nat -> R),
  forall e bu bv comp comp' bp bm alpha beta alpha' beta', good ev solver e -> good ev solver bu -> good ev solver bv -> (2 <= bsize bu)%nat -> (2 <= bsize bv)%nat -> clamped_enough bu -> clamped_enough bv -> comp 0%nat = bu -> comp' 1%nat = bv ->
  exists cs cs', edgeInterp ev dv solver bu e 1 comp bp bm alpha beta false = Ok cs /\ edgeInterp ev dv solver e bv 0 comp' bp bm alpha' beta' false = Ok cs' /\
    (forall i, (3 <= i < bsize bp - 3)%nat -> exists r r', nth_error cs (i - 3) = Some r /\ nth_error cs' (i - 3) = Some r' /\ forall l, (l < bsize e)%nat -> let y := anchor e l in
       edge_value ev e (bsize bu) r y = ev bp i y /\ edge_value ev e 1 r' y = ev bp i y /\
       edge_slope ev bu e (bsize bu) 1 r y = - (beta y * dv bp i y) /\ edge_slope ev bv e 1 (bsize e) r' y = - (beta' y * dv bp i y) /\
       alpha' y * edge_slope ev bu e (bsize bu) 1 r y + alpha y * edge_slope ev bv e 1 (bsize e) r' y + (alpha' y * beta y + alpha y * beta' y) * dv bp i y = 0) /\
    (forall i, (2 <= i < bsize bm - 2)%nat -> exists r r', nth_error cs (bsize bp - 6 + (i - 2)) = Some r /\ nth_error cs' (bsize bp - 6 + (i - 2)) = Some r' /\ forall l, (l < bsize e)%nat -> let y := anchor e l in
       edge_value ev e (bsize bu) r y = 0 /\ edge_value ev e 1 r' y = 0 /\ edge_slope ev bu e (bsize bu) 1 r y = alpha y * ev bm i y /\ edge_slope ev bv e 1 (bsize e) r' y = - (alpha' y * ev bm i y) /\
       alpha' y * edge_slope ev bu e (bsize bu) 1 r y + alpha y * edge_slope ev bv e 1 (bsize e) r' y = 0).
Proof. exact gluing_interp_pf. Qed.
Print Assumptions C87_gluing.

(** At a vertex, the six functions in order, each with its values in the anchors, and no other spline has them. *)
Theorem C87_vertex : forall (ev : sbasis -> nat -> R -> R) (solver : nat -> (nat -> nat -> R) -> (nat -> R) -> nat -> R),
  forall bu bv fs gs, good ev solver bu -> good ev solver bv -> (forall j, (j < 6)%nat -> on_grid bu bv (fun x => fs j x = Ok (gs j x))) ->
  exists cs, vertexInterp ev solver bu bv fs = Ok cs /\ length cs = 6%nat /\ forall j, (j < 6)%nat -> exists c, nth_error cs j = Some c /\ length c = (bsize bu * bsize bv)%nat /\
    on_grid bu bv (fun x => spline2 ev bu bv (fun i => nth i c 0) x = gs j x) /\ forall d, on_grid bu bv (fun x => spline2 ev bu bv d x = gs j x) -> forall i, (i < bsize bu * bsize bv)%nat -> nth i c 0 = d i.
Proof. exact vertex_interp_pf. Qed.
Print Assumptions C87_vertex.

(** With the values of SplineModel.v the functions interpolated are those of GluingModel.v. *)
Theorem C87_same : (forall comp bp beta bdy i dir x, traceAt (fun b => bspl (tknot b) (sdeg b)) (fun b => dbspl (tknot b) (sdeg b)) comp bp beta bdy i dir x = traceEval comp bp beta bdy i dir x) /\
  forall comp bm alpha bdy i dir x, normalAt (fun b => bspl (tknot b) (sdeg b)) comp bm alpha bdy i dir x = normalEval comp bm alpha bdy i dir x.
Proof. exact same_pf. Qed.
Print Assumptions C87_same.

(** The hypotheses hold in an example, both sides of an interface. *)
Theorem C87_nonvacuous : good evClosed cramer edB /\ (2 <= bsize edB)%nat /\ clamped_enough edB /\ how_many edPlus edMinus = 2%nat /\
  edgeInterp evClosed dvOf cramer edB edB 1 (fun _ => edB) edPlus edMinus (fun _ => 3) (fun y => 2 * y) false = Ok [[0; 0; 1; 3]; [0; 3; 0; 0]] /\
  edgeInterp evClosed dvOf cramer edB edB 0 (fun _ => edB) edPlus edMinus (fun _ => 5) (fun y => 1 + y) false = Ok [[0; 1; - (1); 3]; [0; 0; - 5; 0]].
Proof. exact ip_ok. Qed.
Print Assumptions C87_nonvacuous.

(** The values at the right end matter: with half-open intervals the collocation system of hat functions is singular. *)
Theorem C87_half_open : ~ regular (fun b => bspl (tknot b) (sdeg b)) edB.
Proof. exact ip_halfopen. Qed.
Print Assumptions C87_half_open.
