(** What the projection of the functions at an edge is meant to do (C83). *)
From Verif Require Import Common SplineModel GluingModel SurfGDSpec AsmModel BihModel BihSpec EdgeModel.
Open Scope R_scope.

(** distance of a function from the edge, and position along it *)
Definition layer (nu dir i : nat) : nat := match dir with O => (i / nu)%nat | _ => (i mod nu)%nat end.
Definition place (nu dir i : nat) : nat := match dir with O => (i mod nu)%nat | _ => (i / nu)%nat end.
(** only the two layers at the edge *)
Definition two_layers (nu dir : nat) (c : nat -> R) : Prop := forall i, (2 <= layer nu dir i)%nat -> c i = 0.

(** squared distance to the values [f] in the nodes *)
Definition distance2 (els : list qelem) (f : R * R -> R) (c : nat -> R) : R :=
  total (fun n => qw (snd n) * ((comb (fst n) (qv (snd n)) c - f (qx (snd n))) * (comb (fst n) (qv (snd n)) c - f (qx (snd n))))) (nodes els).
(** the function number [k] in the result: first those of the plus space without three at either end, then those of the minus space without two *)
Definition target (comp : nat -> sbasis) (bp bm : sbasis) (alpha beta : R -> R) (bdy : bool) (dir k : nat) (x : R * R) : res R :=
  if (k <? bsize bp - 6)%nat then traceEval comp bp beta bdy (3 + k) dir x else normalEval comp bm alpha bdy (2 + (k - (bsize bp - 6))) dir x.
Definition how_many (bp bm : sbasis) : nat := ((bsize bp - 6) + (bsize bm - 4))%nat.

Definition weights_pos (els : list qelem) : Prop := forall n, In n (nodes els) -> 0 < qw (snd n).
(** the solver solves the systems with the matrix of the projection *)
Definition edge_solver (solver : nat -> (nat -> nat -> R) -> (nat -> R) -> nat -> R) (nu nv dir : nat) (els : list qelem) : Prop :=
  forall m X, edgeMapper nu nv dir = Ok m -> assembleJobs m (fun _ => 0) (map (fun e => JMat (massElem e)) els) = Ok X ->
  forall b, solves (mfree m) (smat X) b (solver (mfree m) (smat X) b).

(** the nodes evaluate the tensor product of [b] across and [e] along the edge *)
Definition evaluates (nu nv dir : nat) (b e : sbasis) (els : list qelem) : Prop := forall n, In n (nodes els) -> forall c,
  comb (fst n) (qv (snd n)) c = sumTo (nu * nv) (fun i => c i * (bspl (tknot b) (sdeg b) (layer nu dir i) (row (qx (snd n)) (1 - dir)) * bspl (tknot e) (sdeg e) (place nu dir i) (row (qx (snd n)) dir))).
(** the nodes tell splines of two layers apart *)
Definition sees (nu nv dir : nat) (els : list qelem) : Prop := forall c, two_layers nu dir c -> (forall n, In n (nodes els) -> comb (fst n) (qv (snd n)) c = 0) -> forall i, (i < nu * nv)%nat -> c i = 0.
(** at the nodes, [f] is the spline with the coefficients [a] along the edge *)
Definition spline_along (e : sbasis) (dir : nat) (els : list qelem) (f : R -> R) (a : nat -> R) : Prop :=
  forall n, In n (nodes els) -> let y := row (qx (snd n)) dir in f y = sumTo (bsize e) (fun j => a j * bspl (tknot e) (sdeg e) j y).
(** [r] has the coefficients [a] in the layer at the edge, [c] in the next one and zeros elsewhere *)
Definition layers_are (nu nv dir : nat) (r : list R) (a c : nat -> R) : Prop := length r = (nu * nv)%nat /\ forall i, (i < nu * nv)%nat ->
  nth i r 0 = match layer nu dir i with O => a (place nu dir i) | S O => c (place nu dir i) | _ => 0 end.

(** one patch: [e] along and component 1 - dir across the edge span the edge piece, the quadrature sees it *)
Definition edge_setting (solver : nat -> (nat -> nat -> R) -> (nat -> R) -> nat -> R) (nu nv dir : nat) (els : list qelem) (b e : sbasis) : Prop :=
  acts_ok (nu * nv) els /\ edge_solver solver nu nv dir els /\ weights_pos els /\ sees nu nv dir els /\ (2 <= bsize b)%nat /\ across nu nv dir = bsize b /\ across nv nu dir = bsize e /\ evaluates nu nv dir b e els.
(** what multiplies the second function across the edge in a trace and in a normal function *)
Definition trace_slope (b bp : sbasis) (beta : R -> R) (bdy : bool) (i : nat) (y : R) : R :=
  bspl (tknot bp) (sdeg bp) i y - (if bdy then 0 else beta y) * dbspl (tknot bp) (sdeg bp) i y * (tknot b (sdeg b + 1) / INR (sdeg b)).
Definition normal_slope (b bm : sbasis) (alpha : R -> R) (bdy : bool) (dir i : nat) (y : R) : R :=
  (match dir with O => - (1) | _ => 1 end) * (if bdy then 1 else alpha y * (tknot b (sdeg b + 1) / INR (sdeg b))) * bspl (tknot bm) (sdeg bm) i y.
