(** What interpolation is meant to do (C87). *)
From Verif Require Import Common SplineModel GluingModel SurfGDSpec BihSpec EdgeModel EdgeSpec InterpModel.
Open Scope R_scope.

Section Values.
Variable ev dv : sbasis -> nat -> R -> R.
(** the value of a spline in one and in two variables *)
Definition spline1 (b : sbasis) (c : nat -> R) (x : R) : R := sumTo (bsize b) (fun j => c j * ev b j x).
Definition spline2 (bu bv : sbasis) (c : nat -> R) (x : R * R) : R :=
  sumTo (bsize bu * bsize bv) (fun i => c i * (ev bu (i mod bsize bu)%nat (fst x) * ev bv (i / bsize bu)%nat (snd x))).
(** the solver solves the collocation systems of [b] *)
Definition collocates (solver : nat -> (nat -> nat -> R) -> (nat -> R) -> nat -> R) (b : sbasis) : Prop := forall v, solves (bsize b) (collocation ev b) v (solver (bsize b) (collocation ev b) v).
(** the anchors tell splines apart (Schoenberg and Whitney) *)
Definition regular (b : sbasis) : Prop := forall c, (forall k, (k < bsize b)%nat -> spline1 b c (anchor b k) = 0) -> forall j, (j < bsize b)%nat -> c j = 0.
Definition good (solver : nat -> (nat -> nat -> R) -> (nat -> R) -> nat -> R) (b : sbasis) : Prop := collocates solver b /\ regular b.
(** points of the grid of anchors *)
Definition on_grid (bu bv : sbasis) (P : R * R -> Prop) : Prop := forall k l, (k < bsize bu)%nat -> (l < bsize bv)%nat -> P (anchor bu k, anchor bv l).
(** [a] are the coefficients of the univariate spline with the values of [f] in the anchors *)
Definition interpolates1 (b : sbasis) (f : R -> R) (a : nat -> R) : Prop := forall k, (k < bsize b)%nat -> spline1 b a (anchor b k) = f (anchor b k).
(** the bases across and along the edge *)
Definition across_basis (bu bv : sbasis) (dir : nat) : sbasis := match dir with O => bv | _ => bu end.
Definition along_basis (bu bv : sbasis) (dir : nat) : sbasis := match dir with O => bu | _ => bv end.
(** what multiplies the second function across the edge in a trace and in a normal function *)
Definition slope_trace (b bp : sbasis) (beta : R -> R) (bdy : bool) (i : nat) (y : R) : R :=
  ev bp i y - (if bdy then 0 else beta y) * dv bp i y * (tknot b (sdeg b + 1) / INR (sdeg b)).
Definition slope_normal (b bm : sbasis) (alpha : R -> R) (bdy : bool) (dir i : nat) (y : R) : R :=
  (match dir with O => - (1) | _ => 1 end) * (if bdy then 1 else alpha y * (tknot b (sdeg b + 1) / INR (sdeg b))) * ev bm i y.
(** value at the edge and derivative across it, at the edge, of a spline with clamped knots at 0; [st] is the step from one coefficient
    to the next along the edge, [ac] the one across *)
Definition edge_value (e : sbasis) (st : nat) (r : list R) (y : R) : R := spline1 e (fun j => nth (st * j) r 0) y.
Definition edge_slope (b e : sbasis) (st ac : nat) (r : list R) (y : R) : R :=
  INR (sdeg b) / tknot b (sdeg b + 1) * spline1 e (fun j => nth (ac + st * j) r 0 - nth (st * j) r 0) y.
Definition clamped_enough (b : sbasis) : Prop := (0 < sdeg b)%nat /\ 0 < tknot b (sdeg b + 1).
End Values.
