(** What the solver of the biharmonic equation is meant to do. *)
From Coq Require Import Reals.
From Verif Require Import Common SurfGDSpec AsmModel BihModel.
Open Scope R_scope.

(** a combination of the active functions [act] with the values [v] and the coefficients [c] *)
Definition comb (act : list nat) (v c : nat -> R) : R := sumTo (length act) (fun p => v p * c (nth p act 0%nat)).
(** all nodes, with the active functions *)
Definition nodes {A} (els : list (list nat * list A)) : list (list nat * A) := flat_map (fun e => map (fun k => (fst e, k)) (snd e)) els.
Definition single (i j : nat) : R := if (j =? i)%nat then 1 else 0.

(** differences of the values and of the normal derivatives to the prescribed ones *)
Definition valueGap (c : nat -> R) (n : list nat * bnode) : R := comb (fst n) (btr (snd n)) c - bg (snd n).
Definition slopeGap (c : nat -> R) (n : list nat * bnode) : R := comb (fst n) (bdn (snd n)) c - bgn (snd n).
Definition bdyCost (dir neu : list belem) (c : nat -> R) : R :=
  total (fun n => bw (snd n) * (valueGap c n * valueGap c n)) (nodes dir) +
  / 100000 * total (fun n => bw (snd n) * (slopeGap c n * slopeGap c n)) (nodes neu).

(** both sides of the discrete equation *)
Definition bilinear (els : list ielem) (c d : nat -> R) : R :=
  total (fun n => iw (snd n) * (comb (fst n) (ilap (snd n)) c * comb (fst n) (ilap (snd n)) d)) (nodes els).
Definition load (els : list ielem) (lap : list belem) (d : nat -> R) : R :=
  total (fun n => iw (snd n) * (comb (fst n) (ival (snd n)) d * isrc (snd n))) (nodes els) +
  total (fun n => bw (snd n) * (comb (fst n) (bdn (snd n)) d * bg (snd n))) (nodes lap).
Definition energy (els : list ielem) (lap : list belem) (c : nat -> R) : R := / 2 * bilinear els c c - load els lap c.

(** all active functions have numbers *)
Definition acts_ok {A} (n : nat) (els : list (list nat * list A)) : Prop := forall e a, In e els -> In a (fst e) -> (a < n)%nat.
(** a function at a side with Dirichlet conditions or of the second layer at a side with Neumann conditions *)
Definition prescribed (dirIx neuIx : list (list nat)) (i : nat) : Prop := exists l, (In l dirIx \/ In l neuIx) /\ In i l.
Definition indices_ok (n : nat) (dirIx neuIx : list (list nat)) : Prop := forall i, prescribed dirIx neuIx i -> (i < n)%nat.
Definition solves_all (solver : nat -> (nat -> nat -> R) -> (nat -> R) -> nat -> R) (n : nat) (X : sys) : Prop :=
  solves n (smat X) (srhs X) (solver n (smat X) (srhs X)).
(** every system the solver meets is solved *)
Definition solver_good (solver : nat -> (nat -> nat -> R) -> (nat -> R) -> nat -> R) (n : nat) (dirIx neuIx : list (list nat)) (dir neu lap : list belem) (els : list ielem) : Prop :=
  forall m mb, setMapper n dirIx neuIx = Ok m -> bdyMapper m = Ok mb ->
  (forall X, assembleJobs mb (fun _ => 0) (projJobs dir neu) = Ok X -> solves_all solver (mfree mb) X) /\
  (forall fixed X, project solver m dir neu = Ok fixed -> bihSystem m fixed els lap = Ok X -> solves_all solver (mfree m) X).

(** partial derivatives *)
Definition d_x (f g : R -> R -> R) : Prop := forall x y, derivable_pt_lim (fun t => f t y) x (g x y).
Definition d_y (f g : R -> R -> R) : Prop := forall x y, derivable_pt_lim (fun t => f x t) y (g x y).
Definition laplacian (f l : R -> R -> R) : Prop := exists fx fxx fy fyy, d_x f fx /\ d_x fx fxx /\ d_y f fy /\ d_y fy fyy /\ forall x y, l x y = fxx x y + fyy x y.

(** sum of the squared differences in the nodes *)
Definition sumsq (l : list R) : R := total (fun x => x * x) l.
Definition part (f : enode -> list R) (l : list enode) : R := total (fun k => ew k * sumsq (f k)) l.

(** vanishing for the functions that are prescribed, or for the others *)
Definition inner (dirIx neuIx : list (list nat)) (d : nat -> R) : Prop := forall i, prescribed dirIx neuIx i -> d i = 0.
Definition outer (dirIx neuIx : list (list nat)) (d : nat -> R) : Prop := forall i, ~ prescribed dirIx neuIx i -> d i = 0.
(** weights of the quadrature *)
Definition positive (dir neu : list belem) (els : list ielem) : Prop :=
  (forall n, In n (nodes dir) -> 0 < bw (snd n)) /\ (forall n, In n (nodes neu) -> 0 < bw (snd n)) /\ (forall n, In n (nodes els) -> 0 < iw (snd n)).
(** the quadrature sees every function: prescribed ones by their values or slopes on the boundary, inner ones by their Laplacian *)
Definition visible (n : nat) (dirIx neuIx : list (list nat)) (dir neu : list belem) (els : list ielem) : Prop :=
  (forall d, outer dirIx neuIx d -> (forall k, In k (nodes dir) -> comb (fst k) (btr (snd k)) d = 0) -> (forall k, In k (nodes neu) -> comb (fst k) (bdn (snd k)) d = 0) ->
     forall i, (i < n)%nat -> d i = 0) /\
  (forall d, inner dirIx neuIx d -> (forall k, In k (nodes els) -> comb (fst k) (ilap (snd k)) d = 0) -> forall i, (i < n)%nat -> d i = 0).
(** the spline [v] is the solution: values and slopes on the boundary are matched by its prescribed functions alone, and the equation holds *)
Definition is_solution (dirIx neuIx : list (list nat)) (dir neu lap : list belem) (els : list ielem) (v : nat -> R) : Prop :=
  (exists b, outer dirIx neuIx b /\ (forall i, prescribed dirIx neuIx i -> b i = v i) /\ (forall k, In k (nodes dir) -> valueGap b k = 0) /\ (forall k, In k (nodes neu) -> slopeGap b k = 0)) /\
  forall d, inner dirIx neuIx d -> bilinear els v d = load els lap d.
