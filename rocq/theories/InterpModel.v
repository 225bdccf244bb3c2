(** Model of the option "interpolation" of the approximate C1 construction: the functions at an edge, src/gsApproxC1Edge.hpp:115-176 with the branches 121-128 and
    152-159, and at a vertex, src/gsApproxC1Vertex.h:300-316.

    Simplifications: real arithmetic is exact; the pieces are tensor products of two univariate bases; anchors and interpolateAtAnchors belong to the G+Smo core
    and are written out here (Greville points, one direction after the other); the linear solver for the collocation systems is an argument.
    The last anchor is the right end of the interval, where evaluation in G+Smo takes the value from the left, unlike [bspl] of SplineModel.v: values and derivatives of
    the univariate functions are arguments [ev] and [dv]. *)
From Verif Require Import Common SplineModel GluingModel EdgeModel.
Open Scope R_scope.

(** gsKnotVector::greville (G+Smo core) *)
Definition anchor (b : sbasis) (i : nat) : R :=
  match sdeg b with O => (tknot b i + tknot b (i + 1)) / 2 | S _ => fold_right (fun k s => tknot b (i + 1 + k) + s) 0 (seq 0 (sdeg b)) / INR (sdeg b) end.
(** gsTensorBasis::anchors (G+Smo core), the first direction runs fastest *)
Definition anchors (bu bv : sbasis) : list (R * R) := map (fun i => (anchor bu (i mod bsize bu)%nat, anchor bv (i / bsize bu)%nat)) (seq 0 (bsize bu * bsize bv)).

Section Values.
(** values and derivatives of the functions of a univariate basis *)
Variable ev dv : sbasis -> nat -> R -> R.
(** evalSingle_into and derivSingle_into (G+Smo core); [Err] for a function that does not exist *)
Definition evAt (b : sbasis) (i : nat) (x : R) : res R := if (i + sdeg b + 1 <? length (sknots b))%nat then Ok (ev b i x) else Err.
Definition dvAt (b : sbasis) (i : nat) (x : R) : res R := if (i + sdeg b + 1 <? length (sknots b))%nat then Ok (dv b i x) else Err.
(** src/gsApproxC1Utils.h:292-318 gsTraceBasis::eval_into, as in GluingModel.v *)
Definition traceAt (comp : nat -> sbasis) (bp : sbasis) (beta : R -> R) (boundary : bool) (bfID m : nat) (x : R * R) : res R :=
  let b := comp (1 - m)%nat in
  do tau <- vget (sknots b) (sdeg b + 1);
  let bt := if boundary then 0 else beta (row x m) in
  do n0 <- evAt b 0 (row x (1 - m));
  do n1 <- evAt b 1 (row x (1 - m));
  do n <- evAt bp bfID (row x m);
  do dn <- dvAt bp bfID (row x m);
  Ok (n * (n0 + n1) - bt * dn * n1 * tau / INR (sdeg b)).
(** src/gsApproxC1Utils.h:380-406 gsNormalDerivBasis::eval_into *)
Definition normalAt (comp : nat -> sbasis) (bm : sbasis) (alpha : R -> R) (boundary : bool) (bfID m : nat) (x : R * R) : res R :=
  let b := comp (1 - m)%nat in
  do tau <- vget (sknots b) (sdeg b + 1);
  let al := if boundary then 1 else alpha (row x m) in
  do n1 <- evAt b 1 (row x (1 - m));
  do n <- evAt bm bfID (row x m);
  let sign := match m with O => - (1) | _ => 1 end in
  if boundary then Ok (sign * (al * (n * n1)))
  else Ok (sign * (al * (n * n1)) * tau / INR (sdeg b)).
(** collocationMatrix at the anchors (G+Smo core) *)
Definition collocation (b : sbasis) (k j : nat) : R := ev b j (anchor b k).

(** the solver for collocation systems with n unknowns *)
Variable solver : nat -> (nat -> nat -> R) -> (nat -> R) -> nat -> R.

Definition interp1 (b : sbasis) (vals : nat -> R) : nat -> R := solver (bsize b) (collocation b) vals.
(** gsTensorBasis::interpolateAtAnchors and interpolateGrid (G+Smo core); the number of values is checked *)
Definition interpolateAtAnchors (bu bv : sbasis) (vals : list R) : res (list R) :=
  do _ <- ensure (length vals =? bsize bu * bsize bv)%nat;
  Ok (map (fun i => interp1 bv (fun l => interp1 bu (fun k => nth (k + bsize bu * l) vals 0) (i mod bsize bu)%nat) (i / bsize bu)%nat) (seq 0 (bsize bu * bsize bv))).
(** src/gsApproxC1Edge.hpp:125-127, 156-158, src/gsApproxC1Vertex.h:311-313 *)
Definition interpFunction (bu bv : sbasis) (f : R * R -> res R) : res (list R) :=
  do vals <- mapM f (anchors bu bv);
  interpolateAtAnchors bu bv vals.
(** src/gsApproxC1Edge.hpp:115-176 with the option; [bu] and [bv] are the components of the edge piece, [comp] those of initSpace.basis(0), [bp] and [bm] the plus and the minus space *)
Definition edgeInterp (bu bv : sbasis) (dir : nat) (comp : nat -> sbasis) (bp bm : sbasis) (alpha beta : R -> R) (bdy : bool) : res (list (list R)) :=
  do a <- mapM (fun i => interpFunction bu bv (traceAt comp bp beta bdy i dir)) (seq 3 (bsize bp - 6));
  do b <- mapM (fun i => interpFunction bu bv (normalAt comp bm alpha bdy i dir)) (seq 2 (bsize bm - 4));
  Ok (a ++ b).
(** src/gsApproxC1Vertex.h:300-316 with the option *)
Definition vertexInterp (bu bv : sbasis) (fs : nat -> R * R -> res R) : res (list (list R)) := mapM (fun bfID => interpFunction bu bv (fs bfID)) (seq 0 6).
End Values.
