(** Scaling of the data prescribed at a vertex: computeSigma of the approximate C1 construction (gsApproxC1Vertex.hpp:70-105) and of the
    construction on surfaces (gsC1SurfVertex.h:109-133).  Exact rationals replace floating-point numbers; a division by zero and a knot outside the
    knot vector are [Err]. *)
From Verif Require Import Common.
Open Scope nat_scope.

(** One direction of a tensor-product basis: degree and knots (gsKnotVector of the core). *)
Record sdir := mkSD { sdeg : nat; sknots : list Q }.
Definition sbasis : Type := sdir * sdir.

(** The degrees and knots read through bsp_temp.degree(j), bsp_temp.knot(j,.) (gsApproxC1Vertex.hpp:80-88) and component(j) (gsC1SurfVertex.h:121); parDim() is 2. *)
Definition sdirAt (b : sbasis) (j : nat) : res sdir := vget [fst b; snd b] j.

(** Re-parameterised patch at the vertex: the pieces of its basis (getBasisRotated(), gsApproxC1Vertex.hpp:80), the basis of its geometry
    (gsC1SurfVertex.h:115) and the first derivatives at the vertex as a column (deriv(zero), gsApproxC1Vertex.hpp:97, gsC1SurfVertex.h:130). *)
Record spatch := mkSP { spPieces : list sbasis; spGeo : sbasis; spDeriv : list Q }.

(** lpNorm<Infinity>() (gsApproxC1Vertex.hpp:98, gsC1SurfVertex.h:130): largest absolute value. *)
Definition qmax (a b : Q) : Q := if Qle_bool a b then b else a.
Definition qabs (a : Q) : Q := if Qle_bool 0 a then a else Qopp a.
Definition lpInf (l : list Q) : Q := fold_right (fun x m => qmax (qabs x) m) 0%Q l.

(** math::max of the degrees (gsApproxC1Vertex.hpp:82), maxDegree() (gsC1SurfVertex.h:116). *)
Definition degMax (b : sbasis) : nat := Nat.max (sdeg (fst b)) (sdeg (snd b)).

(** Comparison a > b of the code (gsApproxC1Vertex.hpp:89), a < b (gsC1SurfVertex.h:122). *)
Definition qgt (a b : Q) : bool := negb (Qle_bool a b).
Definition qlt (a b : Q) : bool := negb (Qle_bool b a).

(** Loop over the directions, gsApproxC1Vertex.hpp:86-90: the knot with index p+1, the smallest is kept. *)
Definition approxDir (b : sbasis) (p : nat) (h : Q) (j : nat) : res Q :=
  do d <- sdirAt b j;
  do t <- vget (sknots d) (p + 1);
  Ok (if qgt h t then t else h).

(** Body of the loop over the patches, gsApproxC1Vertex.hpp:78-91: the piece is always taken from the first patch. *)
Definition approxStep (aux : list spatch) (vi : list nat) (st : nat * Q) (i : nat) : res (nat * Q) :=
  let '(p, h) := st in
  do a0 <- vget aux 0;
  do k <- vget vi i;
  do b <- vget (spPieces a0) (k + 4);
  let pt := degMax b in
  let p' := if p <? pt then pt else p in
  do h' <- foldM (approxDir b p') [0; 1] h;
  Ok (p', h').

(** Sum of the norms of the derivatives, gsApproxC1Vertex.hpp:93-99 (from 0), gsC1SurfVertex.h:127-130 (from the value of the member). *)
Definition derivSum (s : Q) (aux : list spatch) : Q := fold_left (fun s a => (s + lpInf (spDeriv a))%Q) aux s.

(** Last lines, gsApproxC1Vertex.hpp:100-102, gsC1SurfVertex.h:131-132: sigma *= h/(n*p); 1/sigma. *)
Definition sigmaEnd (s h : Q) (n p : nat) : res Q :=
  if n * p =? 0 then Err else
  let s' := (s * (h / inject_Z (Z.of_nat (n * p))))%Q in
  if Qeq_bool s' 0 then Err else Ok (1 / s')%Q.

(** computeSigma, gsApproxC1Vertex.hpp:70-103. *)
Definition approxSigma (aux : list spatch) (vi : list nat) : res Q :=
  do (p, h) <- foldM (approxStep aux vi) (seq 0 (length aux)) (0, 1%Q);
  sigmaEnd (derivSum 0 aux) h (length aux) p.

(** Loop over the directions, gsC1SurfVertex.h:119-123: the knot with index p+2, the largest is kept. *)
Definition surfDir (b : sbasis) (p : nat) (h : Q) (j : nat) : res Q :=
  do d <- sdirAt b j;
  do t <- vget (sknots d) (p + 2);
  Ok (if qlt h t then t else h).

(** Body of the loop over the patches, gsC1SurfVertex.h:113-124. *)
Definition surfStep (st : nat * Q) (a : spatch) : res (nat * Q) :=
  let '(p, h) := st in
  let pt := degMax (spGeo a) in
  let p' := if p <? pt then pt else p in
  do h' <- foldM (surfDir (spGeo a) p') [0; 1] h;
  Ok (p', h').

(** computeSigma, gsC1SurfVertex.h:109-133; [s] is the member sigma before the call (0 after the constructor, line 44). *)
Definition surfSigma (s : Q) (aux : list spatch) : res Q :=
  do (p, h) <- foldM surfStep aux (0, 0%Q);
  sigmaEnd (derivSum s aux) h (length aux) p.

(** The prescribed data, gsApproxC1Vertex.h:70-77 and gsC1SurfVertex.h:595-602: the identity with column 1, 2 multiplied by sigma and 3-5 by sigma squared. *)
Definition phiScale (s : Q) (c : nat) : Q :=
  match c with 0 => 1%Q | 1 | 2 => s | _ => (s * s)%Q end.
Definition phiMat (s : Q) : list (list Q) :=
  map (fun r => map (fun c => if r =? c then phiScale s c else 0%Q) (seq 0 6)) (seq 0 6).
