(** Model of computeKernel, which combines the functions at a vertex on the boundary: src/gsApproxC1Vertex.hpp:114-343 and
    src/gsC1SurfVertex.h:846-1033. The second is the first with the option "second" switched off.

    Simplifications: real arithmetic is exact and entries below the threshold (1e-25, or math::almostEqual) are 0, so that an
    assignment which is skipped changes nothing; a matrix and the coefficients of a function are functions with checked sizes; the
    kernel of a matrix and the rank test are computed by gsEigen::FullPivLU and are external: they are given by a list of columns
    and a test, and the loop that raises the threshold is part of the external kernel. *)
From Coq Require Import Reals.
From Verif Require Import Common.
Open Scope R_scope.

(** A patch at the vertex: sizes of the two components of the basis, coefficient [k] of function [j], and whether the sides 3
    (south) and 1 (west) are interfaces; a side is an interface or on the boundary. *)
Record vpatch := mkVP { vdu : nat; vdv : nat; vcoef : nat -> nat -> R; vin3 : bool; vin1 : bool }.

(** patch(j).coef(k, 0) *)
Definition coefAt (p : vpatch) (j k : nat) : res R := if (k <? vdu p * vdv p)%nat then Ok (vcoef p j k) else Err.

Record kmat := mkKM { krows : nat; kval : nat -> nat -> R }.
(** coefs_corner(r, j) = x *)
Definition kset (m : kmat) (r j : nat) (x : R) : res kmat :=
  if ((r <? krows m) && (j <? 6))%nat then Ok (mkKM (krows m) (fun r' j' => if ((r' =? r) && (j' =? j))%nat then x else kval m r' j')) else Err.

(** a side on the boundary: side, patchID, dim_u, dim_v *)
Record bside := mkBS { bsside : nat; bspatch : nat; bsu : nat; bsv : nat }.
Record collected := mkCol { cside : list bside; ciface : list (nat * nat); cdim : nat }.

(** src/gsApproxC1Vertex.hpp:131-186, one patch: the vectors side, patchID, dim_u, dim_v; patchID_iFace, dim_u_iFace; dim_mat *)
Definition collectPatch (second : bool) (c : collected) (np : nat) (p : vpatch) : collected :=
  let c := if negb (vin3 p) then mkCol (cside c ++ [mkBS 3 np (vdu p) (vdv p)]) (ciface c) (cdim c + vdu p + (if second then 0 else vdu p)) else c in
  let c := if negb (vin1 p) then mkCol (cside c ++ [mkBS 1 np (vdu p) (vdv p)]) (ciface c) (cdim c + vdv p + (if second then 0 else vdv p)) else c in
  if vin1 p && vin3 p then mkCol (cside c) (ciface c ++ [(np, vdu p)]) (cdim c + (if second then 1 else 4)) else c.
Fixpoint collectFrom (second : bool) (ps : list vpatch) (np : nat) (c : collected) : collected :=
  match ps with [] => c | p :: r => collectFrom second r (S np) (collectPatch second c np p) end.
Definition collect (second : bool) (ps : list vpatch) : collected := collectFrom second ps 0 (mkCol [] [] 0).

(** one coefficient: coefs_corner(r, j) = basisVertexResult[np].patch(j).coef(k, 0) *)
Definition put (ps : list vpatch) (np j k r : nat) (m : kmat) : res kmat :=
  do p <- vget ps np; do x <- coefAt p j k; kset m r j x.

(** src/gsApproxC1Vertex.hpp:212-257: the loop body for one side *)
Definition sideRows (second : bool) (ps : list vpatch) (st : kmat * nat) (b : bside) : res (kmat * nat) :=
  let '(m, shift) := st in
  if (bsside b <? 3)%nat then
    do m <- foldM (fun m i => foldM (fun m j =>
              do m <- put ps (bspatch b) j (i * bsu b) (shift + i) m;
              if second then Ok m else put ps (bspatch b) j (i * bsu b + 1) (bsv b + shift + i) m) (seq 0 6) m) (seq 0 (bsv b)) m;
    Ok (m, shift + bsv b + (if second then 0 else bsv b))%nat
  else
    do m <- foldM (fun m i => foldM (fun m j =>
              do m <- put ps (bspatch b) j i (shift + i) m;
              if second then Ok m else put ps (bspatch b) j (i + bsu b) (bsu b + shift + i) m) (seq 0 6) m) (seq 0 (bsu b)) m;
    Ok (m, shift + bsu b + (if second then 0 else bsu b))%nat.

(** src/gsApproxC1Vertex.hpp:259-286: the loop body for one patch between two interfaces; with "second" the patch is looked up in
    patchID (line 280), not in patchID_iFace *)
Definition ifaceRows (second : bool) (ps : list vpatch) (patchID : list nat) (st : kmat * nat) (e : nat * (nat * nat)) : res (kmat * nat) :=
  let '(m, shift) := st in
  let '(index, (np, du)) := e in
  if second then
    do m <- foldM (fun m j => do q <- vget patchID index; put ps q j 0 shift m) (seq 0 6) m;
    Ok (m, shift + 1)%nat
  else
    do m <- foldM (fun m i => foldM (fun m j =>
              do m <- put ps np j i (shift + i) m;
              put ps np j (i + du) (shift + 2 + i) m) (seq 0 6) m) (seq 0 2) m;
    Ok (m, shift + 4)%nat.

(** src/gsApproxC1Vertex.hpp:208-286 coefs_corner *)
Definition coefsCorner (second : bool) (ps : list vpatch) : res kmat :=
  let c := collect second ps in
  do st <- foldM (sideRows second ps) (cside c) (mkKM (cdim c) (fun _ _ => 0), 0%nat);
  do st <- foldM (ifaceRows second ps (map bspatch (cside c))) (combine (seq 0 (length (ciface c))) (ciface c)) st;
  Ok (fst st).

(** src/gsApproxC1Vertex.hpp:192-203: the number of functions without conditions, from the determinant *)
Definition dofsCorner (second : bool) (eps det : R) : nat :=
  let d := (if second then 3 else 1)%nat in
  if Rlt_dec eps (det * det) then (if second then 1 else 0)%nat else d.
(** src/gsApproxC1Vertex.hpp:143-155, 168-180: the determinant of the tangents of the two boundary edges; for a surface with the
    normal of the patch with the first one *)
Definition detPlanar (a b : R * R) : R := fst a * snd b - snd a * fst b.
Definition normalOf (u v : R * R * R) : R * R * R :=
  let '(u0, u1, u2) := u in let '(v0, v1, v2) := v in (u1 * v2 - u2 * v1, u2 * v0 - u0 * v2, u0 * v1 - u1 * v0).
Definition detSurface (a b n : R * R * R) : R :=
  let '(a0, a1, a2) := a in let '(b0, b1, b2) := b in let '(n0, n1, n2) := n in
  a0 * (b1 * n2 - b2 * n1) - b0 * (a1 * n2 - a2 * n1) + n0 * (a1 * b2 - a2 * b1).

(** src/gsApproxC1Vertex.hpp:288-321: columns of length 6; [dep] tells whether the columns are dependent. [Err] when the loop asks
    for a seventh unit vector. *)
Definition unitVec (c : nat) (i : nat) : R := if (i =? c)%nat then 1 else 0.
Fixpoint complete (dep : list (nat -> R) -> bool) (K : list (nat -> R)) (count fuel : nat) : res (list (nat -> R)) :=
  if (length K <? 6)%nat then
    match fuel with
    | O => Err
    | S fuel =>
      if (count <? 6)%nat then
        let K' := K ++ [unitVec count] in
        complete dep (if dep K' then K else K') (S count) fuel
      else Err
    end
  else Ok K.
Definition kernelColumns (dep : list (nat -> R) -> bool) (dofs : nat) (ker : list (nat -> R)) : res (list (nat -> R)) :=
  if (0 <? dofs)%nat then complete dep ker 0 7 else Ok (map unitVec (seq 0 6)).

(** src/gsApproxC1Vertex.hpp:326-341: function [j] of a patch after the combination *)
Definition combined (p : vpatch) (K : list (nat -> R)) (j : nat) : res (nat -> R) :=
  do col <- vget K j;
  Ok (fun k => fold_left (fun s i => s + vcoef p i k * col i) (seq 0 6) 0).
