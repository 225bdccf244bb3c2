(** Model of the rotation of surface patches around a vertex in gsApproxC1Vertex (src/gsApproxC1Vertex.h:80-141).

    Simplification: real arithmetic is exact. *)
From Verif Require Import Common SplineModel GluingModel.
Open Scope R_scope.

(** a 3x3 matrix by rows *)
Definition mat3 : Type := (R * R * R) * (R * R * R) * (R * R * R).
(** product of a matrix and a vector *)
Definition mul3 (M : mat3) (v : R * R * R) : R * R * R :=
  let '(r0, r1, r2) := M in let '(v0, v1, v2) := v in
  let d r := let '(a, b, c) := r in a * v0 + b * v1 + c * v2 in (d r0, d r1, d r2).

(** src/gsApproxC1Vertex.h:94-127: the matrix R for the normal [n] = n(0..2), with z = (0, 0, 1) *)
Definition rotMatrix (n : R * R * R) : mat3 :=
  let '(n0, n1, n2) := n in
  let z0 := 0 in let z1 := 0 in let z2 := 1 in
  let x := n1 * z2 - n2 * z1 in
  let y := n2 * z0 - n0 * z2 in
  let w := n0 * z1 - n1 * z0 in
  let nz := norm3 (z0, z1, z2) in
  let c := (n0 * z0 + n1 * z1 + n2 * z2) / (norm3 n * nz) in
  let s := norm3 (x, y, w) / (norm3 n * nz) in
  ((c + x * x * (1 - c), x * y * (1 - c) - w * s, x * w * (1 - c) + y * s),
   (x * y * (1 - c) + w * s, c + y * y * (1 - c), y * w * (1 - c) - x * s),
   (x * w * (1 - c) - y * s, y * w * (1 - c) + x * s, c + w * w * (1 - c))).

(** src/gsApproxC1Vertex.h:82-99: the normal is computed from the derivatives of the first patch at the vertex *)
Definition vertexRotation (J : J3) : mat3 := rotMatrix (normalN J).

(** src/gsApproxC1Vertex.h:129-141: every coefficient is turned around the first one *)
Definition rotateCoefs (M : mat3) (coefs : list (R * R * R)) : res (list (R * R * R)) :=
  do c0 <- vget coefs 0;
  Ok (map (fun c => let '(a0, a1, a2) := c in let '(b0, b1, b2) := c0 in
                    let '(m0, m1, m2) := mul3 M (a0 - b0, a1 - b1, a2 - b2) in (m0 + b0, m1 + b1, m2 + b2)) coefs).
