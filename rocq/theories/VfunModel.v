(** Model of the functions at a vertex in the approximate C1 construction: gsVertexBasis::eval_into
    (src/gsApproxC1Utils.h:474-803) and the matrix Phi (src/gsApproxC1Vertex.h:69-77, 143-151).

    Simplifications: real arithmetic is exact; evaluation is at one point; the derivatives of the geometry at the vertex
    are given; the gluing data are arbitrary functions with given derivatives; an expression spelled out five times in
    the code, once for planar and once for surface geometries, is a function here. *)
From Verif Require Import Common SplineModel GluingModel.
Open Scope R_scope.

(** src/gsApproxC1Vertex.h:69-77 Phi, planar *)
Definition PhiPlanar (sigma : R) (i j : nat) : R :=
  if (i =? j)%nat then match j with O => 1 | 1%nat => sigma | 2%nat => sigma | _ => sigma * sigma end else 0.
(** src/gsApproxC1Vertex.h:143-151 Phi, surface *)
Definition PhiSurface (sigma : R) (i j : nat) : R :=
  match i, j with
  | 0%nat, 0%nat => 1
  | 1%nat, 1%nat => sigma
  | 2%nat, 2%nat => sigma
  | 4%nat, 3%nat => sigma * sigma
  | 5%nat, 4%nat => sigma * sigma
  | 7%nat, 4%nat => sigma * sigma
  | 8%nat, 5%nat => sigma * sigma
  | _, _ => 0
  end.

(** the values of c, c+, its derivative, and c- in one direction *)
Record cvals := mkC { c_0 : R; c_1 : R; cp_0 : R; cp_1 : R; cp_2 : R; dp_0 : R; dp_1 : R; dp_2 : R; cm_0 : R; cm_1 : R }.

(** src/gsApproxC1Utils.h:488-543: the loop body for one direction *)
Definition evalC (b bp bm : sbasis) (x : R) : res cvals :=
  do b_0 <- evalSingle b 0 x;
  do b_1 <- evalSingle b 1 x;
  do p_0 <- evalSingle bp 0 x;
  do p_1 <- evalSingle bp 1 x;
  do p_2 <- evalSingle bp 2 x;
  do p_0d <- derivSingle bp 0 x;
  do p_1d <- derivSingle bp 1 x;
  do p_2d <- derivSingle bp 2 x;
  do m_0 <- evalSingle bm 0 x;
  do m_1 <- evalSingle bm 1 x;
  do b_1_0 <- derivSingle b 1 0;
  do m_1_0 <- derivSingle bm 1 0;
  let f1 := 1 / b_1_0 in
  let fm1 := 1 / m_1_0 in
  do dp1 <- derivSingle bp 1 0;
  do ddp1 <- deriv2Single bp 1 0;
  do ddp2 <- deriv2Single bp 2 0;
  let fc1 := 1 / dp1 in
  let fc12 := - ddp1 / (dp1 * ddp2) in
  let fc2 := 1 / ddp2 in
  Ok (mkC (b_0 + b_1) (f1 * b_1)
          (p_0 + p_1 + p_2) (fc1 * p_1 + fc12 * p_2) (fc2 * p_2)
          (p_0d + p_1d + p_2d) (fc1 * p_1d + fc12 * p_2d) (fc2 * p_2d)
          (m_0 + m_1) (fm1 * m_1)).

(** derivatives of the geometry at the vertex: jacobian entry (row, column), row of deriv2 *)
Record vgeo := mkVG { gjac : nat -> nat -> R; gder2 : nat -> R }.
(** second derivatives as vectors: src/gsApproxC1Utils.h:644-657 *)
Definition d11 (G : vgeo) (r : nat) : R := gder2 G (match r with 0%nat => 0 | 1%nat => 3 | _ => 6 end)%nat.
Definition d22 (G : vgeo) (r : nat) : R := gder2 G (match r with 0%nat => 1 | 1%nat => 4 | _ => 7 end)%nat.
Definition d12 (G : vgeo) (r : nat) : R := gder2 G (match r with 0%nat => 2 | 1%nat => 5 | _ => 8 end)%nat.

(** src/gsApproxC1Utils.h:677, 678, 700, 719, 739, 758: m_Phi.block(1, 0, targetDim, 6).transpose() * w, entry [b] *)
Definition firstPhi (surface : bool) (Phi : nat -> nat -> R) (b : nat) (w : nat -> R) : R :=
  Phi 1%nat b * w 0%nat + Phi 2%nat b * w 1%nat + (if surface then Phi 3%nat b * w 2%nat else 0).
(** src/gsApproxC1Utils.h:680-697, 702-717, 721-735, 741-755, 760-774, entry [b]: second derivatives in the directions [p] and
    [w] plus first derivatives in the direction [e] *)
Definition secondPhi (surface : bool) (Phi : nat -> nat -> R) (b : nat) (p w e : nat -> R) : R :=
  if surface then
    (p 0%nat * Phi 4%nat b + p 1%nat * Phi 7%nat b + p 2%nat * Phi 10%nat b) * w 0%nat +
    (p 0%nat * Phi 5%nat b + p 1%nat * Phi 8%nat b + p 2%nat * Phi 11%nat b) * w 1%nat +
    (p 0%nat * Phi 6%nat b + p 1%nat * Phi 9%nat b + p 2%nat * Phi 12%nat b) * w 2%nat +
    Phi 1%nat b * e 0%nat + Phi 2%nat b * e 1%nat + Phi 3%nat b * e 2%nat
  else
    (p 0%nat * Phi b 3%nat + p 1%nat * Phi b 4%nat) * w 0%nat + (p 0%nat * Phi b 4%nat + p 1%nat * Phi b 5%nat) * w 1%nat +
    Phi b 1%nat * e 0%nat + Phi b 2%nat * e 1%nat.

(** gluing data at the edges u and v with their derivatives *)
Record gdata := mkGD { galpha : R -> R; gbeta : R -> R; galpha' : R -> R; gbeta' : R -> R }.

(** src/gsApproxC1Utils.h:545-626: without interface alpha = 1 and beta = 0 *)
Definition edgeData (kind : bool) (g : gdata) : gdata :=
  if kind then g else mkGD (fun _ => 1) (fun _ => 0) (fun _ => 0) (fun _ => 0).

(** src/gsApproxC1Utils.h:637-642, 659-673: the transversal vectors and their derivatives *)
Definition ddMinus (g : gdata) (G : vgeo) (r : nat) : R := - (1) / galpha g 0 * (gjac G r 1 + gbeta g 0 * gjac G r 0).
Definition ddPlus (g : gdata) (G : vgeo) (r : nat) : R := 1 / galpha g 0 * (gjac G r 0 + gbeta g 0 * gjac G r 1).
Definition ddMinus' (g : gdata) (G : vgeo) (r : nat) : R :=
  - (1) / (galpha g 0 * galpha g 0) *
  ((d12 G r + (gbeta' g 0 * gjac G r 0 + gbeta g 0 * d11 G r)) * galpha g 0 - (gjac G r 1 + gbeta g 0 * gjac G r 0) * galpha' g 0).
Definition ddPlus' (g : gdata) (G : vgeo) (r : nat) : R :=
  1 / (galpha g 0 * galpha g 0) *
  ((d12 G r + (gbeta' g 0 * gjac G r 1 + gbeta g 0 * d22 G r)) * galpha g 0 - (gjac G r 0 + gbeta g 0 * gjac G r 1) * galpha' g 0).

(** src/gsApproxC1Utils.h:474-803 gsVertexBasis::eval_into at one point *)
Definition vertexEval (surface : bool) (comp plus minus : nat -> sbasis) (glue : nat -> gdata) (kind : nat -> bool) (G : vgeo)
    (Phi : nat -> nat -> R) (b : nat) (x : R * R) : res R :=
  do U <- evalC (comp 0%nat) (plus 0%nat) (minus 0%nat) (row x 0);
  do V <- evalC (comp 1%nat) (plus 1%nat) (minus 1%nat) (row x 1);
  let g0 := edgeData (kind 0%nat) (glue 0%nat) in
  let g1 := edgeData (kind 1%nat) (glue 1%nat) in
  let j0 := fun r => gjac G r 0 in
  let j1 := fun r => gjac G r 1 in
  (* d_ik *)
  let e0 := Phi b 0%nat in
  let e1 := firstPhi surface Phi b j0 in
  let e2 := firstPhi surface Phi b j1 in
  let e3 := secondPhi surface Phi b j0 j1 (d12 G) in
  (* d_ilik_minus *)
  let m0 := Phi b 0%nat in
  let m1 := firstPhi surface Phi b j0 in
  let m2 := secondPhi surface Phi b j0 j0 (d11 G) in
  let m3 := firstPhi surface Phi b (ddMinus g0 G) in
  let m4 := secondPhi surface Phi b j0 (ddMinus g0 G) (ddMinus' g0 G) in
  (* d_ilik_plus *)
  let p0 := Phi b 0%nat in
  let p1 := firstPhi surface Phi b j1 in
  let p2 := secondPhi surface Phi b j1 j1 (d22 G) in
  let p3 := firstPhi surface Phi b (ddPlus g1 G) in
  let p4 := secondPhi surface Phi b j1 (ddPlus g1 G) (ddPlus' g1 G) in
  let alpha0 := galpha g0 (row x 0) in
  let beta0 := gbeta g0 (row x 0) in
  let alpha1 := galpha g1 (row x 1) in
  let beta1 := gbeta g1 (row x 1) in
  Ok (m0 * (cp_0 U * c_0 V - beta0 * (dp_0 U * c_1 V)) +
      m1 * (cp_1 U * c_0 V - beta0 * (dp_1 U * c_1 V)) +
      m2 * (cp_2 U * c_0 V - beta0 * (dp_2 U * c_1 V)) -
      m3 * (alpha0 * (cm_0 U * c_1 V)) -
      m4 * (alpha0 * (cm_1 U * c_1 V)) +
      (p0 * (cp_0 V * c_0 U - beta1 * (dp_0 V * c_1 U)) +
       p1 * (cp_1 V * c_0 U - beta1 * (dp_1 V * c_1 U)) +
       p2 * (cp_2 V * c_0 U - beta1 * (dp_2 V * c_1 U)) +
       p3 * (alpha1 * (cm_0 V * c_1 U)) +
       p4 * (alpha1 * (cm_1 V * c_1 U))) -
      (e0 * (c_0 U * c_0 V) + e2 * (c_0 U * c_1 V) + e1 * (c_1 U * c_0 V) + e3 * (c_1 U * c_1 V))).
