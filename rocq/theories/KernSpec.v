(** What the property C61 says. *)
From Coq Require Import Reals.
From Verif Require Import Common SplineModel SplineSpec SurfGDSpec KernModel.
Open Scope R_scope.

(** coefficient [k] of the combination of the six functions with the factors [x] *)
Definition comb (p : vpatch) (x : nat -> R) (k : nat) : R := sumTo 6 (fun j => vcoef p j k * x j).

(** The coefficients next to the boundary vanish: those of the first row (column), and without "second" also those of the next one.
    A patch between two interfaces has, without "second", the value, the first derivatives and the mixed derivative 0 at the vertex. *)
Definition meets (second : bool) (p : vpatch) (x : nat -> R) : Prop :=
  (vin3 p = false -> forall i, (i < vdu p)%nat -> comb p x i = 0 /\ (second = false -> comb p x (i + vdu p) = 0)) /\
  (vin1 p = false -> forall i, (i < vdv p)%nat -> comb p x (i * vdu p) = 0 /\ (second = false -> comb p x (i * vdu p + 1) = 0)) /\
  (vin1 p = true -> vin3 p = true -> second = false -> comb p x 0 = 0 /\ comb p x 1 = 0 /\ comb p x (vdu p) = 0 /\ comb p x (1 + vdu p) = 0).

(** [x] is in the kernel of the matrix *)
Definition in_kernel (m : kmat) (x : nat -> R) : Prop := forall r, (r < krows m)%nat -> sumTo 6 (fun j => kval m r j * x j) = 0.

(** number of patches between two interfaces and number of sides on the boundary *)
Definition between (ps : list vpatch) : nat := length (filter (fun p => vin1 p && vin3 p) ps).
Definition boundary_sides (ps : list vpatch) : nat := (length (filter (fun p => negb (vin3 p)) ps) + length (filter (fun p => negb (vin1 p)) ps))%nat.

(** ** Columns with six entries *)
Definition column_at (K : list (nat -> R)) (j i : nat) : R := nth j K (fun _ => 0) i.
(** the columns are linearly dependent *)
Definition dependent (K : list (nat -> R)) : Prop :=
  exists c, (exists j, (j < length K)%nat /\ c j <> 0) /\ forall i, (i < 6)%nat -> sumTo (length K) (fun j => c j * column_at K j i) = 0.

(** ** Functions *)
(** [f] is the spline with the coefficients [c], numbered row by row *)
Definition tensor_spline (bu bv : sbasis) (du dv : nat) (c : nat -> R) (f : R * R -> R) : Prop :=
  exists N M, (forall i x, (i < du)%nat -> evalSingle bu i x = Ok (N i x)) /\ (forall j x, (j < dv)%nat -> evalSingle bv j x = Ok (M j x)) /\
    forall u v, f (u, v) = sumTo dv (fun j => sumTo du (fun i => c (i + j * du)%nat * (N i u * M j v))).

(** ** Tangents *)
Definition independent2 (a b : R * R) : Prop := forall s t, s * fst a + t * fst b = 0 -> s * snd a + t * snd b = 0 -> s = 0 /\ t = 0.
Definition independent3 (a b : R * R * R) : Prop :=
  let '(a0, a1, a2) := a in let '(b0, b1, b2) := b in
  forall s t, s * a0 + t * b0 = 0 -> s * a1 + t * b1 = 0 -> s * a2 + t * b2 = 0 -> s = 0 /\ t = 0.
(** [a] is in the plane of [u] and [v] *)
Definition in_plane (u v a : R * R * R) : Prop :=
  let '(u0, u1, u2) := u in let '(v0, v1, v2) := v in
  exists x y, a = (x * u0 + y * v0, x * u1 + y * v1, x * u2 + y * v2).
