(** Properties C15, C16, C44: the projection matrix of gsDPatch. *)
From Coq Require Import Reals ZArith.
From Verif Require Import Common PiModel PiSpec PiProofs.
Open Scope R_scope.

(** C15: both matrices reproduce constants. *)
Theorem C15_rows_sum_to_one : forall opt Beta RefLevel v, (opt = 0 \/ opt = 1)%Z -> (2 <= v)%nat ->
  exists M, makePi opt Beta RefLevel v = Ok M /\ rows_sum_to_one (3 * v) M.
Proof. exact pi_rows. Qed.
Print Assumptions C15_rows_sum_to_one.

(** ... hence functions whose coefficients add up to one keep doing so. *)
Theorem C15_partition_of_unity_kept : forall opt Beta RefLevel v M, (2 <= v)%nat ->
  makePi opt Beta RefLevel v = Ok M ->
  forall k (x : nat -> nat -> R), (forall c, (c < 3 * v)%nat -> rsum k (fun i => x i c) = 1) ->
  forall r, (r < 3 * v)%nat -> rsum k (fun i => papply (3 * v) M (x i) r) = 1.
Proof. exact pou_kept. Qed.
Print Assumptions C15_partition_of_unity_kept.

Theorem C15_unknown_option_is_an_error : forall opt Beta RefLevel v, opt <> 0%Z -> opt <> 1%Z ->
  makePi opt Beta RefLevel v = Err.
Proof. exact makePi_err. Qed.
Print Assumptions C15_unknown_option_is_an_error.

Example C15_nonvacuous : exists M, makePi 0 0 0 4 = Ok M /\ M 4%nat 4%nat = 1 / 3 /\ M 6%nat 4%nat = - (1 / 6).
Proof. exact pi_example. Qed.

(** C16: the help text of the option, "0: Non-negative, 1: Idempotent", is wrong for every
    valence from three on and every value of the other options: both halves fail. *)
Theorem C16_documented_meaning_refuted : forall Beta RefLevel v, (3 <= v)%nat ->
  exists M N, makePi 0 Beta RefLevel v = Ok M /\ makePi 1 Beta RefLevel v = Ok N /\
    ~ nonnegative (3 * v) M /\ ~ idempotent (3 * v) N.
Proof. exact pi_documented_wrong. Qed.
Print Assumptions C16_documented_meaning_refuted.

(** With the two values exchanged it holds: option 0 is an orthogonal projection of rank
    (trace) three, option 1 is non-negative. *)
Theorem C16_exchanged_meaning : forall Beta RefLevel v, (3 <= v)%nat ->
  exists M N, makePi 0 Beta RefLevel v = Ok M /\ makePi 1 Beta RefLevel v = Ok N /\
    idempotent (3 * v) M /\ symmetric (3 * v) M /\ trace (3 * v) M = 3 /\ nonnegative (3 * v) N.
Proof. exact pi_swapped. Qed.
Print Assumptions C16_exchanged_meaning.

(** C44: after the projection the 3v control values around the vertex are an affine image of one
    planar star: all v points (1,1) coincide, the points (2,1) lie at the angles of a regular
    v-gon and the points (1,2) at the next angle less twice atan(beta sin phi). *)
Theorem C44_projected_points_form_a_planar_star : forall opt Beta RefLevel v M, (2 <= v)%nat ->
  makePi opt Beta RefLevel v = Ok M ->
  forall x, exists m a d, forall j, (j < v)%nat ->
    let t1 := INR j * (2 * PI / INR v) in
    let t2 := INR (S j) * (2 * PI / INR v) - 2 * atan (Beta * (1 / 2) ^ RefLevel * sin (2 * PI / INR v)) in
    papply (3 * v) M x j = m /\
    papply (3 * v) M x (v + j) = m + a * cos t1 + d * sin t1 /\
    papply (3 * v) M x (2 * v + j) = m + a * cos t2 + d * sin t2.
Proof. exact projected_plane. Qed.
Print Assumptions C44_projected_points_form_a_planar_star.

Example C44_nonvacuous : exists M, makePi 0 0 0 4 = Ok M /\
  papply (3 * 4) M (fun c => if Nat.eqb c 4 then 1 else 0) 4 = 1 / 3 /\
  papply (3 * 4) M (fun c => if Nat.eqb c 4 then 1 else 0) 6 = - (1 / 6).
Proof. exact pi_example_apply. Qed.
