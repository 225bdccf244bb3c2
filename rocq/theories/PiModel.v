(** The projection matrix of the D-patch construction, src/gsDPatch.hpp:580-639.
    Floating-point numbers are replaced by real numbers; 4*atan(1) is PI. *)
From Coq Require Import Reals ZArith.
From Verif Require Import Common.
Open Scope R_scope.

(** std::arg of x+iy *)
Definition carg (x y : R) : R :=
  if Rlt_dec 0 x then atan (y / x)
  else if Rlt_dec x 0 then (if Rlt_dec y 0 then atan (y / x) - PI else atan (y / x) + PI)
  else if Rlt_dec 0 y then PI / 2 else if Rlt_dec y 0 then - (PI / 2) else 0.

(** src/gsDPatch.hpp:586-591: pi, phi, beta, psi *)
Definition pi_phi (valence : nat) : R := 2 * (4 * atan 1) / INR valence.
Definition pi_beta (Beta : R) (RefLevel : nat) : R := Beta * (1 / 2) ^ RefLevel.
Definition pi_psi (Beta : R) (RefLevel valence : nat) : R :=
  let phi := pi_phi valence in
  let b := pi_beta Beta RefLevel * sin phi in
  (* (1 + I b) exp(-I phi/2) *)
  carg (1 * cos (- phi / 2) - b * sin (- phi / 2)) (1 * sin (- phi / 2) + b * cos (- phi / 2)).

(** src/gsDPatch.hpp:592-614: the table P (valence x 9); other values of the option Pi are an error *)
Definition pi_table (opt : Z) (Beta : R) (RefLevel valence : nat) : res (Z -> nat -> R) :=
  let v := INR valence in
  let phi := pi_phi valence in
  let psi := pi_psi Beta RefLevel valence in
  if (opt =? 0)%Z then
    Ok (fun j i =>
      match i with
      | 0%nat | 1%nat | 2%nat | 3%nat | 6%nat => 1 / (3 * v)
      | 4%nat | 8%nat => 1 / (3 * v) * (1 + 3 * cos (IZR j * phi))
      | 5%nat => 1 / (3 * v) * (1 + 3 * cos (2 * psi + IZR j * phi))
      | _ => 1 / (3 * v) * (1 + 3 * cos (2 * psi - IZR j * phi))
      end)
  else if (opt =? 1)%Z then
    Ok (fun j i =>
      match i with
      | 0%nat | 3%nat | 6%nat => 0
      | 1%nat | 2%nat => 1 / (2 * v)
      | 4%nat | 8%nat => 1 / (2 * v) * (1 + cos (IZR j * phi))
      | 5%nat => 1 / (2 * v) * (1 + cos (2 * psi + IZR j * phi))
      | _ => 1 / (2 * v) * (1 + cos (2 * psi - IZR j * phi))
      end)
  else Err.

(** src/gsDPatch.hpp:621-626: circulant index; [%] of C++ truncates *)
Definition pi_circ (valence : nat) (j k : nat) : Z :=
  let c := Z.rem (Z.of_nat j - Z.of_nat k) (Z.of_nat valence) in
  if (c <? 0)%Z then (c + Z.of_nat valence)%Z else c.

(** src/gsDPatch.hpp:615-636: entry (r,c) of the 3*valence x 3*valence matrix; block
    number i covers rows (i/3)*valence.. and columns (i%3)*valence.. *)
Definition makePi (opt : Z) (Beta : R) (RefLevel valence : nat) : res (nat -> nat -> R) :=
  do P <- pi_table opt Beta RefLevel valence;
  Ok (fun r c => P (pi_circ valence (r mod valence) (c mod valence)) (3 * (r / valence) + c / valence)%nat).
