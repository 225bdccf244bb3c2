(** Univariate B-splines, as far as the C1 functions use them.

    gsBSplineBasis belongs to the G+Smo core and is not in this repository; evalSingle, derivSingle and deriv2Single are
    specified here by the recurrence of Cox and de Boor and by the differentiation formula. Real arithmetic is exact. *)
From Coq Require Export Reals.
From Verif Require Import Common.
Open Scope R_scope.

(** reciprocal in the recurrence, where 0/0 counts as 0 *)
Definition inv0 (d : R) : R := if Req_EM_T d 0 then 0 else / d.

(** B-spline number [i] of degree [p] for the knots [t] *)
Fixpoint bspl (t : nat -> R) (p i : nat) (x : R) : R :=
  match p with
  | O => if Rle_dec (t i) x then if Rlt_dec x (t (S i)) then 1 else 0 else 0
  | S q => (x - t i) * inv0 (t (i + p)%nat - t i) * bspl t q i x + (t (S i + p)%nat - x) * inv0 (t (S i + p)%nat - t (S i)) * bspl t q (S i) x
  end.
Definition dbspl (t : nat -> R) (p i : nat) (x : R) : R :=
  match p with
  | O => 0
  | S q => INR p * (inv0 (t (i + p)%nat - t i) * bspl t q i x - inv0 (t (S i + p)%nat - t (S i)) * bspl t q (S i) x)
  end.
Definition ddbspl (t : nat -> R) (p i : nat) (x : R) : R :=
  match p with
  | O => 0
  | S q => INR p * (inv0 (t (i + p)%nat - t i) * dbspl t q i x - inv0 (t (S i + p)%nat - t (S i)) * dbspl t q (S i) x)
  end.

(** a basis: knots and degree *)
Record sbasis := mkSB { sknots : list R; sdeg : nat }.
Definition tknot (b : sbasis) (i : nat) : R := nth i (sknots b) 0.
(** [Err] for a function number out of range *)
Definition single (f : (nat -> R) -> nat -> nat -> R -> R) (b : sbasis) (i : nat) (x : R) : res R :=
  if (i + sdeg b + 1 <? length (sknots b))%nat then Ok (f (tknot b) (sdeg b) i x) else Err.
Definition evalSingle := single bspl.
Definition derivSingle := single dbspl.
Definition deriv2Single := single ddbspl.
