(** Examples for C40. *)
From Coq Require Import Lra.
From Verif Require Import Common SplineModel SplineSpec GluingModel GluingSpec.
Open Scope R_scope.

(** degree 2, two elements *)
Definition quad : sbasis := mkSB [0; 0; 0; 1; 2; 2; 2] 2.
Lemma quad_open : open_basis quad 4.
Proof.
  split; [cbn; lia|]. split; [|split].
  - intros i j x y L X Y. cbn [sknots quad] in *.
    do 7 (destruct i as [|i]; [do 7 (destruct j as [|j]; [try lia; cbn in X, Y; injection X as <-; injection Y as <-; lra|]); destruct j; discriminate|]); destruct i; discriminate.
  - intros i L. cbn in L. destruct i as [|[|[|i]]]; [reflexivity..|lia].
  - exists 1. split; [reflexivity|lra].
Qed.
Lemma open_less b n k : (k <= n)%nat -> open_basis b n -> open_basis b k.
Proof. intros L (A & B). split; [lia|exact B]. Qed.

(** two patches, left with the edge along v, right with the edge along u *)
Definition leftJ (_ : R * R) : J2 := mkJ2 (-1) 0 (1 / 2) 1.
Definition rightJ (x : R * R) : J2 := mkJ2 0 1 1 (fst x).
