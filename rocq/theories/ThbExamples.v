(** Example for C84. *)
From Coq Require Import Reals Lra ZifyBool.
From Verif Require Import Common ThbModel ThbSpec ThbProofs.
Open Scope R_scope.

(** splines on two halves: the constant (0) and the two indicators (1) *)
Definition hSize (b : nat) : nat := match b with O => 1 | _ => 2 end.
Definition hValue (b j : nat) (x : bool) : R := match b, j with O, _ => 1 | _, O => if x then 0 else 1 | _, _ => if x then 1 else 0 end.
Definition hRefine (b : nat) (boxes : list Z) : res (nat * spm) :=
  match boxes with
  | [] => Ok (b, mkSpm (hSize b) (hSize b) (map (fun i => (i, i, 1)) (seq 0 (hSize b))))
  | [1; 0; 0; 2; 2]%Z => match b with O => Ok (1%nat, mkSpm 2 1 [(0%nat, 0%nat, 1); (1%nat, 0%nat, 1)]) | _ => Err end
  | _ => Err
  end.
Definition hBases : list nat := [0; 0]%nat.
Definition hBoxes : list (list Z) := [[0; 0; 0; 1; 1]%Z; []].

Lemma h_ok : (forall p b, nth_error hBases p = Some b -> exists el b' m, nth_error hBoxes p = Some el /\ hRefine b (scaleBoxes 1 2 el) = Ok (b', m) /\ transfers hSize hValue b b' m /\ stochastic m) /\
  makeTHB nat hRefine 1 2 hBases hBoxes = Ok ([1; 0]%nat, mkSpm 3 2 [(0%nat, 0%nat, 1); (1%nat, 0%nat, 1); (2%nat, 1%nat, 1)]) /\
  scaleBoxes 2 4 [0; 3; 0; 5; 2; 1; 0; 2; 4; 6]%Z = [2; 12; 0; 20; 8; 3; 0; 8; 16; 24]%Z.
Proof.
  split; [|split; reflexivity]. intros [|[|p]] b E; [| |destruct p; discriminate]; injection E as <-; cbn [nth_error hBoxes].
  - do 3 eexists. split; [reflexivity|]. split; [reflexivity|]. split.
    + split; [reflexivity|]. split; [reflexivity|]. split; [intros t [<-|[<-|[]]]; cbn; lia|]. intros c []; unfold spline, apply, entries; cbn; lra.
    + intros [|[|i]] L; unfold entries; cbn in *; [lra|lra|lia].
  - do 3 eexists. split; [reflexivity|]. split; [reflexivity|]. split.
    + split; [reflexivity|]. split; [reflexivity|]. split; [intros t [<-|[]]; cbn; lia|]. intros c []; unfold spline, apply, entries; cbn; lra.
    + intros [|i] L; unfold entries; cbn in *; [lra|lia].
Qed.
