(** An example for C77. *)
From Coq Require Import Reals Lra.
From Verif Require Import Common SurfGDSpec AsmModel AsmSpec AsmProofs AsmProofs2.
Open Scope R_scope.

(** three functions in one column, the third of them eliminated; one element with two nodes in which the free functions are 1 and 0 *)
Definition exVal (x y z : R) (p : nat) : R := match p with O => x | S O => y | _ => z end.
Definition exEls : list element :=
  [mkAE [0; 1; 2]%nat [mkAN 2 3 (exVal 1 0 1) (fun _ => 5); mkAN 1 4 (exVal 0 1 1) (fun _ => 7)]].
(** a solver for diagonal matrices *)
Definition diagonal (n : nat) (M : nat -> nat -> R) (b : nat -> R) (i : nat) : R := b i / M i i.
Lemma ex_ok : els_ok 3 exEls /\ free (edgeMapper 1 3 0) 0 /\ free (edgeMapper 1 3 0) 1 /\ ~ free (edgeMapper 1 3 0) 2 /\ setEdge diagonal (edgeMapper 1 3 0) exEls = Ok [5; 7; 0] /\
  (forall f S, applyAll (edgeMapper 1 3 0) 1 exEls [zeroSys] = Ok f -> In S f -> solver_ok diagonal 2 (smat S) (srhs S)) /\ length (allNodes exEls) = 2%nat.
Proof.
  split; [|split; [|split; [|split; [|split; [|split]]]]].
  - intros e a [<-|[]] H. cbn in H. lia.
  - split; [cbn; lia|reflexivity].
  - split; [cbn; lia|reflexivity].
  - intros (_ & H). discriminate H.
  - cbn -[IZR]. unfold diagonal. f_equal. f_equal; [|f_equal]; cbn -[IZR]; try field.
  - intros f S E H. cbn -[IZR] in E. injection E as <-. destruct H as [<-|[]]. intros g Hg. destruct g as [|[|g]]; [| |lia]; unfold diagonal; cbn -[IZR]; field.
  - reflexivity.
Qed.
