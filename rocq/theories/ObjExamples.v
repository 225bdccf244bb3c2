(** Examples and refutations for C85. *)
From Verif Require Import Common ObjModel ObjSpec ObjProofs.
Open Scope Z_scope.

(** ** a small world: a basis is its degree, suitable bases have equal degrees; the mapper records what it was made from *)
Definition wMax (bs : list Z) : Z := fold_right Z.max 0 bs.
Definition wCheck (_ : unit) (bs : list Z) : bool := match bs with [] => false | b :: r => forallb (Z.eqb b) r end.
Definition wDist (_ : unit) (_ : list Z) (_ : unit) (inc mn : Z) : Z := mn.
Definition wMapper (_ : unit) (bs : list Z) (d inc w : Z) : res (list Z) := Ok (bs ++ [d; inc; w]).
Definition wObj := mobj unit Z unit Z (list Z) Z.
Definition wConstruct := construct unit Z unit Z (list Z) Z 1 wMax (fun _ _ => tt) wDist (fun o : wObj => Ok (obas o)) wCheck wMapper.
Definition wCopy := copyObj unit Z unit Z (list Z) Z 1 wCheck.
Definition wElevate := elevate unit Z unit Z (list Z) Z wMapper.

Theorem unchecked_refuted_pf : exists o, wConstruct false tt [2; 3] (-1) (-1) = Ok o /\ wCheck tt (obas o) = false /\ wConstruct true tt [2; 3] (-1) (-1) = Err.
Proof. eexists. repeat split. Qed.
Theorem copy_weights_refuted_pf : exists o o' : wObj, up_to_date wMapper o /\ wCopy true o = Ok o' /\ omap o' = omap o /\ ~ up_to_date wMapper o'.
Proof. exists (mkO tt [3; 3] tt 3 3 2 5 (Some [3; 3; 3; 2; 5])). eexists. split; [eexists; split; reflexivity|]. split; [reflexivity|]. split; [reflexivity|]. intros (m & E1 & E2). vm_compute in E1, E2. injection E1 as E1. rewrite <- E1 in E2. discriminate. Qed.
Theorem elevate_refuted_pf : exists o o', wConstruct true tt [2; 2] (-1) (-1) = Ok o /\ wElevate (Z.add 1) true o = Ok o' /\ wCheck tt (obas o') = true /\
  forall o2, wConstruct true tt (obas o') (-1) (-1) = Ok o2 -> oinc o' <> oinc o2 /\ omin o' <> omin o2 /\ omap o' <> omap o2.
Proof. do 2 eexists. split; [reflexivity|]. split; [reflexivity|]. split; [reflexivity|]. intros o2 H. cbn in H. injection H as <-. cbn. repeat split; discriminate. Qed.
Theorem unsigned_refuted_pf : exists o, wConstruct true tt [2; 2] (-3) (-1) = Ok o /\ omin o = 2 ^ 32 - 1.
Proof. eexists. split; reflexivity. Qed.
Lemma obj_ok : exists a b mem, wConstruct true tt [3; 3] (-1) (-1) = Ok a /\ omin a = 3 /\ oinc a = 2 /\ wConstruct true tt [2; 2] 0 1 = Ok b /\ omin b = 1 /\ wCopy true a = Ok a /\
  assignObj unit Z unit Z (list Z) Z [a; b] 0 1 = Ok mem /\ (exists o, nth_error mem 0 = Some o /\ obas o = [2; 2] /\ setMapping unit Z unit Z (list Z) Z wMapper o = Ok b).
Proof. do 3 eexists. split; [reflexivity|]. split; [reflexivity|]. split; [reflexivity|]. split; [reflexivity|]. split; [reflexivity|]. split; [reflexivity|]. split; [reflexivity|]. eexists. split; [reflexivity|]. split; reflexivity. Qed.
