(** Concrete configurations for C48, C49, C50. *)
From Verif Require Import Common TopoModel MapModel MapSpec MapTravelSpec MapExamples.
From Coq Require Import ZifyBool Permutation.
Open Scope Z_scope.

(** *** C48 *)
Lemma ex_conf_natural : natural ex_conf.
Proof. constructor; try (cbn; lia). - intros []; cbn; lia. - intros []; cbn; lia. Qed.

(** degrees 3 and 2: the numbers of functions across the two interfaces are interchanged *)
Definition swapped_conf : pconf :=
  mkPC 8 8 3 2 (fun s => match s with South | West => true | _ => false end) (fun _ => false)
       (fun c => match c with SW => 3 | _ => 0 end) (fun c => match c with SW => 2 | _ => 0 end) false.
Lemma swapped_conf_natural : natural swapped_conf.
Proof. constructor; try (cbn; lia). - intros []; cbn; lia. - intros []; cbn; lia. Qed.
Lemma swapped_refutes : exists c x a, natural c /\ In (x, a) (patchActions c) /\ a <> expected c x.
Proof.
  exists swapped_conf, (0, 0), (Block South West 3 2 0 0). split; [exact swapped_conf_natural|].
  split; [left; reflexivity|vm_compute; discriminate].
Qed.

(** *** C49, C50 *)
Definition g4 : list mbase := repeat (mkMB 4 4 2 2) 4.
Definition t4 : topo := mkT 4 [mkI (0, East) (1, West) false; mkI (0, North) (2, South) false; mkI (1, North) (3, South) false; mkI (2, East) (3, West) false]%nat [].

Definition F0 := mkF 0 (mkMB 4 4 2 2) North East.
Definition F1 := mkF 2 (mkMB 4 4 2 2) South East.
Definition F2 := mkF 1 (mkMB 4 4 2 2) North West.
Definition F3 := mkF 3 (mkMB 4 4 2 2) South West.

Ltac glue := constructor; [reflexivity|reflexivity|eexists; split; [reflexivity|]; split; [reflexivity|]; split; [reflexivity|]; intros _; reflexivity|unfold adjacent; cbn; congruence|reflexivity].
Lemma t4_square : square g4 t4 F0 F1 F2 F3.
Proof. constructor; split; glue. Qed.

Example square_ex : addBlock g4 t4 15 [North; East] [2; 2] = Ok (Some [15; 35; 39; 28; 48; 52; 29; 49; 53]) /\
  blockLocals g4 t4 (48 + 5) [South; West] [2; 2] = Ok [53; 49; 29; 52; 48; 28; 39; 35; 15] /\
  addBlock g4 t4 (48 + 5) [South; West] [2; 2] = Ok None /\
  addBlock g4 t4 6 [East] [2] = Ok (Some [6; 7; 20]) /\ blockLocals g4 t4 20 [West] [2] = Ok [20; 7; 6].
Proof. vm_compute. repeat split. Qed.

(** patch 2 mirrored: its south side is joined in reverse, its west side to patch 3 *)
Definition tm : topo := mkT 4 [mkI (0, East) (1, West) false; mkI (0, North) (2, South) true; mkI (1, North) (3, South) false; mkI (2, West) (3, West) false]%nat [].

Lemma mirrored_refutes : cornerList tm (0%nat, NE) = Ok [(0, NE); (1, NW); (2, SW); (3, SW)]%nat /\
  exists ls ls', blockLocals g4 tm 15 [North; East] [2; 2] = Ok ls /\ blockLocals g4 tm 48 [South; West] [2; 2] = Ok ls' /\
    In 48 ls' /\ In 15 ls' /\ (forall l, In l ls -> getPatch g4 l <> 3%nat) /\
    addBlock g4 tm 15 [North; East] [2; 2] = Ok (Some ls).
Proof.
  split; [reflexivity|]. eexists _, _. split; [vm_compute; reflexivity|]. split; [vm_compute; reflexivity|].
  split; [cbn; tauto|]. split; [cbn; tauto|]. split; [|vm_compute; reflexivity].
  intros l H. cbn in H. repeat (destruct H as [<-|H]; [vm_compute; congruence|]). destruct H.
Qed.

(** patch 0 joined to itself *)
Definition g2 : list mbase := repeat (mkMB 4 4 2 2) 2.
Definition ts : topo := mkT 2 [mkI (0, West) (0, East) false; mkI (0, North) (1, South) false]%nat [].
Lemma self_refutes : exists ls, addBlock g2 ts 0 [West] [2] = Ok (Some ls) /\ addBlock g2 ts 2 [East] [2] = Ok (Some (rev ls)).
Proof. exists [0; 3; 2]. split; vm_compute; reflexivity. Qed.
