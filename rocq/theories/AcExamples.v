(** Tensor-product bases satisfy the hypotheses of C67; three concrete multipatches. *)
From Verif Require Import Common TopoModel BaseModel IndexSpec TopoSpec SmoothSpec SmoothSpec2 SmoothExamples RingModel RingSpec DpModel DpSpec
  RingInstance RingExamples DpExamples AcModel AcSpec.

Lemma atensor_pf : forall I, well_formed I -> supported SchemeAlmostC1 (itopo I) -> ac_input (dtensor I).
Proof. intros I W H. constructor; [apply dtensor_ring, W|apply dtensor_rows, W|exact H]. Qed.

Definition acol_of (I : input) (c : nat) : list (nat * Q) :=
  match acCompute (dtensor I) with
  | Ok R => filter (fun x => negb (Qeq_bool (snd x) 0)) (map (fun r => (r, dentry R r c)) (seq 0 (drRows R)))
  | Err => []
  end.
Definition asize_of (I : input) : nat * nat := match acCompute (dtensor I) with Ok R => (drRows R, drCols R) | Err => (0, 0) end.
Definition aspare_of (I : input) : list nat :=
  match acCompute (dtensor I) with
  | Ok R => filter (fun r => forallb (fun c => Qeq_bool (dentry R r c) 0) (seq 0 (drCols R))) (seq 0 (drRows R))
  | Err => []
  end.

Lemma fan4_almost : supported SchemeAlmostC1 (itopo fan4_sharp).
Proof. apply (sup_check fan4_sharp _ fan4_sharp_wf). vm_compute. reflexivity. Qed.

Lemma ac_nonvacuous_pf :
  (well_formed fan /\ supported SchemeAlmostC1 (itopo fan) /\ asize_of fan = (59, 75) /\ aspare_of fan = [0; 21; 38] /\
   acol_of fan 0 = [(1, (1 # 2)%Q); (39, (1 # 2)%Q)] /\ acol_of fan 1 = [(1, 1%Q)] /\
   acol_of fan 5 = [(5, (1 # 2)%Q); (22, (1 # 2)%Q)] /\ acol_of fan 12 = [(10, 1%Q)]) /\
  (well_formed three_patches /\ supported SchemeAlmostC1 (itopo three_patches) /\ asize_of three_patches = (51, 75) /\
   aspare_of three_patches = [0; 17; 34] /\
   acol_of three_patches 0 = [(1, (1 # 3)%Q); (18, (1 # 3)%Q); (35, (1 # 3)%Q)] /\
   acol_of three_patches 1 = [(1, (1 # 2)%Q); (35, (1 # 2)%Q)]) /\
  (well_formed fan4_sharp /\ supported SchemeAlmostC1 (itopo fan4_sharp) /\ asize_of fan4_sharp = (76, 100) /\ aspare_of fan4_sharp = [] /\
   acol_of fan4_sharp 0 = [(0, 1%Q)] /\ acol_of fan4_sharp 5 = [(5, (1 # 2)%Q); (22, (1 # 2)%Q)]).
Proof.
  split; [split; [exact fan_wf|split; [apply fan_almost|]]|split; [split; [exact three_patches_wf|split; [apply three_almost|]]|split; [exact fan4_sharp_wf|split; [exact fan4_almost|]]]];
    vm_compute; auto 10.
Qed.
