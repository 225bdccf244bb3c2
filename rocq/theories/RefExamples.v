(** Concrete inputs for the refinement properties (C21). *)
From Verif Require Import Common TopoModel BaseModel TopoSpec SmoothSpec SmoothSpec2 RefModel RefSpec SmoothExamples.

(** three patches around an interior vertex, degree 2; four, two and eight elements *)
Definition ref_three : rfinput :=
  mkRF three_patches_topo [(mkK 2 4, mkK 2 2); (mkK 2 4, mkK 2 4); (mkK 2 2, mkK 2 8)].
Definition ref_start : list (list pcorner) := [[(0, SW); (1, SW); (2, SW)]].

Lemma ref_three_ok : ref_input ref_three.
Proof. split; [exact (wf_topo _ three_patches_wf)|reflexivity]. Qed.
