(** Statements about gsSmoothInterfaces assembled from the other proof files. *)
From Verif Require Import Common TopoModel BaseModel IndexSpec TopoSpec SmoothSpec
  IndexProofs IndexTopoProofs ListLemmas TopoProofs PointProofs MapperProofs CountProofs.

Lemma predicted_size I : well_formed I ->
  exists m, computeMapper I = Ok m /\ countDoFs I = Ok (Z.of_nat (freeSize m)).
Proof.
  intros WF. destruct (computeMapper_ok I WF) as (m & E & Hs & Hm). exists m. split; [exact E|].
  apply (countDoFs_ok I WF m Hs). apply (free_iff I WF m Hs Hm).
Qed.
