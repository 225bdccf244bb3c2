(** C79: where the re-parameterisation takes the knots of the geometry, the corner and the sides. *)
From Coq Require Import Lqa.
From Verif Require Import Common TopoModel BaseModel ReparamModel SurfaceSpec C1Model SpaceModel SpaceSpec IfSpaceModel IfSpaceSpec SpaceProofs SpaceProofs3 SpaceProofs4 IfSpaceProofs IfSpaceProofs2.
Open Scope Q_scope.

Lemma rev_in k x m : (exists z, z == x /\ In (z, m) (kvin (kvrev k))) <-> (exists z, z == ends k - x /\ In (z, m) (kvin k)).
Proof.
  unfold kvrev. cbn [kvin]. split; intros (z & E & H).
  - apply in_rev in H. apply in_map_iff in H. destruct H as ([y n] & F & H). cbn in F. injection F as <- <-. exists y. split; [unfold ends; lra|exact H].
  - exists (kvlo k + kvhi k - z). split; [unfold ends in E; lra|]. apply in_rev. rewrite rev_involutive. apply in_map_iff. exists (z, m). split; [reflexivity|exact H].
Qed.
Lemma in_ext k x y m : x == y -> (exists z, z == x /\ In (z, m) (kvin k)) <-> (exists z, z == y /\ In (z, m) (kvin k)).
Proof. intros E. split; intros (z & F & H); exists z; (split; [lra|exact H]). Qed.

Lemma line_op o g xy m : on_line g xy m <-> on_line (kvGeo o g) (move o (ends (fst g), ends (snd g)) xy) m.
Proof.
  unfold on_line. destruct o; cbn [kvGeo move fst snd]; rewrite ?rev_in.
  - tauto.
  - rewrite (in_ext (fst g) (ends (fst g) - (ends (fst g) - fst xy)) (fst xy)) by lra. tauto.
  - rewrite (in_ext (snd g) (ends (snd g) - (ends (snd g) - snd xy)) (snd xy)) by lra. tauto.
  - rewrite (in_ext (fst g) (ends (fst g) - (ends (fst g) - fst xy)) (fst xy)) by lra.
    rewrite (in_ext (snd g) (ends (snd g) - (ends (snd g) - snd xy)) (snd xy)) by lra. tauto.
Qed.
Lemma ends_op o g : (ends (fst (kvGeo o g)), ends (snd (kvGeo o g))) = move_spans o (ends (fst g), ends (snd g)).
Proof. destruct o; reflexivity. Qed.

Lemma lines_pf : forall h g xy m, on_line g xy m <-> on_line (runGeo h g) (moves h (ends (fst g), ends (snd g)) xy) m.
Proof.
  induction h as [|o h IH]; intros g xy m; [reflexivity|]. cbn [moves]. unfold runGeo. cbn [fold_left]. fold (runGeo h (kvGeo o g)).
  rewrite (line_op o g xy m), (IH (kvGeo o g)), ends_op. reflexivity.
Qed.

Lemma corner_pf : forall ng c s, let q := moves (vtOps ng c) s (corner_point s c) in fst q == 0 /\ snd q == 0.
Proof. intros ng c [u v]. destruct ng, c; cbn; split; lra. Qed.
Lemma corner_area_pf : forall ng c s p q r, area (moves (vtOps ng c) s p) (moves (vtOps ng c) s q) (moves (vtOps ng c) s r) == (if ng then - area p q r else area p q r).
Proof. intros ng c [u v] [p p'] [q q'] [r r']. destruct ng, c; unfold area; cbn; lra. Qed.

Lemma side_pf : forall first d s xy, on_side_of s d xy -> let q := moves (ifOps first false d) s xy in if first then fst q == 0 else snd q == 0.
Proof. intros first d [u v] [x y] H. destruct first, d; cbn in *; lra. Qed.
Lemma side_area_pf : forall first d s p q r, let h := ifOps first false d in area (moves h s p) (moves h s q) (moves h s r) == area p q r.
Proof. intros first d [u v] [p p'] [q q'] [r r']. destruct first, d; unfold area; cbn; lra. Qed.

(** ** Each piece follows the geometry of its own patch *)
Definition ipPlain : ipatch := mkIP (lineKV, lineKV) (thirdKV, thirdKV) East false.
Definition ipKink : ipatch := mkIP (lineKV, mkKV 2 0 1 [(third, 2%nat)]) (thirdKV, thirdKV) West false.
Theorem pieces_refuted_pf : exists p1 p2 plus minus E1 E2, ipNeg p1 = false /\ ipNeg p2 = false /\ usable (side_comp (ipBas p1) (ipSide p1)) /\ side_comp (ipBas p1) (ipSide p1) = side_comp (ipBas p2) (ipSide p2) /\ straight (ipGeo p1) /\
  kvin (side_comp (ipGeo p2) (ipSide p2)) = [(third, 2%nat)] /\ ifInit redMinus (-1) (-1) p1 p2 = Ok (plus, minus, E1, E2) /\
  kvin (side_comp E1 (ipSide p1)) = [(third, 3%nat)] /\ kvin (side_comp E2 (ipSide p2)) = [(third, 4%nat)].
Proof.
  exists ipPlain, ipKink. do 4 eexists. do 2 (split; [reflexivity|]). split; [exact third_usable|]. split; [reflexivity|]. split; [split; reflexivity|]. split; [reflexivity|].
  split; [vm_compute; reflexivity|]. split; reflexivity.
Qed.
