(** Examples for the bookkeeping of gsMPBESBasis and proofs of the refutations. *)
From Verif Require Import Common TopoModel TopoSpec IndexSpec SmoothSpec SmoothSpec2 VertexModel VertexSpec SmoothExamples ListLemmas TopoProofs VertexProofs VertexProofs2 VertexProofs3.
Open Scope nat_scope.

(** degree 2, five spans of different lengths *)
Definition uneven : list Z := [0; 0; 0; 1; 3; 6; 10; 15; 15; 15]%Z.
Definition even : list Z := [0; 0; 0; 3; 6; 9; 12; 15; 15; 15]%Z.
Definition uneven_base : vbase := mkVB uneven uneven 2 2.
Definition even_base : vbase := mkVB even even 2 2.

(** the fan of three patches with a boundary vertex of valence 3 *)
Definition fan_start : vstate := match start fan_topo [uneven_base; uneven_base; uneven_base] 1 3 with Ok X => X | Err => mkVS fan_topo [] 1 3 [] [] [] end.
Definition fan_C0 : vstate := match setC0 fan_start (0, SW) with Ok X => X | Err => fan_start end.


(** three patches around an interior vertex at their upper corners *)
Definition upper_topo : topo :=
  mkT 3 [mkI (0, East) (1, North) false; mkI (1, East) (2, North) false; mkI (2, East) (0, North) false]
      [(0, West); (0, South); (1, West); (1, South); (2, West); (2, South)].
Definition upper_start : vstate := match start upper_topo [uneven_base; uneven_base; uneven_base] 1 3 with Ok X => X | Err => mkVS upper_topo [] 1 3 [] [] [] end.

Lemma fan_consistent : consistent fan_topo.
Proof. exact (wf_topo _ fan_wf). Qed.
Lemma upper_consistent : consistent upper_topo.
Proof.
  split.
  - apply partition_check; cbn [iface_sides tif tbd upper_topo flat_map app if1 if2]; [repeat constructor; cbn; intuition discriminate|reflexivity|]. intros x H. cbn in H. repeat (destruct H as [<-|H]; [cbn; lia|]). destruct H.
  - intros f H. cbn in H. left. repeat (destruct H as [<-|H]; [cbn; lia|]). destruct H.
Qed.
Lemma two_consistent : consistent two_patches_topo.
Proof. exact (wf_topo _ two_patches_wf). Qed.

(** ** C39 *)
Lemma symmetric_reverse k : symmetric k -> kreverse k = k.
Proof.
  intros H. apply nth_ext'. intros i. destruct (Nat.lt_ge_cases i (length k)) as [L|L].
  - rewrite kreverse_nth by exact L. destruct (nth_error k i) as [x|] eqn:X; [|apply nth_error_None in X; lia]. apply H in X. rewrite X. cbn [option_map]. f_equal. lia.
  - rewrite !(proj2 (nth_error_None _ i)) by (rewrite ?kreverse_length; exact L). reflexivity.
Qed.

Theorem own_corners_pf : forall t B vs incr n f d b v1 v2, newDistances t B vs incr n f = Ok d -> nth_error B (fst (if1 f)) = Some b ->
  let dir := 1 - side_dir (snd (if1 f)) in let deg := Nat.min (degree b dir) (incr + 1) in
  determineValues (isSpecialVertex vs (end1 f false)) (isSpecialVertex vs (end1 f true))
    (isInterface t (fst (if1 f), otherSide (snd (if1 f)) false)) (isInterface t (fst (if1 f), otherSide (snd (if1 f)) true))
    (Nat.max deg n) deg (length (knots b dir) - degree b dir - 1) = (Z.of_nat v1, Z.of_nat v2) ->
  dIf d = f /\ dC1 d = end1 f false /\ dC2 d = end1 f true /\ findParameter B (if1 f) (end1 f false) v1 = Ok (dP1 d) /\
  (symmetric (knots b dir) -> findParameter B (if1 f) (end1 f true) v2 = Ok (dP2 d)).
Proof.
  intros t B vs incr n f d b v1 v2 H E dir deg DV. unfold newDistances, functionsOnSide, vget in H. rewrite E in H. cbn [bind] in H. fold dir in H. fold deg in H.
  change (fst (if1 f), corner_at (snd (if1 f)) false) with (end1 f false) in H. change (fst (if1 f), corner_at (snd (if1 f)) true) with (end1 f true) in H. rewrite DV in H. cbn [fst snd] in H. rewrite !Nat2Z.id in H.
  destruct (findParameter B (if1 f) (end1 f false) v1) as [p1|] eqn:F1; [|discriminate]. cbn [bind] in H. destruct (findParameter B (if1 f) (end1 f false) v2) as [p2|] eqn:F2; [|discriminate]. cbn [bind] in H. injection H as <-. cbn [dIf dC1 dC2 dP1 dP2].
  repeat split. intros SY. rewrite <- F2. unfold findParameter. replace (knotsFrom B (if1 f) (end1 f true)) with (knotsFrom B (if1 f) (end1 f false)); [reflexivity|]. unfold knotsFrom, vget. rewrite E. cbn [bind]. fold dir. rewrite (symmetric_reverse _ SY). now destruct (pos_on _ _), (pos_on _ _).
Qed.

Theorem second_corner_refuted_pf : exists S f d, consistent (vT S) /\ start (vT S) (vB S) (vIncr S) (vMin S) = Ok S /\ (forall g, In g (tif (vT S)) -> exists b, nth_error (vB S) (fst (if1 g)) = Some b /\ ascending (knots b (1 - side_dir (snd (if1 g))))) /\
  In f (tif (vT S)) /\ In d (vDist S) /\ dIf d = f /\ isSpecialVertex (vVert S) (end1 f true) = true /\
  findParameter (vB S) (if1 f) (end1 f true) (vMin S) = Ok 6%Z /\ dP2 d = 12%Z /\ distanceOfVertex S (end1 f true) (if1 f) = Ok 5 /\ vMin S = 3.
Proof.
  exists upper_start, (mkI (0, East) (1, North) false), (mkD (mkI (0, East) (1, North) false) (0, SE) 0 (0, NE) 12).
  split; [exact upper_consistent|]. split; [vm_compute; reflexivity|]. split.
  - intros g Hg. exists uneven_base. assert (A : ascending uneven).
    { apply (simple_asc 2 15%Z [1; 3; 6; 10]%Z). split; [reflexivity|]. split; [tauto|]. intros [|[|[|[|[|[|i]]]]]] [|[|[|[|[|[|j]]]]]] x y L X Y; cbn in X, Y; try lia; try discriminate; try (destruct i; discriminate); try (destruct j; discriminate); injection X as <-; injection Y as <-; lia. }
    cbn in Hg. destruct Hg as [<-|[<-|[<-|[]]]]; (split; [reflexivity|exact A]).
  - repeat (split; [vm_compute; tauto|]). vm_compute. reflexivity.
Qed.

Theorem from_corner_refuted_pf : exists B ps pc b u, nth_error B (fst ps) = Some b /\ breakpoints (knots b (1 - side_dir (snd ps))) u /\
  touches (snd pc) (snd ps) /\ pos_on (snd ps) (snd pc) = false /\ nth_error u 1 = Some 1%Z /\ findParameter B ps pc 1 = Ok 5%Z.
Proof.
  exists [uneven_base], (0, West), (0, SW), uneven_base, [0; 1; 3; 6; 10; 15]%Z. split; [reflexivity|]. split; [|repeat split; vm_compute; reflexivity].
  split; [cbn; tauto|]. intros [|[|[|[|[|[|i]]]]]] [|[|[|[|[|[|j]]]]]] x y L X Y; cbn in X, Y; try lia; try discriminate; try (destruct i; discriminate); try (destruct j; discriminate); injection X as <-; injection Y as <-; lia.
Qed.

(** ** C52 *)
Lemma uneven_simple : simple_open 2 15 [1; 3; 6; 10]%Z uneven.
Proof.
  split; [reflexivity|]. split; [tauto|]. intros [|[|[|[|[|[|i]]]]]] [|[|[|[|[|[|j]]]]]] x y L X Y; cbn in X, Y; try lia; try discriminate; try (destruct i; discriminate); try (destruct j; discriminate); injection X as <-; injection Y as <-; lia.
Qed.
Lemma fan_simple : simple_bases fan_topo [uneven_base; uneven_base; uneven_base] 3.
Proof.
  intros p Hp. exists uneven_base. split; [destruct p as [|[|[|p]]]; [reflexivity..|cbn in Hp; lia]|]. intros dir. exists 15%Z, [1; 3; 6; 10]%Z. split; [destruct dir; exact uneven_simple|cbn; lia].
Qed.
Lemma fan_match f : In f (tif fan_topo) -> knots_match [uneven_base; uneven_base; uneven_base] f.
Proof. intros H. exists uneven_base, uneven_base. cbn in H. destruct H as [<-|[<-|[]]]; (split; [reflexivity|]); (split; [reflexivity|]); (split; [reflexivity|]); (split; [reflexivity|]); intros i x X; exact X. Qed.

Theorem other_interfaces_refuted_pf : exists S0 S pc f u, consistent (vT S0) /\ start (vT S0) (vB S0) (vIncr S0) (vMin S0) = Ok S0 /\ simple_bases (vT S0) (vB S0) (vMin S0) /\
  (forall f, In f (tif (vT S0)) -> knots_match (vB S0) f) /\ setC0 S0 pc = Ok S /\
  In f (tif (vT S)) /\ same_vertex (vT S) pc (end1 f u) /\ distanceOfVertex S (end1 f u) (if1 f) = Ok 2 /\ vMin S = 3.
Proof.
  exists fan_start, fan_C0, (0, SW), (mkI (1, West) (2, South) false), false. split; [exact fan_consistent|]. split; [vm_compute; reflexivity|]. split; [exact fan_simple|]. split; [exact fan_match|].
  split; [vm_compute; reflexivity|]. split; [right; left; reflexivity|]. split; [|split; vm_compute; reflexivity].
  eapply sv_step; [constructor|]. left. exists (mkI (0, West) (1, South) false), false. split; [left; reflexivity|]. split; reflexivity.
Qed.

(** ** C53 *)
(** the same spans on [-5,10]: a breakpoint is 0 *)
Definition shifted : list Z := [-5; -5; -5; -4; 0; 4; 10; 10; 10]%Z.
(** an interior knot of multiplicity 2 *)
Definition double : list Z := [0; 0; 0; 4; 4; 8; 12; 12; 12]%Z.
Definition square (k : list Z) : vstate := mkVS (mkT 1 [] (map (fun s => (0, s)) [West; East; South; North])) [mkVB k k 2 2] 1 2 [] [(0, NE, true)] [].

Theorem shifted_refuted_pf : exists S c ps, isSpecialVertex (vVert S) c = true /\ parametricDistance S c ps = findParameter (vB S) ps c (vMin S) /\ vMin S = 2 /\
  (exists b, nth_error (vB S) (fst ps) = Some b /\ breakpoints (knots b (1 - side_dir (snd ps))) [-5; -4; 0; 4; 10]%Z) /\ distanceOfVertex S c ps = Ok 0.
Proof.
  exists (square shifted), (0, NE), (0, East). repeat (split; [reflexivity|]). split; [|reflexivity]. exists (mkVB shifted shifted 2 2). split; [reflexivity|]. split; [cbn; tauto|].
  intros [|[|[|[|[|i]]]]] [|[|[|[|[|j]]]]] x y L X Y; cbn in X, Y; try lia; try discriminate; try (destruct i; discriminate); try (destruct j; discriminate); injection X as <-; injection Y as <-; lia.
Qed.
Theorem multiple_refuted_pf : exists S c ps, isSpecialVertex (vVert S) c = true /\ parametricDistance S c ps = findParameter (vB S) ps c (vMin S) /\ vMin S = 2 /\
  (exists b, nth_error (vB S) (fst ps) = Some b /\ breakpoints (knots b (1 - side_dir (snd ps))) [0; 4; 8; 12]%Z) /\ distanceOfVertex S c ps = Ok 3.
Proof.
  exists (square double), (0, NE), (0, East). repeat (split; [reflexivity|]). split; [|reflexivity]. exists (mkVB double double 2 2). split; [reflexivity|]. split; [cbn; tauto|].
  intros [|[|[|[|i]]]] [|[|[|[|j]]]] x y L X Y; cbn in X, Y; try lia; try discriminate; try (destruct i; discriminate); try (destruct j; discriminate); injection X as <-; injection Y as <-; lia.
Qed.

(** ** Copies *)
Theorem copy_refuted_pf : exists S ps, vWeights S = fst (setWeight (vT S) [] ps 2%Q) /\ getWeight (vWeights S) ps = 2%Q /\ getWeight (vWeights (copyBasis S)) ps = 1%Q.
Proof. exists (mkVS two_patches_topo [even_base; even_base] 1 2 (fst (setWeight two_patches_topo [] (0, East) 2%Q)) [] []), (0, East). repeat split. Qed.
