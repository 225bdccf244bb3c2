(** Examples for C38 and proofs of the refutations. *)
From Verif Require Import Common TopoModel TopoSpec VertexModel VertexSpec RepairModel RepairSpec ListLemmas SmoothExamples VertexExamples RepairProofs3.
Open Scope nat_scope.

Definition mixed : list vbase := [uneven_base; even_base; uneven_base].
Definition len15 (_ _ : nat) : Z := 15%Z.
Definition deg2 (_ _ : nat) : nat := 2.
Lemma even_simple : simple_open 2 15 [3; 6; 9; 12]%Z even.
Proof.
  split; [reflexivity|]. split; [tauto|]. intros [|[|[|[|[|[|i]]]]]] [|[|[|[|[|[|j]]]]]] x y L X Y; cbn in X, Y; try lia; try discriminate; try (destruct i; discriminate); try (destruct j; discriminate); injection X as <-; injection Y as <-; lia.
Qed.
Lemma mixed_shaped : shaped fan_topo len15 deg2 mixed.
Proof.
  split; [reflexivity|]. split; [|split; reflexivity]. intros p b E dir _. assert (H : b = uneven_base \/ b = even_base) by (destruct p as [|[|[|p]]]; cbn in E; try (injection E as <-; tauto); destruct p; discriminate).
  destruct H as [H|H]; rewrite H in *.
  - split; [destruct dir; reflexivity|]. exists [1; 3; 6; 10]%Z. destruct dir; exact uneven_simple.
  - split; [destruct dir; reflexivity|]. exists [3; 6; 9; 12]%Z. destruct dir; exact even_simple.
Qed.

(** degree 2 with and without a double knot *)
Definition double_base : vbase := mkVB [0; 0; 0; 5; 5; 15; 15; 15]%Z [0; 0; 0; 5; 5; 15; 15; 15]%Z 2 2.
Definition plain_base : vbase := mkVB [0; 0; 0; 15; 15; 15]%Z [0; 0; 0; 15; 15; 15]%Z 2 2.
Definition single_base : vbase := mkVB [0; 0; 0; 15; 15; 15]%Z [0; 0; 0; 5; 15; 15; 15]%Z 2 2.
(** degree 3 *)
Definition cubic_base : vbase := mkVB [0; 0; 0; 0; 15; 15; 15; 15]%Z [0; 0; 0; 0; 15; 15; 15; 15]%Z 3 3.

Theorem multiplicity_refuted_pf : exists t B B', consistent t /\ length B = tnp t /\ (forall b dir, In b B -> (ascending (knots b dir) /\ degree b dir = 2 /\ hd 0%Z (knots b dir) = 0%Z /\ last (knots b dir) 0%Z = 15%Z)) /\
  (forall fuel, 2 < fuel -> repairPatches fuel t B None = Ok B') /\ exists f, In f (tif t) /\ ~ knots_match B' f.
Proof.
  exists two_patches_topo, [double_base; plain_base], [double_base; single_base]. split; [exact two_consistent|]. split; [reflexivity|]. split.
  - intros b dir [<-|[<-|[]]]; (split; [|destruct dir; repeat split]).
    + intros i j x y L X Y. destruct dir; cbn in X, Y; do 8 (destruct i as [|i]; [do 8 (destruct j as [|j]; [cbn in X, Y; try lia; injection X as <-; injection Y as <-; lia|]); destruct j; discriminate|]); destruct i; discriminate.
    + intros i j x y L X Y. destruct dir; cbn in X, Y; do 6 (destruct i as [|i]; [do 6 (destruct j as [|j]; [cbn in X, Y; try lia; injection X as <-; injection Y as <-; lia|]); destruct j; discriminate|]); destruct i; discriminate.
  - split.
    + intros fuel F. destruct fuel as [|[|[|fuel]]]; try lia. reflexivity.
    + exists (mkI (0, East) (1, West) false). split; [now left|]. intros (b & b' & Eb & Eb' & _ & LE & _). cbn in Eb, Eb'. injection Eb as <-. injection Eb' as <-. cbn in LE. lia.
Qed.

Theorem degree_refuted_pf : exists t B, consistent t /\ length B = tnp t /\ (forall b, In b B -> exists q, forall dir, degree b dir = q /\ simple_open q 15 [] (knots b dir)) /\
  forall fuel, repairPatches fuel t B None = Err.
Proof.
  exists two_patches_topo, [plain_base; cubic_base]. split; [exact two_consistent|]. split; [reflexivity|]. split.
  - assert (A : breakpoints (0%Z :: [] ++ [15%Z]) (0%Z :: [] ++ [15%Z])) by (split; [tauto|]; intros [|[|i]] [|[|j]] x y L X Y; cbn in X, Y; try lia; try discriminate; try (destruct i; discriminate); try (destruct j; discriminate); injection X as <-; injection Y as <-; lia).
    intros b [<-|[<-|[]]]; [exists 2|exists 3]; intros dir; (split; [destruct dir; reflexivity|]); (split; [destruct dir; reflexivity|exact A]).
  - intros [|fuel]; reflexivity.
Qed.
