(** Examples for the distances of hierarchical bases and proofs of the refutations. *)
From Verif Require Import Common TopoModel TopoSpec VertexModel SmoothSpec SmoothSpec2 VertexSpec VertexExamples HbDistModel HbDistSpec HbDistProofs.
Open Scope nat_scope.

(** degree 2: four elements on level 0, eight on level 1, refined at the lower end *)
Definition twolevel : hside := mkHS 2
  [[0; 0; 0; 4; 8; 12; 16; 16; 16]; [0; 0; 0; 2; 4; 6; 8; 10; 12; 14; 16; 16; 16]]%Z
  [[false; false; true; true; true; true]; [true; true; true; true; false; false; false; false; false; false]].
Definition one (k : list Z) : hside := mkHS 2 [k] [repeat true (length k - 2 - 1)].

Ltac hside_ok_tac := split; [reflexivity|]; intros m k a X Y; do 3 (destruct m as [|m]; [cbn in X, Y; try discriminate X; injection X as <-; injection Y as <-; reflexivity|]); cbn in X; destruct m; discriminate X.
Lemma twolevel_ok : hside_ok twolevel.
Proof. hside_ok_tac. Qed.
Lemma uneven_ok : hside_ok (one uneven).
Proof. hside_ok_tac. Qed.

Theorem distance_refuted_pf : exists S n p r, hside_ok S /\ length (hsKnots S) = 1 /\ (forall m a x, nth_error (hsAct S) m = Some a -> In x a -> x = true) /\
  ranked (ends S false) n p /\ countb (fun x => x =? p)%Z (ends S false) = 1 /\ hfindParameter S West SW n = Ok p /\ before S 0 false p + 1 = n /\ hdistance S 0 West SW p = Ok r /\ r < n.
Proof.
  exists (one uneven), 3, 6%Z, 2. split; [exact uneven_ok|]. split; [reflexivity|]. split.
  - intros [|m] a x X; cbn in X; [injection X as <-; cbn; intuition congruence|destruct m; discriminate].
  - split; [split; [cbn; tauto|vm_compute; split; repeat constructor]|]. repeat split; vm_compute; repeat constructor.
Qed.

Theorem nonvacuous_pf : hside_ok twolevel /\ (forall m, m < 2 -> symmetric (nth m (hsKnots twolevel) [])) /\
  ends twolevel false = [12; 16; 16; 16; 2; 4; 6; 8]%Z /\ ends twolevel true = [16; 12; 8; 4; 16; 16; 16; 14]%Z /\ hfunctionsOnSide twolevel = 8 /\
  hfindParameter twolevel West SW 3 = Ok 6%Z /\ hdistance twolevel 0 West SW 6 = Ok 2 /\ hdistance twolevel 1 West SW 6 = Ok 3 /\
  hfindParameter twolevel West NW 3 = Ok 12%Z /\ hdistance twolevel 0 West NW 12 = Ok 3 /\ hdistance twolevel 1 West NW 12 = Ok 6 /\
  hfindParameter twolevel West SW 9 = Err.
Proof.
  split; [exact twolevel_ok|]. split.
  - intros m Hm i x X. assert (i < 13) as Hi. { destruct m as [|[|m]]; [| |lia]; assert (H : nth_error (nth _ (hsKnots twolevel) []) i <> None) by (rewrite X; discriminate); apply nth_error_Some in H; cbn in H; lia. }
    destruct m as [|[|m]]; [| |lia]; do 13 (destruct i as [|i]; [cbn in X; try discriminate X; injection X as <-; reflexivity|]); lia.
  - repeat split; vm_compute; reflexivity.
Qed.
