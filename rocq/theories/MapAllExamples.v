(** Concrete configurations for C63. *)
From Coq Require Import Reals Lra.
From Verif Require Import Common TopoModel TopoSpec MapModel MapSpec MapTravelSpec SplineModel BoehmModel BoehmSpec MapAllModel MapAllSpec.
From Coq Require Import ZifyBool Permutation.
Open Scope Z_scope.

(** four patches around a vertex, each with four by four quadratic functions; the vertex is special or not *)
Definition B4 := mkMB 4 4 2 2.
Definition kv4 : sbasis := mkSB [0; 0; 0; 1/2; 1; 1; 1]%R 2.
Definition top4 : topo := mkT 4 [mkI (0, East) (1, West) false; mkI (0, North) (2, South) false; mkI (1, North) (3, South) false; mkI (2, East) (3, West) false]%nat
  [(0, West); (0, South); (1, East); (1, South); (2, West); (2, North); (3, East); (3, North)]%nat.
Definition centre (p : nat) : corner := match p with 0%nat => NE | 1%nat => NW | 2%nat => SE | _ => SW end.
Definition ceq (a b : corner) : bool := match a, b with SW, SW | SE, SE | NW, NW | NE, NE => true | _, _ => false end.
Definition conf4 (sp : bool) (p : nat) : pconf :=
  mkPC 4 4 2 2 (fun s => isInterface top4 (p, s)) (fun k => sp && ceq k (centre p)) (fun k => if ceq k (centre p) then 2 else 0) (fun k => if ceq k (centre p) then 2 else 0) false.
Definition grid (sp : bool) : mpbes := mkMP [B4; B4; B4; B4] top4 (conf4 sp) (fun _ _ => kv4) (fun _ => 1%R).

Definition opps (s : side) : side := match s with West => East | East => West | South => North | North => South end.
Definition nbp (p : nat) (s : side) : nat := match p, side_dir s with 0, 0 => 1 | 1, 0 => 0 | 2, 0 => 3 | 3, 0 => 2 | 0, _ => 2 | 2, _ => 0 | 1, _ => 3 | _, _ => 1 end%nat.

Lemma top4_ok : consistent top4.
Proof.
  split.
  - unfold sides_partitioned, iface_sides, all_sides, top4. cbn.
    apply NoDup_Permutation; [repeat (constructor; [cbn; intuition congruence|]); constructor|repeat (constructor; [cbn; intuition congruence|]); constructor|intros x; cbn; intuition].
  - intros f [<-|[<-|[<-|[<-|[]]]]]; left; discriminate.
Qed.
Ltac glue4 := constructor; [reflexivity|reflexivity|eexists; split; [reflexivity|]; split; [reflexivity|]; split; [reflexivity|]; intros _; reflexivity|unfold adjacent; cbn; congruence|reflexivity].

Lemma grid_ok sp : mp_ok (grid sp) 2.
Proof.
  constructor; cbn [mbs mtop mconf mkv mwt grid].
  - exact top4_ok.
  - reflexivity.
  - intros p b E. cbv zeta. assert (b = B4) as -> by (destruct p as [|[|[|[|p]]]]; cbn in E; try congruence; destruct p; discriminate).
    cbn [pU pV pdu pdv pOne conf4 B4 mb_u mb_v pInt]. repeat (split; [reflexivity|]). split; [|reflexivity].
    constructor; try (cbn; lia).
    + intros k. cbn [conf4 pH pW]. destruct (ceq k (centre p)); lia.
    + assert (P : (p < 4)%nat) by (apply (proj1 (nth_error_Some [B4; B4; B4; B4] p)); congruence). clear E. intros k. destruct sp, p as [|[|[|[|p]]]]; try lia; destruct k; cbn; lia.
  - intros p b s s2 E I A. exists (nbp p s), B4, (opps s), s2. destruct p as [|[|[|[|p]]]]; [..|destruct p; discriminate]; cbn in E; injection E as <-;
      (destruct s; try discriminate I; destruct s2; try (elim A; reflexivity); (split; [discriminate|]; split; glue4)).
  - intros p b s s2 p' b' s' s2' [E E' (f & GI & O & S2 & _) A Z]. destruct p as [|[|[|[|p]]]]; [..|destruct p; discriminate]; clear E E' Z;
      (destruct s; cbn in GI; try discriminate GI; injection GI as <-; cbn in O; injection O as <- <-; subst s2'; destruct s2; try (elim A; reflexivity); destruct sp; cbn; (split; [reflexivity|split; intros; reflexivity || discriminate])).
  - intros p b s s2 E A I I2 SPC. exists (mkF (nbp p s) B4 (opps s) s2), (mkF (nbp p s2) B4 s (opps s2)), (mkF (nbp (nbp p s) s2) B4 (opps s) (opps s2)). 
    destruct p as [|[|[|[|p]]]]; [..|destruct p; discriminate]; cbn in E; injection E as <-;
      (destruct s; try discriminate I; destruct s2; try discriminate I2; try (elim A; reflexivity); clear I I2 A SPC; (split; [constructor; split; glue4|unfold distinct4; cbn; repeat (constructor; [cbn; intuition congruence|]); constructor])).
  - intros p k l P Q C. destruct sp; [|discriminate Q]. assert (k = centre p) as -> by (cbn in Q; destruct k, (centre p); try discriminate; reflexivity). cbn in P. destruct p as [|[|[|[|p]]]]; [..|lia]; vm_compute in C; injection C as <-; cbn; repeat (constructor; [cbn; intuition congruence|]); constructor.
  - intros _ _. exists 1%R, [(1/2)%R]. split; [reflexivity|]. split; [lra|]. split; [intros i j; cbn; destruct i as [|i], j as [|j]; cbn; intros; lia || lra|]. intros v V. cbn in V. destruct V as [<-|V]; [lra|destruct V].
  - intros p s p' s' _. split; [reflexivity|cbn; lia].
  - intros _. lra.
Qed.

(** what is added at the special vertex *)
Lemma grid_vertex : addAction (grid true) 0 ((3, 3), Singular) = Ok [[(15, 1%R); (28, 1%R); (35, 1%R); (48, 1%R)]] /\ addAction (grid true) 3 ((0, 0), Singular) = Ok [] /\
  In ((3, 3), Singular) (patchActions (mconf (grid true) 0)) /\ In ((3, 3), Block North East 2 2 0 0) (patchActions (mconf (grid false) 0)).
Proof. split; [reflexivity|]. split; [reflexivity|]. split; vm_compute; tauto. Qed.

(** two patches closed to a torus, every patch meets every vertex twice *)
Definition torus : topo := mkT 2 [mkI (0, East) (1, West) false; mkI (1, East) (0, West) false; mkI (0, North) (1, South) false; mkI (1, North) (0, South) false]%nat [].
Definition conf2 : pconf := mkPC 4 4 2 2 (fun _ => true) (fun _ => true) (fun _ => 2) (fun _ => 2) false.
Definition donut : mpbes := mkMP [B4; B4] torus (fun _ => conf2) (fun _ _ => kv4) (fun _ => 1%R).
Lemma torus_ok : consistent torus.
Proof.
  split.
  - unfold sides_partitioned, iface_sides, all_sides, torus. cbn.
    apply NoDup_Permutation; [repeat (constructor; [cbn; intuition congruence|]); constructor|repeat (constructor; [cbn; intuition congruence|]); constructor|intros x; cbn; intuition].
  - intros f [<-|[<-|[<-|[<-|[]]]]]; left; discriminate.
Qed.

Lemma twice_pf : exists M x x' c c', consistent (mtop M) /\ natural (mconf M 0%nat) /\ x <> x' /\ In (x, Singular) (patchActions (mconf M 0%nat)) /\ In (x', Singular) (patchActions (mconf M 0%nat)) /\
  addAction M 0 (x, Singular) = Ok [c] /\ addAction M 0 (x', Singular) = Ok [c'] /\ Permutation c c' /\ rowSum [c; c'] 0 = 2%R.
Proof.
  exists donut, (0, 0), (3, 3). eexists _, _. split; [exact torus_ok|]. split; [constructor; try (cbn; lia); intros []; cbn; lia|]. split; [discriminate|].
  split; [vm_compute; tauto|]. split; [vm_compute; tauto|]. split; [reflexivity|]. split; [reflexivity|]. split.
  - apply NoDup_Permutation; [repeat (constructor; [cbn; intuition congruence|]); constructor|repeat (constructor; [cbn; intuition congruence|]); constructor|intros x; cbn; intuition].
  - unfold rowSum, entry. cbn. lra.
Qed.

Lemma nonvacuous_pf : mp_ok (grid false) 2 /\ mp_ok (grid true) 2 /\ addAction (grid true) 0 ((3, 3), Singular) = Ok [[(15, 1%R); (28, 1%R); (35, 1%R); (48, 1%R)]] /\
  In ((3, 3), Singular) (patchActions (mconf (grid true) 0)) /\ In ((3, 3), Block North East 2 2 0 0) (patchActions (mconf (grid false) 0)).
Proof. split; [apply grid_ok|]. split; [apply grid_ok|]. destruct grid_vertex as (A & _ & B). now split. Qed.
