(** Examples for C74. *)
From Coq Require Import ZifyBool.
From Verif Require Import Common ListLemmas TopoModel TopoSpec TopoProofs HbModel HbSpec HbProofs HbProofs2 HbProofs3 HbProofs4.

Definition side2 : topo := mkT 2 [mkI (0, East) (1, West) false] [(0, West); (0, South); (0, North); (1, East); (1, South); (1, North)].
Definition flipped2 : topo := mkT 2 [mkI (0, East) (1, East) true] [(0, West); (0, South); (0, North); (1, West); (1, South); (1, North)].
Definition corner3 : topo := mkT 3 [mkI (0, East) (1, West) false; mkI (1, South) (2, North) false]
  [(0, West); (0, South); (0, North); (1, East); (1, North); (2, West); (2, East); (2, South)].

Ltac topo_ok := split; [apply NoDup_Permutation;
  [repeat constructor; cbn; intuition discriminate|repeat constructor; cbn; intuition discriminate|intros x; cbn; tauto]
 |intros f H; cbn in H; left; repeat (destruct H as [<-|H]; [cbn; lia|]); destruct H].
Lemma side2_ok : consistent side2. Proof. topo_ok. Qed.
Lemma flipped2_ok : consistent flipped2. Proof. topo_ok. Qed.
Lemma corner3_ok : consistent corner3. Proof. topo_ok. Qed.

(** two patches, refined at the interface in neighbouring places *)
Definition apart0 : hbasis := mkHB 2 2 8 8 [mkBox 1 12 6 16 10].
Definition apart1 : hbasis := mkHB 2 2 8 8 [mkBox 1 0 4 4 6].
Definition plain : hbasis := mkHB 2 2 8 8 [].
Definition corner0 : hbasis := mkHB 2 2 8 8 [mkBox 1 12 0 16 2].

Ltac inp T := split; [exact T|reflexivity|intros h H; cbn in H; intuition (subst; cbn; lia)|intros h H; cbn in H; intuition (subst; cbn; lia)|intros f H; cbn in H; intuition (subst; intros l; cbn; reflexivity)].
Lemma apart_input : hb_input side2 1 [apart0; apart1]. Proof. inp side2_ok. Qed.
Lemma corner_input : hb_input corner3 1 [corner0; plain; plain]. Proof. inp corner3_ok. Qed.
Lemma flipped_input : hb_input flipped2 1 [apart0; plain]. Proof. inp flipped2_ok. Qed.

Definition outcome (r : res (list hbasis)) : list hbasis := match r with Ok bs => bs | Err => [] end.
Lemma suitable_check t incr p h : 1 <= hpu h -> 1 <= hpv h -> 2 * Nat.min (hpu h) (incr + 1) <= 2 * hnu h -> 2 * Nat.min (hpv h) (incr + 1) <= 2 * hnv h -> innerBoxes h incr t p = [] -> suitable t incr p h.
Proof. intros. apply innerBoxes_suitable; assumption. Qed.
Ltac suits := apply suitable_check; [cbn; lia|cbn; lia|cbn; lia|cbn; lia|vm_compute; reflexivity].

Lemma unmatched_pf : exists t incr bs fuel bs', hb_input t incr bs /\ (forall p, p < length bs -> suitable t incr p (nth p bs nobasis)) /\ repairPatches fuel t incr bs None = Ok bs' /\ ~ matched t bs'.
Proof.
  exists side2, 1, [apart0; apart1], 20. eexists. split; [exact apart_input|]. split; [|split; [vm_compute; reflexivity|]].
  - intros p Hp. cbn in Hp. destruct p as [|[|p]]; [| |lia]; suits.
  - intros M. specialize (M (mkI (0, East) (1, West) false) (or_introl eq_refl) 1 6). cbn [at_iface if1 if2 ifflip fst snd nth opposite] in M. rewrite <- !activeBoundary_nth in M by (cbn; lia). cbn [if1 if2 ifflip fst snd nth opposite] in M. destruct M as (_ & M); [lia|cbn; lia|]. vm_compute in M. specialize (M eq_refl). discriminate M.
Qed.
Lemma inner_pf : exists t incr bs fuel bs' p, hb_input t incr bs /\ (forall p, p < length bs -> suitable t incr p (nth p bs nobasis)) /\ repairPatches fuel t incr bs None = Ok bs' /\ p < length bs' /\ ~ suitable t incr p (nth p bs' nobasis).
Proof.
  exists corner3, 1, [corner0; plain; plain], 20. eexists. exists 1. split; [exact corner_input|]. split; [|split; [vm_compute; reflexivity|split; [cbn; lia|]]].
  - intros p Hp. cbn in Hp. destruct p as [|[|[|p]]]; [| | |lia]; suits.
  - intros Q. apply innerBoxes_suitable in Q; [vm_compute in Q; discriminate Q|cbn; lia|cbn; lia|cbn; lia|cbn; lia].
Qed.

(** comparing the active functions of the levels that occur *)
Lemma same_active_check h s h' s' fl : 1 <= hpu h -> 1 <= hpv h -> 1 <= hnu h -> 1 <= hnv h -> 1 <= hnu h' -> 1 <= hnv h' -> (forall l, side_count h l s = side_count h' l s') ->
  forallb (fun l => forallb (fun k => Bool.eqb (nth k (activeBoundary h l s) false) (nth k (nbr_flags h' l s' fl) false)) (seq 0 (side_count h l s))) (seq 1 (Nat.max (maxLevel h) (maxLevel h'))) = true ->
  same_active h s h' s' fl.
Proof.
  intros P1 P2 U V U' V' C H l k L K. destruct (Nat.le_gt_cases l (Nat.max (maxLevel h) (maxLevel h'))) as [Le|Gt].
  - rewrite forallb_forall in H. specialize (H l ltac:(apply in_seq; lia)). rewrite forallb_forall in H. specialize (H k ltac:(apply in_seq; lia)). apply Bool.eqb_prop in H. rewrite <- activeBoundary_nth by assumption. rewrite H, nbr_flags_nth by (rewrite <- ?C; assumption). rewrite C. reflexivity.
  - assert (G : forall g z n, 1 <= hnu g -> 1 <= hnv g -> n < side_count g l z -> on_side_fun active_fun g l z n -> l <= maxLevel g).
    { intros g z n Ug Vg N A. rewrite on_side_sideFun in A. destruct A as (A & _). pose proof (pow2_pos l). eapply present_level; [exact L|exact Ug|exact Vg| | |exact A]; destruct z; cbn [sideFun fst snd side_count] in *; unfold funs, elems; nia. }
    split; intros A; exfalso; [apply (G h s k) in A|apply (G h' s' (opposite fl (side_count h l s) k)) in A]; try assumption; try lia. rewrite <- C. apply opposite_lt. exact K.
Qed.

(** one patch is refined at an interface of opposite orientation; the other one gets the same functions *)
Lemma nonvacuous_pf : hb_input flipped2 1 [apart0; plain] /\
  (exists bs', repairPatches 20 flipped2 1 [apart0; plain] None = Ok bs' /\ matched flipped2 bs' /\ (forall p, p < 2 -> suitable flipped2 1 p (nth p bs' nobasis)) /\ nth 0 bs' nobasis = apart0 /\
     active_fun (nth 1 bs' nobasis) 1 17 8 /\ active_fun (nth 1 bs' nobasis) 1 17 9 /\ ~ active_fun (nth 1 bs' nobasis) 1 17 7 /\ ~ present plain 1 17 8 /\ repairPatches 2 flipped2 1 bs' None = Ok bs') /\
  the_runs [true; true; false; true; false] [(0, 1); (3, 3)].
Proof.
  split; [exact flipped_input|]. split.
  - eexists. split; [vm_compute; reflexivity|]. split; [|split; [|split; [|split; [|split; [|split; [|split]]]]]].
    + intros f H. cbn in H. destruct H as [<-|[]]. unfold at_iface. cbn [if1 if2 ifflip fst snd nth]. apply same_active_check; [cbn; lia|cbn; lia|cbn; lia|cbn; lia|cbn; lia|cbn; lia|intros l; reflexivity|vm_compute; reflexivity].
    + intros p Hp. destruct p as [|[|p]]; [| |lia]; suits.
    + reflexivity.
    + apply active_spec; [lia|]. vm_compute. reflexivity.
    + apply active_spec; [lia|]. vm_compute. reflexivity.
    + rewrite <- active_spec by lia. vm_compute. discriminate.
    + unfold present. rewrite <- suppBox_support, <- atLeast_spec by lia. vm_compute. discriminate.
    + vm_compute. reflexivity.
  - split.
    + intros a b. split.
      * intros [E|[E|[]]]; injection E as <- <-; (split; [cbn; lia|]); (split; [|split; [cbn; auto|reflexivity]]); intros i Hi; destruct i as [|[|[|[|i]]]]; cbn; try reflexivity; lia.
      * intros (L & T & Lf & R). cbn [length] in L. destruct a as [|[|[|[|[|a]]]]]; cbn in Lf; destruct b as [|[|[|[|[|b]]]]]; cbn in R; try lia; try (destruct Lf; discriminate); try discriminate; cbn; auto; exfalso; first [pose proof (T 2 ltac:(lia)) as Q; discriminate Q | pose proof (T 4 ltac:(lia)) as Q; discriminate Q].
    + repeat constructor; cbn; lia.
Qed.
