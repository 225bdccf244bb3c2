(** An example for C78: piecewise constant functions on the elements of the finest level. *)
From Verif Require Import Common ListLemmas TopoModel SmoothExamples HbModel HbSpec HbExamples HbCoefModel HbCoefSpec HbCoefProofs.

Definition finest (n : nat) (h : hbasis) : nat := elems n (maxLevel h).
Definition pcSize (h : hbasis) : nat := finest (hnu h) h * finest (hnv h) h.
(** coefficient of element (i,j) of level [l] *)
Definition pcAt (h : hbasis) (c : list nat) (i j : nat) : nat := nth (j * finest (hnu h) h + i) c 0.
Definition pcRef (h : hbasis) (add : list hbox) (c : list nat) : res (list nat) :=
  let h' := refineElements h add in let k := 2 ^ (maxLevel h' - maxLevel h) in
  Ok (map (fun q => pcAt h c (q mod finest (hnu h) h' / k) (q / finest (hnu h) h' / k)) (seq 0 (pcSize h'))).
(** value in the point (a,b)/2^K, in elements of level 0 *)
Definition pcValue (h : hbasis) (c : list nat) (x : nat * nat * nat) : nat :=
  let '(K, a, b) := x in
  if (a <? hnu h * 2 ^ K) && (b <? hnv h * 2 ^ K) then pcAt h c (a * 2 ^ maxLevel h / 2 ^ K) (b * 2 ^ maxLevel h / 2 ^ K) else 0.

Lemma pow_pos n : 0 < 2 ^ n.
Proof. induction n; cbn; lia. Qed.
Lemma maxLevel_add h add : maxLevel h <= maxLevel (refineElements h add).
Proof. unfold maxLevel, refineElements. cbn [hboxes]. rewrite map_app. induction (map bl (hboxes h)) as [|a l IH]; cbn [fold_right app]; lia. Qed.
Lemma cell_lt n K M a : a < n * 2 ^ K -> a * 2 ^ M / 2 ^ K < elems n M.
Proof. intros L. pose proof (pow_pos K). pose proof (pow_pos M). apply Nat.div_lt_upper_bound; [lia|]. unfold elems. nia. Qed.
Lemma parent K M M' a : M <= M' -> a * 2 ^ M' / 2 ^ K / 2 ^ (M' - M) = a * 2 ^ M / 2 ^ K.
Proof.
  intros L. pose proof (pow_pos K). pose proof (pow_pos (M' - M)). rewrite Nat.div_div by lia. replace M' with (M + (M' - M)) at 1 by lia. rewrite Nat.pow_add_r, Nat.mul_assoc. apply Nat.div_mul_cancel_r; lia.
Qed.
Lemma pc_core : core_ok pcSize pcRef pcValue.
Proof.
  intros h add c L. eexists. split; [reflexivity|]. set (h' := refineElements h add). split; [now rewrite map_length, seq_length|].
  intros ((K & a) & b). unfold pcValue. change (hnu h') with (hnu h). change (hnv h') with (hnv h). destruct (Nat.ltb_spec a (hnu h * 2 ^ K)) as [A|A]; [|reflexivity]. destruct (Nat.ltb_spec b (hnv h * 2 ^ K)) as [B|B]; [|reflexivity]. cbn [andb].
  pose proof (cell_lt (hnu h) K (maxLevel h') a A) as A'. pose proof (cell_lt (hnv h) K (maxLevel h') b B) as B'. pose proof (maxLevel_add h add) as ML. fold h' in ML.
  rewrite <- (parent K (maxLevel h) (maxLevel h') a ML), <- (parent K (maxLevel h) (maxLevel h') b ML).
  unfold pcAt at 1. change (hnu h') with (hnu h). set (i := a * 2 ^ maxLevel h' / 2 ^ K) in *. set (j := b * 2 ^ maxLevel h' / 2 ^ K) in *.
  change (elems (hnu h) (maxLevel h')) with (finest (hnu h) h') in A'. change (elems (hnv h) (maxLevel h')) with (finest (hnv h) h') in B'. set (E := finest (hnu h) h') in *.
  assert (Q : j * E + i < pcSize h') by (unfold pcSize; change (finest (hnu h') h') with E; change (hnv h') with (hnv h); nia).
  match goal with |- nth _ (map ?f _) _ = _ => rewrite (nth_indep _ 0 (f 0)) by (rewrite map_length, seq_length; exact Q); rewrite (map_nth f) end.
  rewrite seq_nth by exact Q. cbn [plus].
  replace ((j * E + i) mod E) with i by (rewrite Nat.add_comm, Nat.mod_add by lia; symmetry; now apply Nat.mod_small).
  replace ((j * E + i) / E) with j by (rewrite Nat.div_add_l by lia; rewrite (Nat.div_small i E) by exact A'; lia). reflexivity.
Qed.

(** the refined patch of C74_nonvacuous and its neighbour; the plain one, with coefficients 0, 1, 2, ..., is refined by repairing *)
Definition exC : list nat := seq 0 (total pcSize [apart0; plain]).
Lemma coef_example_pf : core_ok pcSize pcRef pcValue /\ length exC = total pcSize [apart0; plain] /\ (exists bs' c', repairPatchesM pcSize pcRef 20 flipped2 1 [apart0; plain] exC None = Ok (bs', c') /\ bs' <> [apart0; plain] /\ length exC < length c' /\ pcValue (nth 1 bs' plain) (rows pcSize bs' c' 1) (1, 5, 3) = 266) /\ (exists bs' c', refineElementsC pcSize pcRef 20 flipped2 1 [plain; plain] (seq 0 128) 0 (hboxes apart0) true = Ok (bs', c') /\ nth 1 bs' plain <> plain) /\ (exists c', refineElementsC pcSize pcRef 20 flipped2 1 [plain; plain] (seq 0 128) 0 (hboxes apart0) false = Ok ([apart0; plain], c') /\ length c' = 320).
Proof.
  split; [exact pc_core|]. split; [apply seq_length|]. split; [|split].
  - destruct (repairPatchesM pcSize pcRef 20 flipped2 1 [apart0; plain] exC None) as [[bs' c']|] eqn:E; vm_compute in E; [|discriminate E]. exists bs', c'. split; [reflexivity|]. injection E as <- <-.
    split; [discriminate|]. split; [apply Nat.ltb_lt; vm_compute; reflexivity|vm_compute; reflexivity].
  - eexists _, _. split; [vm_compute; reflexivity|]. discriminate.
  - eexists. split; [vm_compute; reflexivity|]. reflexivity.
Qed.
