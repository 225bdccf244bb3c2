(** Property C74: repairing the patches of a hierarchical basis. *)
From Verif Require Import Common TopoModel TopoSpec SmoothExamples HbModel HbSpec HbProofs HbProofs2 HbProofs3 HbProofs4 HbProofs5 HbProofs6 HbProofs7 HbEndless HbExamples.

(** The functions that the code takes as active are the active functions of the hierarchical basis. *)
Theorem C74_active : forall h l s k, 1 <= l -> k < side_count h l s ->
  length (activeBoundary h l s) = side_count h l s /\ (nth k (activeBoundary h l s) false = true <-> on_side_fun active_fun h l s k).
Proof. exact (fun h l s k L K => conj (activeBoundary_length h l s) (activeBoundary_nth h l s k L K)). Qed.
Print Assumptions C74_active.

(** The loop over the missing functions treats exactly the maximal runs, from left to right. *)
Theorem C74_runs : forall r, r <> [] -> exists R, the_runs r R /\
  forall X (add : nat -> nat -> X -> res X) x, scan (2 * length r + 2) r add 0 0 x = foldM (fun x ab => add (fst ab) (snd ab) x) R x.
Proof. exact scan_ok. Qed.
Print Assumptions C74_runs.

(** _innerBoxesAreSuitable asks for no boxes exactly if the elements at interfaces are refined far enough from the interface. *)
Theorem C74_inner : forall t incr p h, 1 <= hpu h -> 1 <= hpv h -> 2 * Nat.min (hpu h) (incr + 1) <= 2 * hnu h -> 2 * Nat.min (hpv h) (incr + 1) <= 2 * hnv h ->
  (innerBoxes h incr t p = [] <-> suitable t incr p h).
Proof. exact innerBoxes_suitable. Qed.
Print Assumptions C74_inner.

(** After the boxes of _boxesMatchNeighbours, the patch has every function that is active in a neighbour on a common side. *)
Theorem C74_step : forall t incr bs, hb_input t incr bs -> forall p h x f s q s', vget bs p = Ok h -> matchNeighbours t bs incr p = Ok x -> In f (tif t) -> joins f p s q s' ->
  within (nth q bs nobasis) s' (refineElements h (fst x)) s (ifflip f).
Proof. exact matchNeighbours_within. Qed.
Print Assumptions C74_step.

(** No patch asks for boxes exactly if the same functions are active on both sides of every interface. *)
Theorem C74_check : forall t incr bs, hb_input t incr bs -> ((forall p, p < length bs -> exists c, matchNeighbours t bs incr p = Ok ([], c)) <-> matched t bs).
Proof. exact (fun t incr bs IN => conj (quiet_matched t incr bs IN) (fun M p L => ex_intro _ [] (matchNeighbours_same t incr bs IN M p L))). Qed.
Print Assumptions C74_check.

(** One round for patch [p] never fails.  If elements at interfaces are not refined far enough, exactly the elements behind them are refined and the patch
    is put back.  Otherwise exactly the supports of the missing functions, and of the rows behind them, are refined.  Every neighbour at a side that has
    to be checked again is put on the list once. *)
Theorem C74_round : forall t incr bs, hb_input t incr bs -> forall p todo h, vget bs p = Ok h ->
  exists h' e, repairRound t incr bs p todo = Ok (upd bs p h', todo ++ e) /\ NoDup e /\
  (~ suitable t incr p h -> e = [p] /\ forall l0 M i j, below h M -> refined h' l0 M i j <-> refined h l0 M i j \/ inner_cover h incr t p l0 M i j) /\
  (suitable t incr p h -> (forall q, In q e <-> ~ In q todo /\ exists z f sq, In f (tif t) /\ joins f p z q sq /\ all_flag t incr bs p h z) /\
     forall l0 M i j, refined h' l0 M i j <-> refined h l0 M i j \/ all_cover t incr bs p h l0 M i j).
Proof. exact repairRound_exact. Qed.
Print Assumptions C74_round.

(** Boxes are only added. *)
Theorem C74_grows : forall fuel t incr bs sf bs', repairPatches fuel t incr bs sf = Ok bs' ->
  length bs' = length bs /\ forall p, p < length bs -> exists add, nth p bs' nobasis = refineElements (nth p bs nobasis) add.
Proof. exact (fun fuel t incr bs sf bs' H => repairLoop_grows fuel t incr bs _ bs' H). Qed.
Print Assumptions C74_grows.

(** If the repair ends, at every interface one of the two patches has all active functions of the other one.  If it starts from one patch this must
    hold before between the other patches. *)
Theorem C74_ordered : forall fuel t incr bs sf bs', hb_input t incr bs ->
  (forall p, sf = Some p -> forall f, In f (tif t) -> fst (if1 f) <> p -> fst (if2 f) <> p -> at_iface ordered bs f) ->
  repairPatches fuel t incr bs sf = Ok bs' -> forall f, In f (tif t) -> fst (if1 f) <> fst (if2 f) -> at_iface ordered bs' f.
Proof. exact repair_ordered. Qed.
Print Assumptions C74_ordered.

(** Bases that match and whose inner boxes are suitable are left as they are. *)
Theorem C74_done : forall t incr bs, hb_input t incr bs -> matched t bs -> (forall p, p < length bs -> suitable t incr p (nth p bs nobasis)) ->
  forall todo, todo <> [] -> (forall p, In p todo -> p < length bs) -> repairLoop (length todo) t incr bs todo = Ok bs.
Proof. exact repairLoop_done. Qed.
Print Assumptions C74_done.

(** The repair may end although the active functions do not match. *)
Theorem C74_matched_refuted : exists t incr bs fuel bs', hb_input t incr bs /\ (forall p, p < length bs -> suitable t incr p (nth p bs nobasis)) /\
  repairPatches fuel t incr bs None = Ok bs' /\ ~ matched t bs'.
Proof. exact unmatched_pf. Qed.
Print Assumptions C74_matched_refuted.

(** It may end with inner boxes that are not suitable. *)
Theorem C74_suitable_refuted : exists t incr bs fuel bs' p, hb_input t incr bs /\ (forall p, p < length bs -> suitable t incr p (nth p bs nobasis)) /\
  repairPatches fuel t incr bs None = Ok bs' /\ p < length bs' /\ ~ suitable t incr p (nth p bs' nobasis).
Proof. exact inner_pf. Qed.
Print Assumptions C74_suitable_refuted.

(** It may not end: round after round succeeds, patches remain to be checked, and the active functions stay the same. *)
Theorem C74_ends_refuted : exists t incr bs, hb_input t incr bs /\ (forall fuel, repairPatches fuel t incr bs None = Err) /\
  (forall n, exists bs' todo, after_rounds n t incr (bs, seq 0 (length bs)) = Ok (bs', todo) /\ todo <> [] /\
     forall p l a c, p < length bs -> 1 <= l -> (active_fun (nth p bs' nobasis) l a c <-> active_fun (nth p bs nobasis) l a c)).
Proof. exact endless_pf. Qed.
Print Assumptions C74_ends_refuted.

(** One patch is refined at an interface of opposite orientation; the other one gets the same functions. *)
Theorem C74_nonvacuous : hb_input flipped2 1 [apart0; plain] /\
  (exists bs', repairPatches 20 flipped2 1 [apart0; plain] None = Ok bs' /\ matched flipped2 bs' /\ (forall p, p < 2 -> suitable flipped2 1 p (nth p bs' nobasis)) /\ nth 0 bs' nobasis = apart0 /\
     active_fun (nth 1 bs' nobasis) 1 17 8 /\ active_fun (nth 1 bs' nobasis) 1 17 9 /\ ~ active_fun (nth 1 bs' nobasis) 1 17 7 /\ ~ present plain 1 17 8 /\ repairPatches 2 flipped2 1 bs' None = Ok bs') /\
  the_runs [true; true; false; true; false] [(0, 1); (3, 3)].
Proof. exact nonvacuous_pf. Qed.
Print Assumptions C74_nonvacuous.
