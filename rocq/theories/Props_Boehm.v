(** C55: across an interface the weights of _getBoehmCoefs couple functions of the two patches into one that is degree - 1 times
    continuously differentiable. C56: the weights of the functions that are coupled across an interface add up to one. *)
From Verif Require Import Common SplineModel BoehmModel BoehmSpec BoehmProofs2 BoehmExamples.
Open Scope R_scope.

(** [degree] functions on either side are coupled; [k] is the distance of the first of them from the interface. The second
    parameter interval starts in 0. *)
Theorem C55_coupled : forall kv0 kv1 a0 b0 b1 in0 in1 dir0 dir1 w0 w1 degree,
  clamped kv0 a0 b0 in0 -> clamped kv1 0 b1 in1 -> 0 < w0 -> 0 < w1 -> sdeg kv1 = sdeg kv0 -> (1 <= degree <= sdeg kv0)%nat ->
  forall k, (k < degree)%nat ->
  exists ws h, getBoehmCoefs kv0 dir0 w0 kv1 dir1 w1 degree k = Ok ws /\ length ws = S degree /\ (forall s, (s <= degree)%nat -> 0 < nth s ws 0 <= 1) /\
    joins (firstHalf kv0 a0 b0 dir0 w0 k ws) (secondHalf kv1 0 b1 dir1 w1 k ws) h (noKnotAt kv0 a0 b0 dir0 w0) (noKnotAt kv1 0 b1 dir1 w1) /\
    forall lo hi, 0 < lo -> 0 < hi -> clearUpTo kv0 a0 b0 dir0 w0 lo -> clearUpTo kv1 0 b1 dir1 w1 hi -> Cn (degree - 1) (- lo) hi h.
Proof. exact coupled_pf. Qed.
Print Assumptions C55_coupled.

(** If the parameter interval of the second patch does not start in 0, the shifted knots leave a gap and the weights produce a kink. *)
Theorem C55_shifted_refuted : exists ws, clamped unitKnots 0 1 [] /\ clamped shiftedKnots 1 2 [] /\ getBoehmCoefs unitKnots true 1 shiftedKnots false 1 2 0 = Ok ws /\
  clearUpTo unitKnots 0 1 true 1 1 /\ clearUpTo shiftedKnots 1 2 false 1 1 /\
  forall h, joins (firstHalf unitKnots 0 1 true 1 0 ws) (secondHalf shiftedKnots 1 2 false 1 0 ws) h (noKnotAt unitKnots 0 1 true 1) (noKnotAt shiftedKnots 1 2 false 1) -> ~ Cn 1 (- 1) 1 h.
Proof. exact shifted_refuted_pf. Qed.
Print Assumptions C55_shifted_refuted.

Theorem C55_nonvacuous : clamped unitKnots 0 1 [] /\ clearUpTo unitKnots 0 1 true 1 1 /\ getBoehmCoefs unitKnots false 2 unitKnots true 1 2 0 = Ok [2 / 3; 2 / 3; 1].
Proof. exact (conj unit_clamped (conj unit_clear weights0)). Qed.
Print Assumptions C55_nonvacuous.

(** [ws k] are the weights of the function that starts at distance [k]. The function at distance [d] from the interface takes part
    with number [k - d] on the first patch and with number [k + 1 + d] on the second. *)
Theorem C56_partition : forall kv0 kv1 a0 b0 b1 in0 in1 dir0 dir1 w0 w1 degree,
  clamped kv0 a0 b0 in0 -> clamped kv1 0 b1 in1 -> 0 < w0 -> 0 < w1 -> sdeg kv1 = sdeg kv0 -> (1 <= degree <= sdeg kv0)%nat ->
  exists ws, (forall k, (k < degree)%nat -> getBoehmCoefs kv0 dir0 w0 kv1 dir1 w1 degree k = Ok (ws k)) /\
    forall d, (d < degree)%nat -> rsum degree (fun k => if (d <=? k)%nat then nth (k - d) (ws k) 0 else 0) = 1 /\ rsum degree (fun k => nth (k + 1 + d) (ws k) 0) = 1.
Proof. exact partition_pf. Qed.
Print Assumptions C56_partition.

Theorem C56_nonvacuous : getBoehmCoefs unitKnots false 2 unitKnots true 1 2 0 = Ok [2 / 3; 2 / 3; 1] /\ getBoehmCoefs unitKnots false 2 unitKnots true 1 2 1 = Ok [1; 1 / 3; 1 / 3].
Proof. exact (conj weights0 weights1). Qed.
Print Assumptions C56_nonvacuous.
