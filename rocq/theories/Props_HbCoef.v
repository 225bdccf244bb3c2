(** Property C78: refining and repairing a hierarchical basis with coefficients. *)
From Verif Require Import Common TopoModel SmoothExamples HbModel HbSpec HbExamples HbCoefModel HbCoefSpec HbCoefProofs HbCoefExamples.

(** Repairing with NULL coefficients changes the bases as proved in C74. *)
Theorem C78_bases : forall {C X V} hsz refC (value : hbasis -> list C -> X -> V), core_ok hsz refC value -> forall fuel t incr bs sf,
  repairPatchesN (C := C) refC fuel t incr bs sf = repairPatches fuel t incr bs sf.
Proof. exact (fun C X V => @bases_pf C X V). Qed.
Print Assumptions C78_bases.

(** Repairing with coefficients leads to the same bases (or does not end either), and to the same spline on every patch. *)
Theorem C78_repair : forall {C X V} hsz refC (value : hbasis -> list C -> X -> V), core_ok hsz refC value -> forall fuel t incr bs c sf, total hsz bs <= length c ->
  match repairPatches fuel t incr bs sf with
  | Err => repairPatchesM hsz refC fuel t incr bs c sf = Err
  | Ok bs' => exists c', repairPatchesM hsz refC fuel t incr bs c sf = Ok (bs', c') /\ same_splines hsz value bs c bs' c'
  end.
Proof. exact (fun C X V => @repair_pf C X V). Qed.
Print Assumptions C78_repair.

(** Refining without coefficients refines the patch and repairs from it. *)
Theorem C78_refine : forall {C X V} hsz refC (value : hbasis -> list C -> X -> V), core_ok hsz refC value -> forall fuel t incr bs patch boxes update h, nth_error bs patch = Some h ->
  refineElementsN (C := C) refC fuel t incr bs patch boxes update =
    if update then repairPatches fuel t incr (upd bs patch (refineElements h boxes)) (Some patch) else Ok (upd bs patch (refineElements h boxes)).
Proof. exact (fun C X V => @refineN_pf C X V). Qed.
Print Assumptions C78_refine.

(** Refining with coefficients and repair leads to the bases of refining without coefficients, and to the same spline on every patch. *)
Theorem C78_refine_coefs : forall {C X V} hsz refC (value : hbasis -> list C -> X -> V), core_ok hsz refC value -> forall fuel t incr bs c patch boxes, total hsz bs <= length c -> patch < length bs ->
  match refineElementsN (C := C) refC fuel t incr bs patch boxes true with
  | Err => refineElementsC hsz refC fuel t incr bs c patch boxes true = Err
  | Ok bs' => exists c', refineElementsC hsz refC fuel t incr bs c patch boxes true = Ok (bs', c') /\ same_splines hsz value bs c bs' c'
  end.
Proof. exact (fun C X V => @refine_pf C X V). Qed.
Print Assumptions C78_refine_coefs.

(** Without repair only the rows of the refined patch change. *)
Theorem C78_quiet : forall {C X V} hsz refC (value : hbasis -> list C -> X -> V), core_ok hsz refC value -> forall fuel t incr bs c patch boxes h, total hsz bs <= length c -> nth_error bs patch = Some h ->
  exists c', refineElementsC hsz refC fuel t incr bs c patch boxes false = Ok (upd bs patch (refineElements h boxes), c') /\ same_splines hsz value bs c (upd bs patch (refineElements h boxes)) c' /\
    forall p, p <> patch -> rows hsz (upd bs patch (refineElements h boxes)) c' p = rows hsz bs c p.
Proof. exact (fun C X V => @quiet_pf C X V). Qed.
Print Assumptions C78_quiet.

(** Too few coefficients are an error. *)
Theorem C78_short : forall {C} hsz (refC : hbasis -> list hbox -> list C -> res (list C)) fuel t incr bs c patch boxes update sf, length c < total hsz bs ->
  refineElementsC hsz refC fuel t incr bs c patch boxes update = Err /\ repairPatchesM hsz refC fuel t incr bs c sf = Err.
Proof. exact (fun C => @short_pf C). Qed.
Print Assumptions C78_short.

(** Piecewise constants on the finest elements satisfy the hypothesis; the neighbour of a refined patch is refined, too, and keeps its values. *)
Theorem C78_nonvacuous : core_ok pcSize pcRef pcValue /\ length exC = total pcSize [apart0; plain] /\
  (exists bs' c', repairPatchesM pcSize pcRef 20 flipped2 1 [apart0; plain] exC None = Ok (bs', c') /\ bs' <> [apart0; plain] /\ length exC < length c' /\
     pcValue (nth 1 bs' plain) (rows pcSize bs' c' 1) (1, 5, 3) = 266) /\
  (exists bs' c', refineElementsC pcSize pcRef 20 flipped2 1 [plain; plain] (seq 0 128) 0 (hboxes apart0) true = Ok (bs', c') /\ nth 1 bs' plain <> plain) /\
  (exists c', refineElementsC pcSize pcRef 20 flipped2 1 [plain; plain] (seq 0 128) 0 (hboxes apart0) false = Ok ([apart0; plain], c') /\ length c' = 320).
Proof. exact coef_example_pf. Qed.
Print Assumptions C78_nonvacuous.
