(** C84: hierarchical bases, refinement and transfer matrix of the D-Patch and almost-C1 constructions. *)
From Coq Require Import Reals.
From Verif Require Import Common TopoModel RefModel RefSpec ThbModel ThbSpec ThbProofs ThbExamples.
Open Scope R_scope.

(** The boxes handed to the refinement cover the same region one level (two levels) further down;  *)
Theorem C84_boxes : forall bs,
  (exists bs', scaleBoxes 1 2 (flat_map flat bs) = flat_map flat bs' /\ map region bs' = map region bs /\ map blev bs' = map (fun b => (blev b + 1)%Z) bs) /\
  (exists bs', scaleBoxes 2 4 (flat_map flat bs) = flat_map flat bs' /\ map region bs' = map region bs /\ map blev bs' = map (fun b => (blev b + 2)%Z) bs).
Proof. exact boxes_pf. Qed.
Print Assumptions C84_boxes.

(** The boxes of the corners (C21) are of this form, on level 0. *)
Theorem C84_corner_boxes : forall I nel l, exists bs, flat_map (box_of I nel) l = flat_map flat bs /\ Forall (fun b => blev b = 0%Z) bs /\ (length bs <= length l)%nat.
Proof. exact corner_boxes_pf. Qed.
Print Assumptions C84_corner_boxes.

(** With bases whose refinement comes with its transfer matrix, the assembled matrix has a column for every function before and a row for every function after the refinement, acts on each patch alone, and leaves the function on every patch the same; so does the product of any matrix with its transpose, row by row. *)
Theorem C84_transfer : forall (B X : Type) (refineT : B -> list Z -> res (B * spm)) (size : B -> nat) (value : B -> nat -> X -> R),
 forall add fac bases boxes,
  (forall p b, nth_error bases p = Some b -> exists el b' m, nth_error boxes p = Some el /\ refineT b (scaleBoxes add fac el) = Ok (b', m) /\ transfers size value b b' m) ->
  exists fine T, makeTHB B refineT add fac bases boxes = Ok (fine, T) /\ length fine = length bases /\
    (forall p b el, nth_error bases p = Some b -> nth_error boxes p = Some el -> exists b' m, nth_error fine p = Some b' /\ refineT b (scaleBoxes add fac el) = Ok (b', m)) /\
    sprows T = sum_of size fine /\ spcols T = sum_of size bases /\ inside T /\
    (forall c p x, on_patch size value fine (apply T c) p x = on_patch size value bases c p x) /\
    (forall A r p x, on_patch size value fine (times_tr A T r) p x = on_patch size value bases (A r) p x).
Proof. exact @make_pf. Qed.
Print Assumptions C84_transfer.

(** The rows sum to one when those of the patches do. *)
Theorem C84_rows : forall B (refineT : B -> list Z -> res (B * spm)) add fac bases boxes,
  (forall p b, nth_error bases p = Some b -> exists el b' m, nth_error boxes p = Some el /\ refineT b (scaleBoxes add fac el) = Ok (b', m) /\ inside m /\ stochastic m) ->
  exists fine T, makeTHB B refineT add fac bases boxes = Ok (fine, T) /\ stochastic T.
Proof. exact rows_pf. Qed.
Print Assumptions C84_rows.

(** Then columns that sum to one before do so after the multiplication (the condition that _checkMatrix tests). *)
Theorem C84_columns : forall (m : spm) (A : nat -> nat -> R) nr, (forall i, (i < sprows m)%nat -> rsumTo (spcols m) (entries m i) = 1) -> (forall j, (j < spcols m)%nat -> rsumTo nr (fun r => A r j) = 1) ->
  forall i, (i < sprows m)%nat -> rsumTo nr (fun r => times_tr A m r i) = 1.
Proof. exact columns_pf. Qed.
Print Assumptions C84_columns.

(** The first refinement of gsDPatch refines every basis with its own boxes, one level down. *)
Theorem C84_first_step : forall B (refineT : B -> list Z -> res (B * spm)) bases boxes rs, initBasis B refineT bases boxes = Ok rs ->
  length rs = length bases /\ forall p b, nth_error bases p = Some b -> exists el r, nth_error boxes p = Some el /\ nth_error rs p = Some r /\ refineT b (scaleBoxes 1 2 el) = Ok r.
Proof. exact init_basis_pf. Qed.
Print Assumptions C84_first_step.

(** All bases tensor products or hierarchical: every patch gets its basis, made hierarchical, at its place. *)
Theorem C84_init : forall A (f : A -> A) bs, (forall b, In b bs -> fst b <> KOther) ->
  initTHB f bs = initTHBac f bs /\ length (initTHB f bs) = length bs /\ forall p k a, nth_error bs p = Some (k, a) -> nth_error (initTHB f bs) p = Some (match k with KTensor => f a | _ => a end).
Proof. exact init_pf. Qed.
Print Assumptions C84_init.

(** A basis of another kind is left out with a warning: the next patch then has the wrong number. *)
Theorem C84_init_refuted : exists (bs : list (bkind * nat)) f, nth_error bs 1 = Some (KTensor, 20%nat) /\ nth_error (initTHB f bs) 0 = Some 21%nat /\ nth_error (initTHB f bs) 1 = None.
Proof. exact init_refuted_pf. Qed.
Print Assumptions C84_init_refuted.

(** The hypotheses hold in an example with two patches, one refined. *)
Theorem C84_nonvacuous : (forall p b, nth_error hBases p = Some b -> exists el b' m, nth_error hBoxes p = Some el /\ hRefine b (scaleBoxes 1 2 el) = Ok (b', m) /\ transfers hSize hValue b b' m /\ stochastic m) /\
  makeTHB nat hRefine 1 2 hBases hBoxes = Ok ([1; 0]%nat, mkSpm 3 2 [(0%nat, 0%nat, 1); (1%nat, 0%nat, 1); (2%nat, 1%nat, 1)]) /\
  scaleBoxes 2 4 [0; 3; 0; 5; 2; 1; 0; 2; 4; 6]%Z = [2; 12; 0; 20; 8; 3; 0; 8; 16; 24]%Z.
Proof. exact h_ok. Qed.
Print Assumptions C84_nonvacuous.
