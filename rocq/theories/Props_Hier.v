(** Property C65: functions counted from a corner of a hierarchical basis. *)
From Verif Require Import Common TopoModel BaseModel IndexSpec HierModel HierSpec HierProofs HierExamples.
Open Scope nat_scope.

(** If the rows of both levels lie in the refined box, index [i] is the [i]-th function in use on the line, fine functions first; indices past
    the end of the line (or of the finer level) are errors; the ends of the supports do not decrease. *)
Theorem C65_line : forall (b : hbasis) (c : corner) (s : side) (o lc : nat) (endp : nat -> nat -> nat -> nat) (e : nat -> nat),
  touches c s -> two_levels b c lc endp e -> o < dsize (hten b (S lc)) (dacross s) -> o < dsize (hten b lc) (dacross s) ->
  endp (S lc) (dacross s) o <= e (dacross s) -> endp lc (dacross s) o <= e (dacross s) ->
  (forall i lev k, i < dsize (hten b (S lc)) (dalong s) -> nth_error (line b c s o lc) i = Some (lev, k) ->
     exists x, hflat b lev (at_side (hten b lev) c s k o) = Some x /\ indexFromVertH b i c s o = Ok x) /\
  (forall i, length (line b c s o lc) <= i \/ dsize (hten b (S lc)) (dalong s) <= i -> indexFromVertH b i c s o = Err) /\
  (forall i j lev k lev' k', i < j -> nth_error (line b c s o lc) i = Some (lev, k) -> nth_error (line b c s o lc) j = Some (lev', k') ->
     endp lev (dalong s) k <= endp lev' (dalong s) k').
Proof. exact line_pf. Qed.
Print Assumptions C65_line.

(** Different indices give different functions. *)
Theorem C65_distinct : forall (b : hbasis) (c : corner) (s : side) (o lc : nat) (endp : nat -> nat -> nat -> nat) (e : nat -> nat),
  touches c s -> two_levels b c lc endp e -> o < dsize (hten b (S lc)) (dacross s) -> o < dsize (hten b lc) (dacross s) ->
  endp (S lc) (dacross s) o <= e (dacross s) -> endp lc (dacross s) o <= e (dacross s) ->
  (forall lev x lev' x' y, hflat b lev x = Some y -> hflat b lev' x' = Some y -> lev = lev' /\ x = x') ->
  forall i j x, indexFromVertH b i c s o = Ok x -> indexFromVertH b j c s o = Ok x -> i = j.
Proof. exact distinct_pf. Qed.
Print Assumptions C65_distinct.

(** The functions the D-patch construction asks for before refinement exist and are functions of level 1, except for degree two without
    extra refinement, where the third one is the third function of level 0. *)
Theorem C65_dpatch0 : forall (b : hbasis) (c : corner) (s : side) (p nel r i o : nat),
  2 <= p -> box p r <= nel -> touches c s -> dpatch0 b c p nel r -> i <= 2 -> o <= 1 ->
  let lev := if (p =? 2) && (r =? 0) && (i =? 2) && (2 <? nel) then 0 else 1 in
  exists x, hflat b lev (at_side (hten b lev) c s i o) = Some x /\ indexFromVertH b i c s o = Ok x.
Proof. exact dpatch0_pf. Qed.
Print Assumptions C65_dpatch0.

(** The functions asked for after refinement exist and are functions of level 2. *)
Theorem C65_dpatch1 : forall (b : hbasis) (c : corner) (s : side) (p nel r i o : nat),
  2 <= p -> 1 <= nel -> touches c s -> dpatch1 b c p nel r -> i <= 3 -> o <= 1 -> i < multi_size p (2 * nel) ->
  exists x, hflat b 2 (at_side (hten b 2) c s i o) = Some x /\ indexFromVertH b i c s o = Ok x.
Proof. exact dpatch1_pf. Qed.
Print Assumptions C65_dpatch1.

(** After refinement nothing is found farther away than the box: no function of level 1 is in use. *)
Theorem C65_far : forall (b : hbasis) (c : corner) (s : side) (p nel r i o : nat),
  2 <= p -> 1 <= nel -> touches c s -> dpatch1 b c p nel r -> o <= 1 -> 2 * box p r < multi_end p (2 * nel) i ->
  indexFromVertH b i c s o = Err.
Proof. exact dpatch1_far_pf. Qed.
Print Assumptions C65_far.

(** If the row of the coarser level leaves the box, counting goes on with the coarse function at the corner. *)
Theorem C65_order_refuted : exists (b : hbasis) (i j y y' : nat),
  dpatch0 b SW 4 4 0 /\ i < j /\
  hflat b 1 (at_side (hten b 1) SW South i 1) = Some y /\ indexFromVertH b i SW South 1 = Ok y /\
  hflat b 0 (at_side (hten b 0) SW South 0 1) = Some y' /\ indexFromVertH b j SW South 1 = Ok y'.
Proof. exact order_pf. Qed.
Print Assumptions C65_order_refuted.

(** Bases with these levels for all degrees, numbers of elements and refinements, and values. *)
Theorem C65_nonvacuous : forall p nel r, 2 <= p -> box p r <= nel ->
  dpatch0 (ex0 p nel r) SW p nel r /\ dpatch1 (ex1 p nel r) SW p nel r /\ touches SW South /\
  map (fun i => indexFromVertH (ex0 2 4 0) i SW South 1) [0; 1; 2; 3; 5; 6] = [Ok 13; Ok 15; Ok 16; Ok 18; Ok 22; Err] /\
  map (fun i => indexFromVertH (ex0 3 4 0) i SW West 0) [0; 2; 3; 4; 6; 7; 8; 9] = [Ok 1; Ok 41; Ok 61; Ok 28; Ok 56; Ok 70; Ok 84; Err] /\
  map (fun i => indexFromVertH (ex1 3 4 0) i SW South 1) [0; 3; 7; 8] = [Ok 37; Ok 43; Ok 51; Err].
Proof. exact nonvacuous_pf. Qed.
Print Assumptions C65_nonvacuous.
