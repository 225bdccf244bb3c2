(** Property C64: the D-patch treatment of extraordinary vertices. *)
From Coq Require Import Reals.
From Coq Require Import Permutation.
From Verif Require Import Common TopoModel TopoSpec PiModel PiSpec EvModel EvSpec EvProofs3 EvExamples.
Open Scope nat_scope.

(** At every extraordinary vertex all functions get the structure of a D-patch, the coefficients are the projections of the refined ones;
    rows of other functions and columns away from the vertices are not changed. *)
Theorem C64_vertices : forall (I : evin) (evs : list (list pcorner)) (cl rw : pcorner -> nat -> nat -> nat) (n : nat) (A T : matrix),
  vertices (ev_t I) evs -> numbering I evs cl rw -> evs <> [] -> (ev_opt I = 0 \/ ev_opt I = 1)%Z ->
  (forall l, In l evs -> others_ok (ev_t I) cl rw l (refined n A T)) ->
  exists A', computeEVs I n A T evs = Ok A' /\
    (forall l, In l evs -> exists cs Pi, ring (ev_t I) l cs /\ makePi (ev_opt I) (ev_beta I) (ev_ref I) (length l) = Ok Pi /\
      (forall r, dpatch_at (ev_t I) cl (ev_beta I) (ev_ref I) cs A' r) /\
      (forall r x, x < 3 * length l -> A' r (starCol cl cs x) = papply (3 * length l) Pi (fun y => refined n A T r (starCol cl cs y)) x)) /\
    (forall r x, (forall l, In l evs -> ~ involved rw l r) \/ ~ written evs cl x -> A' r x = refined n A T r x).
Proof. exact vertices_pf. Qed.
Print Assumptions C64_vertices.

(** The functions still sum to one. *)
Theorem C64_unity : forall (I : evin) (evs : list (list pcorner)) (cl rw : pcorner -> nat -> nat -> nat) (n nr nf : nat) (A T A' : matrix),
  vertices (ev_t I) evs -> numbering I evs cl rw -> evs <> [] -> (ev_opt I = 0 \/ ev_opt I = 1)%Z ->
  (forall l, In l evs -> others_ok (ev_t I) cl rw l (refined n A T)) ->
  (forall c a b, In c (concat evs) -> near a b -> cl c a b < nf) ->
  (forall k, k < n -> colSum nr A k = 1%R) -> (forall c, c < nf -> rsum n (T c) = 1%R) ->
  computeEVs I n A T evs = Ok A' -> forall c, c < nf -> colSum nr A' c = 1%R.
Proof. exact unity_pf. Qed.
Print Assumptions C64_unity.

(** The refinement before the projection keeps what the theorem needs of the functions that are not changed. *)
Theorem C64_refined : forall (t : topo) (evs : list (list pcorner)) (cl oc rw : pcorner -> nat -> nat -> nat) (tau : nat -> nat -> R) (n : nat) (A T : matrix),
  vertices t evs -> insertion tau -> transfer n T evs cl oc tau ->
  (forall l, In l evs -> others_ok t oc rw l A) -> forall l, In l evs -> others_ok t cl rw l (refined n A T).
Proof. exact refined_pf. Qed.
Print Assumptions C64_refined.

(** A vertex that a patch meets twice: the position of the patch is kept in a map from patches, so one entry of the index list
    is never set and the function 0 of the patch is looked up. *)
Theorem C64_twice_refuted : exists (I : evin) (l : list pcorner) (cl rw : pcorner -> nat -> nat -> nat),
  consistent (ev_t I) /\ cornerList (ev_t I) (0, SW) = Ok l /\ length l = 5 /\ vertex_inner (ev_t I) l = true /\ NoDup l /\ In (0, SW) l /\ In (0, NE) l /\ numbering I [l] cl rw /\
  forall n A T, computeEVs I n A T [l] = Err.
Proof. exact twice_pf. Qed.
Print Assumptions C64_twice_refuted.

(** Three patches with four by four cubic functions around a vertex. *)
Theorem C64_nonvacuous : exists A', computeEVs I3 48 A3 T3 [l3] = Ok A' /\ (forall c, c < 48 -> colSum 9 A' c = 1%R) /\
  (exists cs, ring top3 l3 cs /\ forall r, dpatch_at top3 cl3 (1 / 2) 0 cs A' r) /\
  refined 48 A3 T3 0 0 = 1%R /\ refined 48 A3 T3 0 16 = 0%R /\ A' 0 0 = A' 0 16.
Proof. exact nonvacuous_pf. Qed.
Print Assumptions C64_nonvacuous.
