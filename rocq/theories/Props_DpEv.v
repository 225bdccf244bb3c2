(** Property C73: the final matrix of gsDPatch. *)
From Coq Require Import Reals Qreals.
From Verif Require Import Common TopoModel BaseModel IndexSpec TopoSpec SmoothSpec SmoothSpec2 SmoothExamples RingModel RingSpec DpModel DpSpec PiModel PiSpec EvModel EvSpec
  DpEvModel DpEvSpec DpExamples DpEvProofs DpEvProofs2 DpEvTensor DpEvExamples.
Open Scope nat_scope.

(** From the topology to the final matrix: the smoothing matrix is computed and passes its check; at every extraordinary vertex the functions of the
    final matrix have the structure of a D-patch and are the projections of the refined functions; elsewhere the final matrix is the refined
    smoothing matrix; its columns sum to one, so the second check passes as well. *)
Theorem C73_final : forall I, dp_input I -> forall D fine T evs opt beta level tau rw,
  ends_matched I -> length fine = length (ribases (dring I)) -> (forall b, In b fine -> separated b) ->
  vertices (ritopo (dring I)) evs -> evs <> [] -> (opt = 0 \/ opt = 1)%Z -> insertion tau ->
  transfer (drCols D) T evs (column_of fine) (column_of (ribases (dring I))) tau -> (forall c, c < sumN (map rsize fine) -> rsum (drCols D) (T c) = 1%R) ->
  dCompute I = Ok D -> rows_of I D evs rw ->
  exists A', dPatch I fine T evs opt beta level = Ok (drRows D, sumN (map rsize fine), A') /\
    (forall c, c < sumN (map rsize fine) -> colSum (drRows D) A' c = 1%R) /\
    (forall l, In l evs -> exists cs Pi, ring (ritopo (dring I)) l cs /\ makePi opt beta level (length l) = Ok Pi /\
      (forall r, dpatch_at (ritopo (dring I)) (column_of fine) beta level cs A' r) /\
      (forall r x, x < 3 * length l -> A' r (starCol (column_of fine) cs x) =
         papply (3 * length l) Pi (fun y => refined (drCols D) (fun r c => Q2R (dentry D r c)) T r (starCol (column_of fine) cs y)) x)) /\
    (forall r x, (forall l, In l evs -> ~ involved rw l r) \/ ~ written evs (column_of fine) x -> A' r x = refined (drCols D) (fun r c => Q2R (dentry D r c)) T r x).
Proof. exact vertices_thm. Qed.
Print Assumptions C73_final.

(** The functions that are changed have rows in the matrix. *)
Theorem C73_rows : forall I, dp_input I -> ends_matched I -> forall D evs, dCompute I = Ok D -> vertices (ritopo (dring I)) evs -> exists rw, rows_of I D evs rw.
Proof. exact (fun I DP EM D evs ED VT => ex_intro _ (row_at I D) (rows_exist I DP EM D ED evs VT)). Qed.
Print Assumptions C73_rows.

(** Without extraordinary vertices the smoothing matrix is the result. *)
Theorem C73_regular : forall I, dp_input I -> forall fine T opt beta level, exists D A', dCompute I = Ok D /\
  dPatch I fine T [] opt beta level = Ok (drRows D, drCols D, A') /\ forall r c, A' r c = Q2R (dentry D r c).
Proof. exact none_thm. Qed.
Print Assumptions C73_regular.

(** Whatever the inputs, a result is accepted only if the columns of both matrices sum to one up to the tolerance. *)
Theorem C73_checked : forall I fine T evs opt beta level nr nc A', dPatch I fine T evs opt beta level = Ok (nr, nc, A') ->
  (forall c, c < nc -> (Rabs (colSum nr A' c - 1) < 1 / 10 ^ 8)%R) /\
  exists D, dCompute I = Ok D /\ nr = drRows D /\ forall c, c < drCols D -> (Rabs (colSum nr (fun r c => Q2R (dentry D r c)) c - 1) < 1 / 10 ^ 8)%R.
Proof. exact checked_thm. Qed.
Print Assumptions C73_checked.

(** Tensor-product bases with six functions in every direction, and refined ones with eight, are such inputs. *)
Theorem C73_tensor : (forall I, well_formed I -> (forall b, In b (ibases I) -> 6 <= fst b /\ 6 <= snd b) -> ends_matched (dtensor I)) /\
  (forall b, 8 <= fst b -> 8 <= snd b -> separated (ring_of b)).
Proof. exact (conj tensor_ends tensor_separated). Qed.
Print Assumptions C73_tensor.

(** Three patches with cubic functions on three by three elements around a vertex. *)
Theorem C73_nonvacuous : exists A', dPatch (dtensor six) nine T9 [l3] 1 (1 / 2) 0 = Ok (75, 243, A') /\ (forall c, c < 243 -> colSum 75 A' c = 1%R) /\
  (exists cs, ring three_patches_topo l3 cs /\ forall r, dpatch_at three_patches_topo (column_of nine) (1 / 2) 0 cs A' r) /\
  column_of nine (0, SW) 1 1 = 10 /\ column_of nine (1, SW) 1 1 = 91 /\ A' 0 10 = A' 0 91 /\
  refined 108 (fun r c => Q2R (dentry dsix r c)) T9 0 10 = (7 / 12)%R /\ refined 108 (fun r c => Q2R (dentry dsix r c)) T9 0 91 = (5 / 24)%R.
Proof. exact nonvacuous_pf. Qed.
Print Assumptions C73_nonvacuous.
