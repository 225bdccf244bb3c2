(** Properties C10-C14 and C43: gsDPatchBase. *)
From Verif Require Import Common TopoModel BaseModel BaseModel2 IndexSpec TopoSpec SmoothSpec SmoothSpec2 BaseSpec2
  SmoothExamples BaseProofs2 ExportProofs.

(** C10: getting and removing the n lowest indices are complementary. *)
Theorem C10_lowest_and_rest : forall l n, NoDup l -> n <= length l ->
  exists rest, removeLowestIndices l n = Ok rest /\ length (getLowestIndices l n) = n /\
    Permutation (getLowestIndices l n ++ rest) l /\ increasing (getLowestIndices l n) /\
    (forall a b, In a (getLowestIndices l n) -> In b rest -> lower a b).
Proof. exact lowest_split. Qed.
Print Assumptions C10_lowest_and_rest.

(** The choice of sorting algorithm does not matter. *)
Theorem C10_any_sorting_algorithm : forall l s, NoDup l -> Permutation s l -> increasing s -> s = sort dof_less l.
Proof. exact any_sort. Qed.
Print Assumptions C10_any_sorting_algorithm.

(** Asking for more than there is: removal is an error, selection pads with (0,0). *)
Theorem C10_too_many_removed : forall l n, length l < n -> removeLowestIndices l n = Err.
Proof. exact too_many. Qed.
Print Assumptions C10_too_many_removed.
Theorem C10_too_many_selected : forall l n, length l < n ->
  getLowestIndices l n = sort dof_less l ++ repeat (0, 0) (n - length l).
Proof. exact padded. Qed.
Print Assumptions C10_too_many_selected.

(** Corners: complementary as long as no patch occurs twice ... *)
Theorem C10_lowest_corners : forall l n, NoDup (map fst l) -> n <= length l ->
  exists low rest, getLowestCorners l n = Ok low /\ removeLowestCorners l n = Ok rest /\ length low = n /\
    Permutation (low ++ rest) l /\ (forall a b, In a low -> In b rest -> fst a < fst b).
Proof. exact corners_split. Qed.
Print Assumptions C10_lowest_corners.

(** ... but not for a vertex that meets two corners of the same patch. *)
Theorem C10_lowest_corners_refuted : exists (l : list pcorner) n low rest, NoDup l /\ n <= length l /\
  getLowestCorners l n = Ok low /\ removeLowestCorners l n = Ok rest /\ exists c, In c low /\ In c rest.
Proof. exact corners_overlap. Qed.
Print Assumptions C10_lowest_corners_refuted.

Example C10_nonvacuous : removeLowestIndices [(1, 5); (0, 7); (1, 2); (0, 3)] 2 = Ok [(1, 5); (1, 2)] /\
  getLowestIndices [(1, 5); (0, 7); (1, 2); (0, 3)] 2 = [(0, 3); (0, 7)].
Proof. split; vm_compute; reflexivity. Qed.

(** C11: sharp corners are decided vertex by vertex. *)
Theorem C11_sharp_corners : forall t, consistent t -> forall nrm tol, exists fl,
  getSharpCorners t (tnp t) true nrm tol = Ok fl /\ length fl = 4 * tnp t /\
  forall a, fst a < tnp t ->
    (interior_vertex t a -> nth_error fl (vertIndex a) = Some false) /\
    (forall b, same_vertex t a b -> nth_error fl (vertIndex b) = nth_error fl (vertIndex a)) /\
    (~ interior_vertex t a -> exists x y, x <> y /\ (forall z, boundary_at t a z <-> z = x \/ z = y) /\
       (nth_error fl (vertIndex a) = Some true <-> exceeds (scalar (nrm (fst x) (snd x)) (nrm (fst y) (snd y)) - 1) tol) /\
       (nth_error fl (vertIndex a) = Some false <-> ~ exceeds (scalar (nrm (fst x) (snd x)) (nrm (fst y) (snd y)) - 1) tol)).
Proof. exact sharp_corners. Qed.
Print Assumptions C11_sharp_corners.

(** The flags can be used as sharp-corner flags of the construction (hypotheses of C01-C06). *)
Theorem C11_flags_admissible : forall t nrm tol, consistent t -> exists fl, getSharpCorners t (tnp t) true nrm tol = Ok fl /\
  length fl = 4 * tnp t /\ forall a b, glued_corners t a b -> nth_error fl (vertIndex a) = nth_error fl (vertIndex b).
Proof. exact flags_admissible. Qed.
Print Assumptions C11_flags_admissible.

Example C11_nonvacuous :
  consistent (itopo two_patches) /\
  getSharpCorners (itopo two_patches) 2 true (fun _ s => match s with West => [-1;0] | East => [1;0] | South => [0;-1] | North => [0;1] end)%Q (1#1000)
  = Ok [true; false; true; false; false; true; false; true].
Proof. split; [apply two_patches_wf | vm_compute; reflexivity]. Qed.

(** C12: the exported blocks tile the coefficient vector. *)
Theorem C12_blocks_tile : forall (A : Type) sizes (coefs : list A), length coefs = sumN sizes ->
  exists bl, mapM (fun p => patchBlock sizes p coefs) (seq 0 (length sizes)) = Ok bl /\
    concat bl = coefs /\ map (@length A) bl = sizes.
Proof. exact @blocks_tile. Qed.
Print Assumptions C12_blocks_tile.

Theorem C12_each_function_reads_its_own_row : forall (A : Type) sizes p (coefs : list A) n k,
  nth_error sizes p = Some n -> k < n -> length coefs = sumN sizes ->
  exists b r, patchBlock sizes p coefs = Ok b /\ mindex (mkM sizes []) k p = Ok r /\ nth_error b k = nth_error coefs r /\ r < length coefs.
Proof. exact @block_reads_own_row. Qed.
Print Assumptions C12_each_function_reads_its_own_row.

Example C12_nonvacuous : mapM (fun p => patchBlock [2; 0; 3] p [10; 11; 12; 13; 14]) (seq 0 3) = Ok [[10; 11]; []; [12; 13; 14]].
Proof. reflexivity. Qed.

(** C13: every history of exportPatch calls on an object without cached coefficients
    returns the coefficients of the stored geometry ... *)
Theorem C13_history_is_fresh : forall (A : Type) (g : list A) sizes, length g = sumN sizes -> forall calls c,
  (forall p b, In (p, b) calls -> p < length sizes) -> c = None \/ c = Some g ->
  forall out, run_calls (exportPatch (Ok g) sizes) calls c out ->
  Forall2 (fun call b => patchBlock sizes (fst call) g = Ok b) calls out.
Proof. exact @export_history. Qed.
Print Assumptions C13_history_is_fresh.
Theorem C13_history_runs : forall (A : Type) (g : list A) sizes, length g = sumN sizes -> forall calls c,
  (forall p b, In (p, b) calls -> p < length sizes) -> c = None \/ c = Some g ->
  exists out, run_calls (exportPatch (Ok g) sizes) calls c out.
Proof. exact @export_history_runs. Qed.
Print Assumptions C13_history_runs.

(** ... a call that asks for recomputation never looks at the cache ... *)
Theorem C13_recomputation_ignores_cache : forall (A : Type) fresh sizes p (c : cache A),
  exportPatch fresh sizes p true c = exportPatch fresh sizes p true None.
Proof. exact @export_true. Qed.
Print Assumptions C13_recomputation_ignores_cache.

(** ... exporting given patches yields the blocks of their coefficients, and leaves these in the cache ... *)
Theorem C13_export_to_patches : forall (A : Type) fresh sizes (g : list A) c, g <> [] -> length g = sumN sizes ->
  exists bl, exportToPatches fresh (Ok g) sizes c = Ok (bl, Some g) /\ concat bl = g /\ map (@length A) bl = sizes.
Proof. exact @export_all. Qed.
Print Assumptions C13_export_to_patches.

(** ... so that a later exportPatch(p,false) returns coefficients of those patches and not
    of the stored geometry. *)
Theorem C13_stale_cache_refuted : exists (sizes : list nat) (fresh g : list nat) bl c b c',
  length fresh = sumN sizes /\ length g = sumN sizes /\
  exportToPatches (Ok fresh) (Ok g) sizes None = Ok (bl, c) /\
  exportPatch (Ok fresh) sizes 0 false c = Ok (b, c') /\
  patchBlock sizes 0 fresh <> Ok b.
Proof. exact stale_cache. Qed.
Print Assumptions C13_stale_cache_refuted.

Example C13_nonvacuous : run_calls (exportPatch (Ok [10; 11; 12]) [1; 2]) [(1, false); (0, true); (0, false)] None [[11; 12]; [10]; [10]].
Proof. repeat (econstructor; [reflexivity|]). constructor. Qed.

(** C14: compute() of gsSmoothInterfaces may be called again: from any member state it
    gives the result of C01-C06, and a second call changes nothing. *)
Theorem C14_result_does_not_depend_on_state : forall t Bb c0 s R, compute (mkIn t Bb c0) = Ok R ->
  exists s1, compute_members t Bb (Ok c0) s = Ok s1 /\ mB s1 = Bb /\ mMap s1 = rMap R /\ mMat s1 = rMat R /\ mRows s1 = rRows R.
Proof. exact compute_members_result. Qed.
Print Assumptions C14_result_does_not_depend_on_state.
Theorem C14_second_call_changes_nothing : forall t Bb sharp s s1, compute_members t Bb sharp s = Ok s1 ->
  compute_members t Bb sharp s1 = Ok s1.
Proof. exact compute_members_twice. Qed.
Print Assumptions C14_second_call_changes_nothing.

(** The base class and gsDPatch append to their bases instead: after a second call the
    bases differ, for every non-empty multi-basis. *)
Theorem C14_bases_appended_refuted : forall v raise Bb s, v = BaseTHB \/ v = DPatch -> Bb <> [] ->
  mB (initBases v raise Bb (initBases v raise Bb s)) <> mB (initBases v raise Bb s).
Proof. exact appended_twice. Qed.
Print Assumptions C14_bases_appended_refuted.

Example C14_nonvacuous : exists s1, compute_members (itopo two_patches) (ibases two_patches) (Ok (iC0 two_patches)) new_members = Ok s1
  /\ mRows s1 = 28 /\ length (mB s1) = 2.
Proof. eexists. split; [vm_compute; reflexivity|]. split; reflexivity. Qed.

(** C43: exporting is a projection: a smooth multipatch (one whose control points come from
    coefficients of the smooth basis) is exported unchanged, and exporting any multipatch a
    second time changes nothing. *)
Theorem C43_smooth_patches_reproduced : forall I, well_formed I -> forall m R, computeMapper I = Ok m -> compute I = Ok R ->
  forall v P, ibases I <> [] -> length v = rRows R -> concat P = transposeTimes R v ->
  map (@length Q) P = map tsize (ibases I) -> forall fresh c, exists P' c',
    exportToPatches fresh (exported R P) (map tsize (ibases I)) c = Ok (P', c') /\ Forall2 same_values P' P.
Proof. exact export_reproduces. Qed.
Print Assumptions C43_smooth_patches_reproduced.

Theorem C43_export_is_projection : forall I, well_formed I -> forall m R, computeMapper I = Ok m -> compute I = Ok R ->
  forall P, ibases I <> [] -> map (@length Q) P = map tsize (ibases I) -> forall fresh c c2,
  exists P1 c1 P2 c2', exportToPatches fresh (exported R P) (map tsize (ibases I)) c = Ok (P1, c1) /\
    exportToPatches fresh (exported R P1) (map tsize (ibases I)) c2 = Ok (P2, c2') /\ Forall2 same_values P2 P1.
Proof. exact export_projects. Qed.
Print Assumptions C43_export_is_projection.

Example C43_nonvacuous : well_formed two_patches /\
  match compute two_patches with
  | Ok R => match exportToPatches Err (exported R [map (fun k => inject_Z (Z.of_nat k)) (seq 0 20); map (fun k => inject_Z (Z.of_nat (k * k))) (seq 0 16)]) [20; 16] None with
            | Ok (P1, _) => Qeq_bool (nth 4 (nth 0 P1 []) 0%Q) (nth 0 (nth 1 P1 []) 0%Q) = true /\ Qeq_bool (nth 4 (nth 0 P1 []) 0%Q) 2 = true
            | Err => False
            end
  | Err => False
  end.
Proof. split; [exact two_patches_wf | vm_compute; auto]. Qed.
