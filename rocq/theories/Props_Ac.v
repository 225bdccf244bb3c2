(** Property C67: the smoothing matrix of gsAlmostC1 before the treatment of the special vertices. *)
From Verif Require Import Common TopoModel BaseModel IndexSpec TopoSpec SmoothSpec SmoothSpec2 SmoothExamples RingModel RingSpec DpModel DpSpec
  AcModel AcSpec AcProofs4 AcExamples.

(** The matrix is built, all checks pass, with one row per function of the mapper and one column per function of the patches. *)
Theorem C67_matrix : forall I, ac_input I -> exists R, acCompute I = Ok R /\ rMapper SchemeAlmostC1 (dring I) = Ok (drMap R) /\
  drRows R = cfreeSize (drMap R) /\ drCols R = sumN (map rsize (ribases (dring I))).
Proof. exact (fun I H => amatrix_thm I (ac_ring I H) (ac_rows I H) (ac_supported I H)). Qed.
Print Assumptions C67_matrix.

(** If an interior vertex has fewer than three patches, an error is raised. *)
Theorem C67_unsupported : forall I, ring_input (dring I) -> ~ supported SchemeAlmostC1 (ritopo (dring I)) -> acCompute I = Err.
Proof. exact aunsupported_thm. Qed.
Print Assumptions C67_unsupported.

(** Every column sums to one, all entries lie between zero and one. *)
Theorem C67_unity : forall I, ac_input I -> forall R c, acCompute I = Ok R -> c < drCols R ->
  (sumQ (map (fun r => dentry R r c) (seq 0 (drRows R))) == 1)%Q /\ forall r, (0 <= dentry R r c <= 1)%Q.
Proof. exact (fun I H => aunity_thm I (ac_ring I H) (ac_rows I H) (ac_supported I H)). Qed.
Print Assumptions C67_unity.

(** Every row either belongs to a function of its own or has no entries. *)
Theorem C67_rows : forall I, ac_input I -> forall R r, acCompute I = Ok R -> r < drRows R ->
  spare R r \/ exists p k, p < length (ribases (dring I)) /\ k < rsize (basis_at I p) /\ cindex (drMap R) k p = Ok r /\ own_row I R p k.
Proof. exact arows_thm. Qed.
Print Assumptions C67_rows.

(** The rows with entries are linearly independent. *)
Theorem C67_independent : forall I, ac_input I -> forall R coef, acCompute I = Ok R ->
  (forall c, c < drCols R -> (dcontrol R coef c == 0)%Q) -> forall r, r < drRows R -> (coef r == 0)%Q \/ spare R r.
Proof. exact (fun I H => aindependent_thm I (ac_ring I H) (ac_rows I H) (ac_supported I H)). Qed.
Print Assumptions C67_independent.

(** Along an interface, away from its ends, the two control points on the interface are both the midpoint of their neighbours. *)
Theorem C67_interface : forall I, ac_input I -> forall R f l1 l2 l1' l2' i x1 x2 y1 y2,
  acCompute I = Ok R -> In f (tif (ritopo (dring I))) ->
  dmatch I f 0 = Ok (l1, l2) -> dmatch I f 1 = Ok (l1', l2') ->
  nth_error (central (basis_at I (fst (if1 f))) (snd (if1 f)) l1) i = Some x1 ->
  nth_error (central (basis_at I (fst (if2 f))) (snd (if2 f)) l2) i = Some x2 ->
  nth_error (central (basis_at I (fst (if1 f))) (snd (if1 f)) l1') i = Some y1 ->
  nth_error (central (basis_at I (fst (if2 f))) (snd (if2 f)) l2') i = Some y2 ->
  forall coef,
    (dcontrol R coef (dcolumn I (fst (if1 f)) x1) ==
       (1 # 2) * (dcontrol R coef (dcolumn I (fst (if1 f)) y1) + dcontrol R coef (dcolumn I (fst (if2 f)) y2)))%Q /\
    (dcontrol R coef (dcolumn I (fst (if2 f)) x2) ==
       (1 # 2) * (dcontrol R coef (dcolumn I (fst (if1 f)) y1) + dcontrol R coef (dcolumn I (fst (if2 f)) y2)))%Q /\
    own_row I R (fst (if1 f)) y1 /\ own_row I R (fst (if2 f)) y2.
Proof. exact (fun I H => ainterface_thm I (ac_ring I H) (ac_rows I H) (ac_supported I H)). Qed.
Print Assumptions C67_interface.

(** The same holds one step away from every vertex. *)
Theorem C67_corner : forall I, ac_input I -> forall R c s c' s' coef, acCompute I = Ok R -> joined (ritopo (dring I)) c s c' s' ->
  (dcontrol R coef (vcolumn I c s 1 0) == (1 # 2) * (dcontrol R coef (vcolumn I c s 1 1) + dcontrol R coef (vcolumn I c' s' 1 1)))%Q.
Proof. exact (fun I H => acorner_thm I (ac_ring I H) (ac_rows I H) (ac_supported I H)). Qed.
Print Assumptions C67_corner.

(** At an interior vertex all corner control points are the mean of the control points next to them. *)
Theorem C67_inner : forall I, ac_input I -> forall R c s v l coef,
  acCompute I = Ok R -> fst c < length (ribases (dring I)) -> touches (snd c) s ->
  interior_vertex (ritopo (dring I)) c -> has_valence (ritopo (dring I)) c v ->
  NoDup l -> (forall b, In b l <-> same_vertex (ritopo (dring I)) c b) ->
  (dcontrol R coef (vcolumn I c s 0 0) == (1 # Pos.of_nat v) * sumQ (map (fun b => dcontrol R coef (inner_column I b)) l))%Q.
Proof. exact (fun I H => ainner_thm I (ac_ring I H) (ac_rows I H) (ac_supported I H)). Qed.
Print Assumptions C67_inner.

(** At a smooth boundary vertex with two patches the corner control points are the midpoint of their neighbours on the boundary. *)
Theorem C67_boundary2 : forall I, ac_input I -> forall R c s c' s' coef,
  acCompute I = Ok R -> joined (ritopo (dring I)) c s c' s' -> ~ interior_vertex (ritopo (dring I)) c -> has_valence (ritopo (dring I)) c 2 ->
  is_smooth I c ->
  (dcontrol R coef (vcolumn I c s 0 0) == (1 # 2) * (dcontrol R coef (vcolumn I c s 0 1) + dcontrol R coef (vcolumn I c' s' 0 1)))%Q.
Proof. exact (fun I H => aflat_thm I (ac_ring I H) (ac_rows I H) (ac_supported I H)). Qed.
Print Assumptions C67_boundary2.

(** At a smooth boundary vertex with more patches as well: the two neighbours lie on the two boundary sides of the first and the last patch. *)
Theorem C67_boundary3 : forall I, ac_input I -> forall R c s v b1 s1 b2 s2 coef,
  acCompute I = Ok R -> fst c < length (ribases (dring I)) -> touches (snd c) s ->
  ~ interior_vertex (ritopo (dring I)) c -> has_valence (ritopo (dring I)) c v -> 2 < v -> is_smooth I c ->
  same_vertex (ritopo (dring I)) c b1 -> boundary_edge I b1 s1 -> same_vertex (ritopo (dring I)) c b2 -> boundary_edge I b2 s2 ->
  (b1, s1) <> (b2, s2) ->
  (dcontrol R coef (vcolumn I c s 0 0) == (1 # 2) * (dcontrol R coef (vcolumn I b1 s1 1 0) + dcontrol R coef (vcolumn I b2 s2 1 0)))%Q.
Proof. exact (fun I H => ahalf_thm I (ac_ring I H) (ac_rows I H) (ac_supported I H)). Qed.
Print Assumptions C67_boundary3.

(** At a sharp boundary vertex all corner functions keep rows of their own. *)
Theorem C67_sharp : forall I, ac_input I -> forall R c s, acCompute I = Ok R -> fst c < length (ribases (dring I)) -> touches (snd c) s ->
  ~ interior_vertex (ritopo (dring I)) c -> is_sharp I c -> own_row I R (fst c) (rifv (basis_at I (fst c)) 0 (snd c) s 0).
Proof. exact (fun I H => asharp_thm I (ac_ring I H) (ac_rows I H) (ac_supported I H)). Qed.
Print Assumptions C67_sharp.

(** The functions on the boundary one step from a vertex keep rows of their own. *)
Theorem C67_edge : forall I, ac_input I -> forall R c s, acCompute I = Ok R -> boundary_edge I c s ->
  own_row I R (fst c) (rifv (basis_at I (fst c)) 1 (snd c) s 0).
Proof. exact (fun I H => aedge_thm I (ac_ring I H) (ac_rows I H) (ac_supported I H)). Qed.
Print Assumptions C67_edge.

(** Functions off the boundary of their patch, those on boundary sides away from the corners and those at corners of one patch keep rows of
    their own. *)
Theorem C67_interior : forall I, ac_input I -> forall R p k, acCompute I = Ok R -> p < length (ribases (dring I)) -> k < rsize (basis_at I p) ->
  (forall s, ~ In k (roff (basis_at I p) s 0)) -> own_row I R p k.
Proof. exact (fun I H => ainterior_thm I (ac_ring I H) (ac_rows I H) (ac_supported I H)). Qed.
Print Assumptions C67_interior.

Theorem C67_boundary : forall I, ac_input I -> forall R p s k, acCompute I = Ok R -> In (p, s) (tbd (ritopo (dring I))) ->
  In k (central (basis_at I p) s (roff (basis_at I p) s 0)) -> own_row I R p k.
Proof. exact (fun I H => aboundary_thm I (ac_ring I H) (ac_rows I H) (ac_supported I H)). Qed.
Print Assumptions C67_boundary.

Theorem C67_corner1 : forall I, ac_input I -> forall R c s k o, acCompute I = Ok R -> fst c < length (ribases (dring I)) -> touches (snd c) s ->
  ~ interior_vertex (ritopo (dring I)) c -> has_valence (ritopo (dring I)) c 1 -> k < 2 -> o < 2 ->
  own_row I R (fst c) (rifv (basis_at I (fst c)) k (snd c) s o).
Proof. exact (fun I H => acorner1_thm I (ac_ring I H) (ac_rows I H) (ac_supported I H)). Qed.
Print Assumptions C67_corner1.

(** All well-formed multipatches of tensor-product bases are such inputs. *)
Theorem C67_tensor : forall I, well_formed I -> supported SchemeAlmostC1 (itopo I) -> ac_input (dtensor I).
Proof. exact atensor_pf. Qed.
Print Assumptions C67_tensor.

(** Three patches around a smooth boundary vertex, around an interior vertex, and four around a sharp boundary vertex. *)
Theorem C67_nonvacuous :
  (well_formed fan /\ supported SchemeAlmostC1 (itopo fan) /\ asize_of fan = (59, 75) /\ aspare_of fan = [0; 21; 38] /\
   acol_of fan 0 = [(1, (1 # 2)%Q); (39, (1 # 2)%Q)] /\ acol_of fan 1 = [(1, 1%Q)] /\
   acol_of fan 5 = [(5, (1 # 2)%Q); (22, (1 # 2)%Q)] /\ acol_of fan 12 = [(10, 1%Q)]) /\
  (well_formed three_patches /\ supported SchemeAlmostC1 (itopo three_patches) /\ asize_of three_patches = (51, 75) /\
   aspare_of three_patches = [0; 17; 34] /\
   acol_of three_patches 0 = [(1, (1 # 3)%Q); (18, (1 # 3)%Q); (35, (1 # 3)%Q)] /\
   acol_of three_patches 1 = [(1, (1 # 2)%Q); (35, (1 # 2)%Q)]) /\
  (well_formed fan4_sharp /\ supported SchemeAlmostC1 (itopo fan4_sharp) /\ asize_of fan4_sharp = (76, 100) /\ aspare_of fan4_sharp = [] /\
   acol_of fan4_sharp 0 = [(0, 1%Q)] /\ acol_of fan4_sharp 5 = [(5, (1 # 2)%Q); (22, (1 # 2)%Q)]).
Proof. exact ac_nonvacuous_pf. Qed.
Print Assumptions C67_nonvacuous.
