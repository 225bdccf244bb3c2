(** Property C66: the smoothing matrix of gsDPatch before the treatment of the extraordinary vertices. *)
From Verif Require Import Common TopoModel BaseModel IndexSpec TopoSpec SmoothSpec SmoothSpec2 SmoothExamples RingModel RingSpec DpModel DpSpec
  DpProofs4 DpExamples.

(** The matrix is built, all checks pass, with one row per function of the mapper and one column per function of the patches. *)
Theorem C66_matrix : forall I, dp_input I -> exists R, dCompute I = Ok R /\ rMapper SchemeDPatch (dring I) = Ok (drMap R) /\
  drRows R = cfreeSize (drMap R) /\ drCols R = sumN (map rsize (ribases (dring I))).
Proof. exact (fun I H => matrix_thm I (dp_ring I H) (dp_rows I H) (dp_supported I H)). Qed.
Print Assumptions C66_matrix.

(** If a boundary vertex has more than three patches, an error is raised. *)
Theorem C66_unsupported : forall I, ring_input (dring I) -> ~ supported SchemeDPatch (ritopo (dring I)) -> dCompute I = Err.
Proof. exact unsupported_thm. Qed.
Print Assumptions C66_unsupported.

(** Every column sums to one, all entries lie between zero and one. *)
Theorem C66_unity : forall I, dp_input I -> forall R c, dCompute I = Ok R -> c < drCols R ->
  (sumQ (map (fun r => dentry R r c) (seq 0 (drRows R))) == 1)%Q /\ forall r, (0 <= dentry R r c <= 1)%Q.
Proof. exact (fun I H => unity_thm I (dp_ring I H) (dp_rows I H) (dp_supported I H)). Qed.
Print Assumptions C66_unity.

(** The rows are linearly independent. *)
Theorem C66_independent : forall I, dp_input I -> forall R coef, dCompute I = Ok R ->
  (forall c, c < drCols R -> (dcontrol R coef c == 0)%Q) -> forall r, r < drRows R -> (coef r == 0)%Q.
Proof. exact (fun I H => independent_thm I (dp_ring I H) (dp_rows I H) (dp_supported I H)). Qed.
Print Assumptions C66_independent.

(** Along an interface, away from its ends, the two control points on the interface are both the midpoint of their neighbours. *)
Theorem C66_interface : forall I, dp_input I -> forall R f l1 l2 l1' l2' i x1 x2 y1 y2,
  dCompute I = Ok R -> In f (tif (ritopo (dring I))) ->
  dmatch I f 0 = Ok (l1, l2) -> dmatch I f 1 = Ok (l1', l2') ->
  nth_error (central (basis_at I (fst (if1 f))) (snd (if1 f)) l1) i = Some x1 ->
  nth_error (central (basis_at I (fst (if2 f))) (snd (if2 f)) l2) i = Some x2 ->
  nth_error (central (basis_at I (fst (if1 f))) (snd (if1 f)) l1') i = Some y1 ->
  nth_error (central (basis_at I (fst (if2 f))) (snd (if2 f)) l2') i = Some y2 ->
  forall coef,
    (dcontrol R coef (dcolumn I (fst (if1 f)) x1) ==
       (1 # 2) * (dcontrol R coef (dcolumn I (fst (if1 f)) y1) + dcontrol R coef (dcolumn I (fst (if2 f)) y2)))%Q /\
    (dcontrol R coef (dcolumn I (fst (if2 f)) x2) ==
       (1 # 2) * (dcontrol R coef (dcolumn I (fst (if1 f)) y1) + dcontrol R coef (dcolumn I (fst (if2 f)) y2)))%Q /\
    own_row I R (fst (if1 f)) y1 /\ own_row I R (fst (if2 f)) y2.
Proof. exact (fun I H => interface_thm I (dp_ring I H) (dp_rows I H) (dp_supported I H)). Qed.
Print Assumptions C66_interface.

(** The same holds one step away from every vertex. *)
Theorem C66_corner : forall I, dp_input I -> forall R c s c' s' coef, dCompute I = Ok R -> joined (ritopo (dring I)) c s c' s' ->
  (dcontrol R coef (vcolumn I c s 1 0) == (1 # 2) * (dcontrol R coef (vcolumn I c s 1 1) + dcontrol R coef (vcolumn I c' s' 1 1)))%Q.
Proof. exact (fun I H => corner_thm I (dp_ring I H) (dp_rows I H) (dp_supported I H)). Qed.
Print Assumptions C66_corner.

(** At an interior vertex all corner control points are the mean of the control points next to them. *)
Theorem C66_inner : forall I, dp_input I -> forall R c s v l coef,
  dCompute I = Ok R -> fst c < length (ribases (dring I)) -> touches (snd c) s ->
  interior_vertex (ritopo (dring I)) c -> has_valence (ritopo (dring I)) c v ->
  NoDup l -> (forall b, In b l <-> same_vertex (ritopo (dring I)) c b) ->
  (dcontrol R coef (vcolumn I c s 0 0) == (1 # Pos.of_nat v) * sumQ (map (fun b => dcontrol R coef (inner_column I b)) l))%Q.
Proof. exact (fun I H => inner_thm I (dp_ring I H) (dp_rows I H) (dp_supported I H)). Qed.
Print Assumptions C66_inner.

(** At a boundary vertex with two patches: the corner control point is the midpoint of its neighbours on the boundary if the vertex is
    smooth, and keeps a row of its own if it is sharp. *)
Theorem C66_boundary2 : forall I, dp_input I -> forall R c s c' s',
  dCompute I = Ok R -> joined (ritopo (dring I)) c s c' s' -> ~ interior_vertex (ritopo (dring I)) c -> has_valence (ritopo (dring I)) c 2 ->
  (nth_error (riC0 (dring I)) (vertIndex c) = Some false -> forall coef,
    (dcontrol R coef (vcolumn I c s 0 0) == (1 # 2) * (dcontrol R coef (vcolumn I c s 0 1) + dcontrol R coef (vcolumn I c' s' 0 1)))%Q) /\
  (nth_error (riC0 (dring I)) (vertIndex c) = Some true -> own_row I R (fst c) (rifv (basis_at I (fst c)) 0 (snd c) s 0)) /\
  own_row I R (fst c) (rifv (basis_at I (fst c)) 0 (snd c) s 1).
Proof. exact (fun I H => boundary2_thm I (dp_ring I H) (dp_rows I H) (dp_supported I H)). Qed.
Print Assumptions C66_boundary2.

(** At a boundary vertex with three patches, smooth or sharp, one more row joins: the corner control points are the mean of it and the
    three control points next to the vertex, those on the boundary the midpoint of it and their neighbour. *)
Theorem C66_boundary3 : forall I, dp_input I -> forall R c l,
  dCompute I = Ok R -> fst c < length (ribases (dring I)) -> ~ interior_vertex (ritopo (dring I)) c -> has_valence (ritopo (dring I)) c 3 ->
  NoDup l -> (forall b, In b l <-> same_vertex (ritopo (dring I)) c b) ->
  exists e, e < drRows R /\ forall coef b s, In b l -> touches (snd b) s ->
    (dcontrol R coef (vcolumn I b s 0 0) == (1 # 4) * (coef e + sumQ (map (fun b' => dcontrol R coef (inner_column I b')) l)))%Q /\
    (In (fst b, s) (tbd (ritopo (dring I))) ->
       (dcontrol R coef (vcolumn I b s 1 0) == (1 # 2) * (dcontrol R coef (inner_column I b) + coef e))%Q).
Proof. exact (fun I H => boundary3_thm I (dp_ring I H) (dp_rows I H) (dp_supported I H)). Qed.
Print Assumptions C66_boundary3.

(** Functions off the boundary of their patch, those on boundary sides away from the corners and those at corners of one patch keep rows of
    their own. *)
Theorem C66_interior : forall I, dp_input I -> forall R p k, dCompute I = Ok R -> p < length (ribases (dring I)) -> k < rsize (basis_at I p) ->
  (forall s, ~ In k (roff (basis_at I p) s 0)) -> own_row I R p k.
Proof. exact (fun I H => interior_thm I (dp_ring I H) (dp_rows I H) (dp_supported I H)). Qed.
Print Assumptions C66_interior.

Theorem C66_boundary : forall I, dp_input I -> forall R p s k, dCompute I = Ok R -> In (p, s) (tbd (ritopo (dring I))) ->
  In k (central (basis_at I p) s (roff (basis_at I p) s 0)) -> own_row I R p k.
Proof. exact (fun I H => boundary_thm I (dp_ring I H) (dp_rows I H) (dp_supported I H)). Qed.
Print Assumptions C66_boundary.

Theorem C66_corner1 : forall I, dp_input I -> forall R c s k o, dCompute I = Ok R -> fst c < length (ribases (dring I)) -> touches (snd c) s ->
  ~ interior_vertex (ritopo (dring I)) c -> has_valence (ritopo (dring I)) c 1 -> k < 2 -> o < 2 ->
  own_row I R (fst c) (rifv (basis_at I (fst c)) k (snd c) s o).
Proof. exact (fun I H => corner1_thm I (dp_ring I H) (dp_rows I H) (dp_supported I H)). Qed.
Print Assumptions C66_corner1.

(** All well-formed multipatches of tensor-product bases are such inputs. *)
Theorem C66_tensor : forall I, well_formed I -> supported SchemeDPatch (itopo I) -> dp_input (dtensor I).
Proof. exact tensor_pf. Qed.
Print Assumptions C66_tensor.

(** Three patches around a boundary vertex and around an interior vertex. *)
Theorem C66_nonvacuous :
  (well_formed fan /\ supported SchemeDPatch (itopo fan) /\ dsize_of fan = (55, 75) /\
   dcol_of fan 0 = [(3, (1 # 4)%Q); (19, (1 # 4)%Q); (35, (1 # 4)%Q); (54, (1 # 4)%Q)] /\
   dcol_of fan 1 = [(3, (1 # 2)%Q); (54, (1 # 2)%Q)] /\
   dcol_of fan 10 = [(7, (1 # 2)%Q); (20, (1 # 2)%Q)] /\ dcol_of fan 12 = [(8, 1%Q)]) /\
  (well_formed three_patches /\ supported SchemeDPatch (itopo three_patches) /\ dsize_of three_patches = (48, 75) /\
   dcol_of three_patches 0 = [(0, (1 # 3)%Q); (16, (1 # 3)%Q); (32, (1 # 3)%Q)] /\
   dcol_of three_patches 1 = [(0, (1 # 2)%Q); (32, (1 # 2)%Q)]).
Proof. exact dp_nonvacuous_pf. Qed.
Print Assumptions C66_nonvacuous.
