(** Property theorems about gsContainerBasis: C28, C29, C30. *)
From Verif Require Import Common TopoModel BaseModel ContainerModel ContainerSpec ContainerProofs ContainerExamples.

(** C28: the container is the concatenation of its pieces.  Row block r of the evaluation (m k rows for values, first
    and second derivatives) belongs to the function whose number stands in row r of active_into; a function is active
    exactly if it is active in its piece. *)
Theorem C28_concatenation : forall {X S} (m : nat -> nat) (val : nat -> nat -> nat -> X -> list Q) (l : list (cpiece X S)),
  (forall p b, nth_error l p = Some b -> piece_ok m (val p) b) ->
  csize l = length (all_funs l) /\
  forall u,
    NoDup (cactive l u) /\
    (forall k, length (crows l k u) = m k * length (cactive l u)) /\
    (forall g p i b, nth_error (all_funs l) g = Some (p, i) -> nth_error l p = Some b -> (In g (cactive l u) <-> In i (cp_act b u))) /\
    (forall r g, nth_error (cactive l u) r = Some g ->
       exists p i, nth_error (all_funs l) g = Some (p, i) /\ forall k, firstn (m k) (skipn (m k * r) (crows l k u)) = val p k i u).
Proof. exact @container_align. Qed.
Print Assumptions C28_concatenation.

(** degree(dir) is the largest degree *)
Theorem C28_degree : forall {X S} (l : list (cpiece X S)) dir,
  let deg b := match dir with 0 => fst (cp_deg b) | _ => snd (cp_deg b) end in
  (forall b, In b l -> deg b <= cdegree l dir) /\ (cdegree l dir = 0 \/ exists b, In b l /\ deg b = cdegree l dir).
Proof. exact @container_degree. Qed.
Print Assumptions C28_degree.

(** C29: boundaryOffset(side,o) lists exactly the functions with distance o to the side in the piece of the side and in the
    pieces of its two corners, each once. *)
Theorem C29_boundary_functions : forall {X S} (l : list (cpiece X S)) s o, length l = 9 ->
  (forall p b, nth_error l p = Some b -> touches s p -> o < across (cp_tb b) s /\ 0 < fst (cp_tb b)) ->
  exists r, cboundaryOffset l s o = Ok r /\ NoDup r /\
    (forall g, In g r <-> exists p i b, nth_error (all_funs l) g = Some (p, i) /\ nth_error l p = Some b /\ touches s p /\ at_distance (cp_tb b) s o i).
Proof. exact @container_boundary. Qed.
Print Assumptions C29_boundary_functions.

Theorem C29_boundary_functions_one_piece : forall {X S} (b : cpiece X S) s o, o < across (cp_tb b) s -> 0 < fst (cp_tb b) ->
  exists r, cboundaryOffset [b] s o = Ok r /\ NoDup r /\ (forall g, In g r <-> at_distance (cp_tb b) s o g).
Proof. exact @container_boundary_one. Qed.
Print Assumptions C29_boundary_functions_one_piece.

(** C29: functionAtCorner(c) is the function at the corner in the piece of the corner. *)
Theorem C29_corner_function : forall {X S} (l : list (cpiece X S)) c b, length l = 9 -> nth_error l (corner_piece_of c) = Some b ->
  0 < fst (cp_tb b) -> 0 < snd (cp_tb b) ->
  exists g i, cfunctionAtCorner l c = Ok g /\ nth_error (all_funs l) g = Some (corner_piece_of c, i) /\ at_corner (cp_tb b) c i.
Proof. exact @container_corner. Qed.
Print Assumptions C29_corner_function.

Theorem C29_corner_function_one_piece : forall {X S} (b : cpiece X S) c, 0 < fst (cp_tb b) -> 0 < snd (cp_tb b) ->
  exists i, cfunctionAtCorner [b] c = Ok i /\ at_corner (cp_tb b) c i /\ i < csize [b].
Proof. exact @container_corner_one. Qed.
Print Assumptions C29_corner_function_one_piece.

(** C30: support(i) is right for the functions of the first piece and fails for all others ... *)
Theorem C30_support : forall {X S} (l : list (cpiece X S)) g p i b,
  nth_error (all_funs l) g = Some (p, i) -> nth_error l p = Some b ->
  (p = 0 -> csupport l g = Ok (cp_sup b i)) /\ (p <> 0 -> csupport l g = Err).
Proof. exact @container_support. Qed.
Print Assumptions C30_support.

(** ... so the property is false for containers of several pieces. *)
Theorem C30_support_refuted : exists (l : list (cpiece nat (nat * nat))) g p i,
  nth_error (all_funs l) g = Some (p, i) /\ csupport l g = Err.
Proof. exact (ex_intro _ ex_container (ex_intro _ 20 (ex_intro _ 1 (ex_intro _ 4 ex_support_wrong)))). Qed.
Print Assumptions C30_support_refuted.

Example C28_C29_C30_nonvacuous :
  length ex_container = 9 /\ (forall p b, nth_error ex_container p = Some b -> piece_ok ex_m (ex_val p) b) /\
  (forall p b, nth_error ex_container p = Some b -> touches South p -> 1 < across (cp_tb b) South /\ 0 < fst (cp_tb b)) /\
  csize ex_container = 67 /\ nth_error (cactive ex_container 2) 3 = Some 19 /\ nth_error (all_funs ex_container) 19 = Some (1, 3) /\
  nth_error (crows ex_container 0 2) 3 = Some (inject_Z 23) /\ cboundaryOffset ex_container South 1 = Ok [30; 31; 42; 43; 47; 48; 49] /\
  cfunctionAtCorner ex_container NE = Ok 66 /\ csupport ex_container 3 = Ok (3, 4).
Proof. exact ex_container_facts. Qed.
