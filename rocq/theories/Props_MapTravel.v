(** Property theorems about the map of the basis with enhanced smoothness (gsMPBESMapTensor): C48, C49, C50. *)
From Verif Require Import Common TopoModel MapModel MapSpec MapExamples MapTravelSpec MapActions MapLines MapTravelExamples.
From Coq Require Import Permutation.
Open Scope Z_scope.

(** C48: every function of a patch is treated once and as it should be. *)
Theorem C48_actions : forall c, natural c -> pdu c = pdv c ->
  NoDup (map fst (patchActions c)) /\
  (pOne c = false -> forall x, in_patch c x -> In x (map fst (patchActions c))) /\
  (forall x a, In (x, a) (patchActions c) -> in_patch c x /\ a = expected c x).
Proof. exact actions_pf. Qed.
Print Assumptions C48_actions.

Example C48_example : natural ex_conf.
Proof. exact ex_conf_natural. Qed.

(** With different degrees in the two directions the numbers of functions across the two interfaces at a regular vertex are
    interchanged. *)
Theorem C48_actions_refuted : exists c x a, natural c /\ In (x, a) (patchActions c) /\ a <> expected c x.
Proof. exact swapped_refutes. Qed.
Print Assumptions C48_actions_refuted.

(** C49: a line of n+1 functions across an interface consists of the functions up to distance d on this side and up to
    distance n-1-d on the other side, with the same position along the interface; starting from the other side gives the
    same line in reverse order; it is added from the patch with the smaller number only. *)
Theorem C49_lines : forall bs t, (forall b, In b bs -> 0 <= mb_size b) -> forall p b s s2 p' b' s' s2' d e n,
  glued bs t p b s s2 p' b' s' s2' -> glued bs t p' b' s' s2' p b s s2 ->
  0 <= d < n -> 0 <= e < asz b s -> n <= nsz b s -> n <= nsz b' s' ->
  exists ls, blockLocals bs t (fun_at bs p b s d s2 e) [s] [n] = Ok ls /\
    blockLocals bs t (fun_at bs p' b' s' (n - 1 - d) s2' e) [s'] [n] = Ok (rev ls) /\
    (forall l, In l ls <-> (exists k, 0 <= k <= d /\ l = fun_at bs p b s k s2 e) \/
                          (exists k, 0 <= k <= n - 1 - d /\ l = fun_at bs p' b' s' k s2' e)) /\
    length ls = Z.to_nat (n + 1) /\
    (p <> p' -> NoDup ls) /\
    (p <> p' -> addBlock bs t (fun_at bs p b s d s2 e) [s] [n] = Ok (if (p <? p')%nat then Some ls else None)).
Proof. exact lines_pf. Qed.
Print Assumptions C49_lines.

(** For a patch joined to itself (in a basis of several patches) the line is added from both sides. *)
Theorem C49_self_interface_refuted : exists ls, addBlock g2 ts 0 [West] [2] = Ok (Some ls) /\ addBlock g2 ts 2 [East] [2] = Ok (Some (rev ls)).
Proof. exact self_refutes. Qed.
Print Assumptions C49_self_interface_refuted.

(** C50: the block around a regular interior vertex consists of the functions of the four patches within the
    complementary distances; it is added exactly from the patch with the smallest number; ... *)
Theorem C50_block : forall bs t, (forall b, In b bs -> 0 <= mb_size b) -> forall F F1 F2 F3 n1 n2 x y, square bs t F F1 F2 F3 ->
  room n1 n2 F -> room n1 n2 F1 -> room n1 n2 F2 -> room n1 n2 F3 -> 0 <= x < n1 -> 0 <= y < n2 ->
  let start := fun_at bs (fp F) (fb F) (fs1 F) x (fs2 F) y in
  exists ls, blockLocals bs t start [fs1 F; fs2 F] [n1; n2] = Ok ls /\
    (forall l, In l ls <-> in_block bs F F1 F2 F3 n1 n2 x y l) /\
    length ls = (Z.to_nat (n1 + 1) * Z.to_nat (n2 + 1))%nat /\
    (distinct4 F F1 F2 F3 -> NoDup ls) /\
    addBlock bs t start [fs1 F; fs2 F] [n1; n2] =
      Ok (if (fp F <=? fp F1)%nat && (fp F <=? fp F2)%nat && (fp F <=? fp F3)%nat then Some ls else None).
Proof. exact block_pf. Qed.
Print Assumptions C50_block.

(** ... it is the same set of functions from the neighbours (hence, applied twice, from the diagonal patch) and with the
    sides in the other order. *)
Theorem C50_same_block : forall bs t, (forall b, In b bs -> 0 <= mb_size b) -> forall F F1 F2 F3 n1 n2 x y, square bs t F F1 F2 F3 -> distinct4 F F1 F2 F3 ->
  room n1 n2 F -> room n1 n2 F1 -> room n1 n2 F2 -> room n1 n2 F3 -> 0 <= x < n1 -> 0 <= y < n2 ->
  exists ls ls1 ls2 ls3,
    blockLocals bs t (fun_at bs (fp F) (fb F) (fs1 F) x (fs2 F) y) [fs1 F; fs2 F] [n1; n2] = Ok ls /\
    blockLocals bs t (fun_at bs (fp F1) (fb F1) (fs1 F1) (n1 - 1 - x) (fs2 F1) y) [fs1 F1; fs2 F1] [n1; n2] = Ok ls1 /\
    blockLocals bs t (fun_at bs (fp F2) (fb F2) (fs1 F2) x (fs2 F2) (n2 - 1 - y)) [fs1 F2; fs2 F2] [n1; n2] = Ok ls2 /\
    blockLocals bs t (fun_at bs (fp F) (fb F) (fs1 F) x (fs2 F) y) [fs2 F; fs1 F] [n2; n1] = Ok ls3 /\
    Permutation ls1 ls /\ Permutation ls2 ls /\ Permutation ls3 ls.
Proof. exact block_flip1_pf. Qed.
Print Assumptions C50_same_block.

Example C50_example : square g4 t4 F0 F1 F2 F3 /\ addBlock g4 t4 15 [North; East] [2; 2] = Ok (Some [15; 35; 39; 28; 48; 52; 29; 49; 53]).
Proof. exact (conj t4_square (proj1 square_ex)). Qed.

(** When opposite sides are joined in reverse orientation, the block misses the diagonal patch. *)
Theorem C50_mirrored_refuted : cornerList tm (0%nat, NE) = Ok [(0, NE); (1, NW); (2, SW); (3, SW)]%nat /\
  exists ls ls', blockLocals g4 tm 15 [North; East] [2; 2] = Ok ls /\ blockLocals g4 tm 48 [South; West] [2; 2] = Ok ls' /\
    In 48 ls' /\ In 15 ls' /\ (forall l, In l ls -> getPatch g4 l <> 3%nat) /\
    addBlock g4 tm 15 [North; East] [2; 2] = Ok (Some ls).
Proof. exact mirrored_refutes. Qed.
Print Assumptions C50_mirrored_refuted.
