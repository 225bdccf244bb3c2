(** Property C37: the control mesh of gsMPBESBasis. *)
From Verif Require Import Common TopoModel MapModel MapSpec ConnModel ConnSpec ConnProofs.
Open Scope Z_scope.

(** isConnected decides whether two functions of the basis are joined. *)
Theorem C37_joined : forall bs, (forall b, In b bs -> 0 < mb_u b /\ 0 < mb_v b) ->
  forall li lj, locals_ok bs li -> locals_ok bs lj -> exists r, isConnected bs li lj = Ok r /\ (r = true <-> joined bs li lj).
Proof. exact connected_pf. Qed.
Print Assumptions C37_joined.

(** Two functions that are not combined are joined exactly when they are neighbours in the grid of one patch. *)
Theorem C37_single : forall bs, (forall b, In b bs -> 0 < mb_u b /\ 0 < mb_v b) ->
  forall a b, 0 <= a < before bs (length bs) -> 0 <= b < before bs (length bs) ->
  exists r, isConnected bs [a] [b] = Ok r /\ (r = true <-> neighbours bs a b).
Proof. exact single_pf. Qed.
Print Assumptions C37_single.

Theorem C37_symmetric : forall bs, (forall b, In b bs -> 0 < mb_u b /\ 0 < mb_v b) ->
  forall li lj, locals_ok bs li -> locals_ok bs lj -> isConnected bs li lj = isConnected bs lj li.
Proof. exact symmetric_pf. Qed.
Print Assumptions C37_symmetric.

Theorem C37_irreflexive : forall bs, (forall b, In b bs -> 0 < mb_u b /\ 0 < mb_v b) ->
  forall l, locals_ok bs l -> isConnected bs l l = Ok false.
Proof. exact irreflexive_pf. Qed.
Print Assumptions C37_irreflexive.

(** The mesh has one edge for every pair of joined functions. *)
Theorem C37_edges : forall bs, (forall b, In b bs -> 0 < mb_u b /\ 0 < mb_v b) ->
  forall locals, (forall l, In l locals -> locals_ok bs l) ->
  exists E, connectivity bs locals = Ok E /\ NoDup E /\
    forall i j, In (i, j) E <-> (i < j)%nat /\ exists a b, nth_error locals i = Some a /\ nth_error locals j = Some b /\ joined bs a b.
Proof. exact edges_pf. Qed.
Print Assumptions C37_edges.

(** Two patches with 3 x 2 functions, glued along East-West. *)
Example C37_nonvacuous : let bs := [mkMB 3 2 2 1; mkMB 3 2 2 1] in
  connectivity bs [[0]; [1]; [2; 6]; [3]; [4]; [5; 9]; [7]; [8]; [10]; [11]] =
    Ok [(0, 1); (0, 3); (1, 2); (1, 4); (2, 5); (2, 6); (3, 4); (4, 5); (5, 8); (6, 7); (6, 8); (7, 9); (8, 9)]%nat /\
  (forall l, In l [[0]; [2; 6]; [5; 9]] -> locals_ok bs l).
Proof.
  split; [vm_compute; reflexivity|]. intros l H. repeat (destruct H as [<-|H]; [split; [discriminate|]; split; [repeat constructor; lia|]; intros x Hx; cbn in Hx |- *; lia|]). destruct H.
Qed.
