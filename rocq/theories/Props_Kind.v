(** C88: internal vertices are recognised by counting interfaces. *)
From Verif Require Import Common SelectModel KindModel KindSpec KindProofs.

(** If the patches around a vertex have no interfaces with each other elsewhere, kindOfVertex says exactly whether all sides around it are joined. *)
Theorem C88_kind : forall vi ifs, topology_ok ifs -> only_around vi ifs -> length vi <> 1 ->
  (kindOfVertex (length vi) ifs = 0%Z <-> internal vi ifs) /\ (kindOfVertex (length vi) ifs = 1%Z <-> ~ internal vi ifs).
Proof. exact kind_pf. Qed.
Print Assumptions C88_kind.

(** A single patch counts as a boundary vertex; without interfaces it is one. *)
Theorem C88_single : forall c ifs, kindOfVertex (length [c]) ifs = (-1)%Z /\ (ifs = [] -> ~ internal [c] ifs).
Proof. exact single_pf. Qed.
Print Assumptions C88_single.

(** Under the same condition the approximate C1 construction combines the functions by computeKernel exactly at vertices that are not internal, and maps them back on every patch. *)
Theorem C88_finish : forall A (kernel : list A -> res (list A)) back vi ifs fs, topology_ok ifs -> only_around vi ifs ->
  (internal vi ifs -> finishVertex kernel back (length vi) ifs fs = mapM (fun i => do g <- vget fs i; back i g) (seq 0 (length vi))) /\
  (~ internal vi ifs -> finishVertex kernel back (length vi) ifs fs = bind (kernel fs) (fun gs => mapM (fun i => do g <- vget gs i; back i g) (seq 0 (length vi)))).
Proof. exact finish_pf. Qed.
Print Assumptions C88_finish.

(** Without the condition this fails: around a boundary vertex of an annulus of two patches there are two patches and two interfaces, so it counts as internal and computeKernel is left out. *)
Theorem C88_annulus_refuted : exists vi ifs, topology_ok ifs /\ ~ internal vi ifs /\ (length vi = 2)%nat /\ kindOfVertex (length vi) ifs = 0%Z /\
  forall A (kernel : list A -> res (list A)) back fs, finishVertex kernel back (length vi) ifs fs = mapM (fun i => do g <- vget fs i; back i g) (seq 0 (length vi)).
Proof. exact annulus_pf. Qed.
Print Assumptions C88_annulus_refuted.

(** It fails the other way as well: two patches joined along all four sides have internal vertices only, which count as boundary vertices. *)
Theorem C88_pillow_refuted : exists vi ifs, topology_ok ifs /\ internal vi ifs /\ kindOfVertex (length vi) ifs = 1%Z /\
  forall A (kernel : list A -> res (list A)) back fs, finishVertex kernel back (length vi) ifs fs = bind (kernel fs) (fun gs => mapM (fun i => do g <- vget gs i; back i g) (seq 0 (length vi))).
Proof. exact pillow_pf. Qed.
Print Assumptions C88_pillow_refuted.

(** Three patches around a vertex, with and without the last interface. *)
Theorem C88_nonvacuous : topology_ok star /\ only_around [1; 1; 1] star /\ internal [1; 1; 1] star /\ kindOfVertex 3 star = 0%Z /\
  topology_ok (firstn 2 star) /\ only_around [1; 1; 1] (firstn 2 star) /\ ~ internal [1; 1; 1] (firstn 2 star) /\ kindOfVertex 3 (firstn 2 star) = 1%Z.
Proof. exact star_ok. Qed.
Print Assumptions C88_nonvacuous.
