(** Model of the decision whether a vertex is internal: the end of the constructor src/gsApproxC1Vertex.h:338-353; kindOfVertex (src/gsC1SurfVertex.h:80-91) is in SelectModel.v.

    Simplifications: the interfaces of the auxiliary topology are an argument (gsMultiPatch::computeTopology belongs to the core); computeKernel (KernModel.v) and
    parametrizeBasisBack (ReparamModel.v) are arguments. *)
From Verif Require Import Common SelectModel.

(** src/gsApproxC1Vertex.h:342: the test for a vertex that is not internal *)
Definition notInternal (n : nat) (ifs : list iface) : bool := negb (n =? length ifs).
(** src/gsApproxC1Vertex.h:342-353; [back i] is parametrizeBasisBack of patch i *)
Definition finishVertex {A} (kernel : list A -> res (list A)) (back : nat -> A -> res A) (n : nat) (ifs : list iface) (fs : list A) : res (list A) :=
  do gs <- (if notInternal n ifs then kernel fs else Ok fs);
  mapM (fun i => do g <- vget gs i; back i g) (seq 0 n).
