(** C89: the choice of a composite basis for the bases of the patches. *)
From Verif Require Import Common UtilModel UtilSpec UtilProofs.

(** If all bases are tensor products, the composite tensor product basis is made of all of them, in order, and every copy made on the way is freed. *)
Theorem C89_tensor : forall (B X : Type) (kindOf : B -> bkind) (newB newH : list B -> res X) debug mp h, heap_ok B h -> all_of B kindOf Tensor mp ->
  getCompBasis B X kindOf newB newH debug mp h = bind (newB mp) (fun x => Ok (Some x, mkHeap B (live B h) (next B h + length mp))).
Proof. exact tensor_pf. Qed.
Print Assumptions C89_tensor.

(** If all bases are hierarchical, the composite hierarchical basis is made of all of them, in order, and one copy of each patch's basis is never freed. *)
Theorem C89_hierarchical : forall (B X : Type) (kindOf : B -> bkind) (newB newH : list B -> res X) debug mp h, heap_ok B h -> all_of B kindOf Hierarchical mp -> mp <> [] -> exists l, length l = length mp /\
  getCompBasis B X kindOf newB newH debug mp h = bind (newH mp) (fun x => Ok (Some x, mkHeap B (live B h ++ l) (next B h + length mp + length mp))).
Proof. exact hier_pf. Qed.
Print Assumptions C89_hierarchical.

(** Otherwise an active assertion fails; without it the result is the null pointer, and the copies of the wrong kind are never freed. *)
Theorem C89_mixed : forall (B X : Type) (kindOf : B -> bkind) (newB newH : list B -> res X) mp h, heap_ok B h -> ~ all_of B kindOf Tensor mp -> ~ all_of B kindOf Hierarchical mp ->
  getCompBasis B X kindOf newB newH true mp h = Err /\
  exists l, length l = how_many_not B kindOf Tensor mp + how_many_not B kindOf Hierarchical mp /\ getCompBasis B X kindOf newB newH false mp h = Ok (None, mkHeap B (live B h ++ l) (next B h + length mp + length mp)).
Proof. exact mixed_pf. Qed.
Print Assumptions C89_mixed.

(** That every copy is freed whenever a composite basis is returned is false: two hierarchical patches leave two objects. *)
Theorem C89_leak_refuted : exists (mp : list nat) kindOf h', getCompBasis nat (list nat) kindOf (fun l => Ok l) (fun l => Ok l) true mp (mkHeap nat [] 0) = Ok (Some mp, h') /\ length (live nat h') = 2.
Proof. exact leak_pf. Qed.
Print Assumptions C89_leak_refuted.

(** Three tensor product bases, and a tensor product basis beside a hierarchical one. *)
Theorem C89_nonvacuous : heap_ok nat (mkHeap nat [(2, 5)] 3) /\
  getCompBasis nat (list nat) (fun _ => Tensor) (fun l => Ok l) (fun _ => Err) true [7; 8; 9] (mkHeap nat [(2, 5)] 3) = Ok (Some [7; 8; 9], mkHeap nat [(2, 5)] 6) /\
  getCompBasis nat (list nat) (fun b => if b =? 7 then Tensor else Hierarchical) (fun l => Ok l) (fun l => Ok l) true [7; 8] (mkHeap nat [(2, 5)] 3) = Err /\
  getCompBasis nat (list nat) (fun b => if b =? 7 then Tensor else Hierarchical) (fun l => Ok l) (fun l => Ok l) false [7; 8] (mkHeap nat [(2, 5)] 3) = Ok (None, mkHeap nat [(2, 5); (4, 8); (5, 7)] 7).
Proof. exact util_ok. Qed.
Print Assumptions C89_nonvacuous.
