(** What the choice of a composite basis is meant to do (C89). *)
From Verif Require Import Common UtilModel.

Section Bases.
Variables B : Type.
Variable kindOf : B -> bkind.
Definition all_of (k : bkind) (mp : list B) : Prop := forall b, In b mp -> kindOf b = k.
Definition how_many_not (k : bkind) (mp : list B) : nat := length (filter (fun b => negb (kind_eqb (kindOf b) k)) mp).
(** addresses are used once *)
Definition heap_ok (h : heap B) : Prop := NoDup (map fst (live B h)) /\ forall x, In x (live B h) -> fst x < next B h.
End Bases.
