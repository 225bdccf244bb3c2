(** What an object of a composite basis is meant to be (C85). *)
From Verif Require Import Common ObjModel.
Open Scope Z_scope.

(** the mapper is the one of the present bases, distances, smoothness and weights *)
Definition up_to_date {Top Bas Ver Dis Map Wts : Type} (makeMapper : Top -> list Bas -> Dis -> Z -> Wts -> res Map) (o : mobj Top Bas Ver Dis Map Wts) : Prop := exists m, omap o = Some m /\ makeMapper (otop o) (obas o) (odis o) (oinc o) (owts o) = Ok m.
