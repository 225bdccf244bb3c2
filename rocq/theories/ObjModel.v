(** Model of the life of a composite basis: constructors, copy, assignment and degree elevation.
    src/gsMPBESBSplineBasis.hpp:22-141, src/gsMPBESHSplineBasis.hpp:20-179, src/gsMPBESBasis.h:101-106, src/gsMPBESBasis.hpp:179-195.

    Simplifications: topology, bases, vertices, distances and mappers are values of types given as arguments; what _initVertices, _setDistanceOfAllVertices,
    repairPatches, _checkTopologyWithBases and makeMapper compute are functions given as arguments (modelled in VertexModel.v, MrefModel.v, RepairModel.v,
    MapAllModel.v and HbMapModel.v); memory is a list of objects, so that an object may be assigned to itself. *)
From Verif Require Import Common.
Open Scope Z_scope.

Section Objects.
Variables Top Bas Ver Dis Map Wts : Type.
(** no weights set for the sides *)
Variable noWts : Wts.
(** maxDegree() *)
Variable maxDegree : list Bas -> Z.
Variable initVertices : Top -> list Bas -> Ver.
Variable setDistances : Top -> list Bas -> Ver -> Z -> Z -> Dis.

Record mobj := mkO { otop : Top; obas : list Bas; over : Ver; odis : Dis; omin : Z; oinc : Z; owts : Wts; omap : option Map }.
(** repairPatches, may fail or not end; changes the bases only *)
Variable repairPatches : mobj -> res (list Bas).
Variable check : Top -> list Bas -> bool.
Variable makeMapper : Top -> list Bas -> Dis -> Z -> Wts -> res Map.

(** static_cast<unsigned> *)
Definition unsigned (x : Z) : Z := x mod 2 ^ 32.
Definition withBases (o : mobj) (b : list Bas) : mobj := mkO (otop o) b (over o) (odis o) (omin o) (oinc o) (owts o) (omap o).
(** src/gsMPBESBSplineBasis.hpp:130-139, src/gsMPBESHSplineBasis.hpp:169-177: _setMapping; also updateTopol, src/gsMPBESBasis.h:101-106 *)
Definition setMapping (o : mobj) : res mobj :=
  do m <- makeMapper (otop o) (obas o) (odis o) (oinc o) (owts o);
  Ok (mkO (otop o) (obas o) (over o) (odis o) (omin o) (oinc o) (owts o) (Some m)).
(** src/gsMPBESBSplineBasis.hpp:22-87 and src/gsMPBESHSplineBasis.hpp:20-62 ([strict]: the result of the check is used), src/gsMPBESHSplineBasis.hpp:80-129 (not
    strict) *)
Definition construct (strict : bool) (t : Top) (bs : list Bas) (increaseSmoothnessLevel minEVDistance : Z) : res mobj :=
  let inc := if increaseSmoothnessLevel =? -1 then maxDegree bs - 1 else increaseSmoothnessLevel in
  let mn := unsigned (Z.max (Z.min (inc + 1) (maxDegree bs)) minEVDistance) in
  let v := initVertices t bs in
  let o := mkO t bs v (setDistances t bs v inc mn) mn inc noWts None in
  do bs' <- repairPatches o;
  do _ <- (if strict then ensure (check t bs') else Ok tt);
  setMapping (withBases o bs').
(** src/gsMPBESHSplineBasis.hpp:64-78: from one basis *)
Definition constructOne (t : Top) (b : Bas) : res mobj :=
  let inc := maxDegree [b] - 1 in
  let mn := unsigned (Z.min (inc + 1) (maxDegree [b])) in
  let v := initVertices t [b] in
  let o := mkO t [b] v (setDistances t [b] v inc mn) mn inc noWts None in
  do bs' <- repairPatches o;
  setMapping (withBases o bs').
(** src/gsMPBESBSplineBasis.hpp:89-110 (strict), src/gsMPBESHSplineBasis.hpp:131-148: copy, without the weights; a missing mapper is dereferenced *)
Definition copyObj (strict : bool) (o : mobj) : res mobj :=
  do _ <- (if strict then ensure (check (otop o) (obas o)) else Ok tt);
  match omap o with
  | Some m => Ok (mkO (otop o) (obas o) (over o) (odis o) (omin o) (oinc o) noWts (Some m))
  | None => Err
  end.
(** src/gsMPBESBSplineBasis.hpp:112-128, src/gsMPBESHSplineBasis.hpp:150-167: objects number i and j of the memory; the bases of i are freed before those of j are read, the weights of i stay *)
Definition assignObj (mem : list mobj) (i j : nat) : res (list mobj) :=
  do other <- vget mem j;
  do this <- vget mem i;
  do mem <- vset mem i (mkO (otop other) [] (over other) (odis other) (omin other) (oinc this) (owts this) (omap this));
  do other <- vget mem j;
  do this <- vget mem i;
  do mem <- vset mem i (mkO (otop this) (obas other) (over this) (odis this) (omin this) (oinc this) (owts this) None);
  do other <- vget mem j;
  do this <- vget mem i;
  vset mem i (mkO (otop this) (obas this) (over this) (odis this) (omin this) (oinc other) (owts this) (omap this)).
(** the functions that use the mapper, for instance size(): dereference it *)
Definition useMap (o : mobj) : res Map := match omap o with Some m => Ok m | None => Err end.
(** src/gsMPBESBasis.hpp:179-195: degreeElevate and degreeIncrease, [elev] raises the degree of one basis *)
Definition elevate (elev : Bas -> Bas) (updateBasis : bool) (o : mobj) : res mobj :=
  let o := withBases o (map elev (obas o)) in
  if updateBasis then setMapping o else Ok o.
End Objects.
Arguments mkO {Top Bas Ver Dis Map Wts}. Arguments otop {Top Bas Ver Dis Map Wts}. Arguments obas {Top Bas Ver Dis Map Wts}. Arguments over {Top Bas Ver Dis Map Wts}. Arguments odis {Top Bas Ver Dis Map Wts}.
Arguments omin {Top Bas Ver Dis Map Wts}. Arguments oinc {Top Bas Ver Dis Map Wts}. Arguments owts {Top Bas Ver Dis Map Wts}. Arguments omap {Top Bas Ver Dis Map Wts}.
