(** C85: constructors, copies, assignment and degree elevation of composite bases. *)
From Verif Require Import Common ObjModel ObjSpec ObjProofs ObjExamples.
Open Scope Z_scope.

(** Every constructor sets smoothness and distance by the rule, computes vertices and distances with them, and ends with the mapper of the repaired bases; those that use the check only end with suitable bases. *)
Theorem C85_constructors : forall (Top Bas Ver Dis Map Wts : Type) (noWts : Wts) maxDegree initVertices setDistances repairPatches check makeMapper,
  forall strict t bs lev ev o, construct Top Bas Ver Dis Map Wts noWts maxDegree initVertices setDistances repairPatches check makeMapper strict t bs lev ev = Ok o ->
  up_to_date makeMapper o /\ otop o = t /\ owts o = noWts /\ over o = initVertices t bs /\ odis o = setDistances t bs (over o) (oinc o) (omin o) /\ (strict = true -> check t (obas o) = true) /\
  oinc o = (if lev =? -1 then maxDegree bs - 1 else lev) /\
  (0 <= Z.max (Z.min (oinc o + 1) (maxDegree bs)) ev < 2 ^ 32 -> omin o = Z.max (Z.min (oinc o + 1) (maxDegree bs)) ev) /\
  (lev = -1 -> ev <= maxDegree bs -> 0 <= maxDegree bs < 2 ^ 32 -> omin o = maxDegree bs).
Proof. exact @construct_pf. Qed.
Print Assumptions C85_constructors.

(** The constructor from one basis is the same with the default smoothness. *)
Theorem C85_one : forall (Top Bas Ver Dis Map Wts : Type) (noWts : Wts) maxDegree initVertices setDistances repairPatches check makeMapper,
  forall t b ev, ev <= maxDegree [b] -> constructOne Top Bas Ver Dis Map Wts noWts maxDegree initVertices setDistances repairPatches makeMapper t b =
  construct Top Bas Ver Dis Map Wts noWts maxDegree initVertices setDistances repairPatches check makeMapper false t [b] (-1) ev.
Proof. exact @one_pf. Qed.
Print Assumptions C85_one.

(** The constructors of the hierarchical basis from a multipatch, multibasis or one basis ignore the check: unsuitable bases are accepted. *)
Theorem C85_unchecked_refuted : exists o, wConstruct false tt [2; 3] (-1) (-1) = Ok o /\ wCheck tt (obas o) = false /\ wConstruct true tt [2; 3] (-1) (-1) = Err.
Proof. exact unchecked_refuted_pf. Qed.
Print Assumptions C85_unchecked_refuted.

(** A smoothness below -1 is not refused and gives an enormous distance. *)
Theorem C85_unsigned_refuted : exists o, wConstruct true tt [2; 2] (-3) (-1) = Ok o /\ omin o = 2 ^ 32 - 1.
Proof. exact unsigned_refuted_pf. Qed.
Print Assumptions C85_unsigned_refuted.

(** A copy has the same contents and mapper, but no weights; it fails when there is no mapper or the check fails. *)
Theorem C85_copy : forall (Top Bas Ver Dis Map Wts : Type) (noWts : Wts) check makeMapper,
  forall strict (o : mobj Top Bas Ver Dis Map Wts),
  (forall o', copyObj Top Bas Ver Dis Map Wts noWts check strict o = Ok o' -> omap o' = omap o /\ otop o' = otop o /\ obas o' = obas o /\ over o' = over o /\ odis o' = odis o /\ omin o' = omin o /\ oinc o' = oinc o /\ owts o' = noWts) /\
  ((exists o', copyObj Top Bas Ver Dis Map Wts noWts check strict o = Ok o') <-> omap o <> None /\ (strict = true -> check (otop o) (obas o) = true)) /\
  (up_to_date makeMapper o -> owts o = noWts -> (strict = true -> check (otop o) (obas o) = true) -> copyObj Top Bas Ver Dis Map Wts noWts check strict o = Ok o).
Proof. exact @copy_pf. Qed.
Print Assumptions C85_copy.

(** With weights, the mapper of the copy is not the one of its own data: the next update changes the functions. *)
Theorem C85_copy_refuted : exists o o' : wObj, up_to_date wMapper o /\ wCopy true o = Ok o' /\ omap o' = omap o /\ ~ up_to_date wMapper o'.
Proof. exact copy_weights_refuted_pf. Qed.
Print Assumptions C85_copy_refuted.

(** Assignment copies everything but weights and mapper; without mapper the object cannot be used or copied until it is updated, and then it is the other object when the weights agree. *)
Theorem C85_assignment : forall (Top Bas Ver Dis Map Wts : Type) (noWts : Wts) check makeMapper,
  forall (mem : list (mobj Top Bas Ver Dis Map Wts)) i j this other, i <> j -> nth_error mem i = Some this -> nth_error mem j = Some other ->
  exists mem' o, assignObj Top Bas Ver Dis Map Wts mem i j = Ok mem' /\ length mem' = length mem /\ (forall k, k <> i -> nth_error mem' k = nth_error mem k) /\ nth_error mem' i = Some o /\
    otop o = otop other /\ obas o = obas other /\ over o = over other /\ odis o = odis other /\ omin o = omin other /\ oinc o = oinc other /\ owts o = owts this /\
    useMap Top Bas Ver Dis Map Wts o = Err /\ (forall strict, copyObj Top Bas Ver Dis Map Wts noWts check strict o = Err) /\
    (up_to_date makeMapper other -> owts this = owts other -> setMapping Top Bas Ver Dis Map Wts makeMapper o = Ok other).
Proof. exact @assign_pf. Qed.
Print Assumptions C85_assignment.

(** An object assigned to itself loses its bases. *)
Theorem C85_self_assignment : forall (Top Bas Ver Dis Map Wts : Type) ,
  forall (mem : list (mobj Top Bas Ver Dis Map Wts)) i this, nth_error mem i = Some this -> exists mem' o, assignObj Top Bas Ver Dis Map Wts mem i i = Ok mem' /\ nth_error mem' i = Some o /\ obas o = [] /\ useMap Top Bas Ver Dis Map Wts o = Err.
Proof. exact @self_pf. Qed.
Print Assumptions C85_self_assignment.

(** Degree elevation changes the bases and, if asked, the mapper; smoothness, distance, vertices and distances stay. *)
Theorem C85_elevate : forall (Top Bas Ver Dis Map Wts : Type) makeMapper,
  forall elev updateBasis (o o' : mobj Top Bas Ver Dis Map Wts), elevate Top Bas Ver Dis Map Wts makeMapper elev updateBasis o = Ok o' ->
  obas o' = map elev (obas o) /\ otop o' = otop o /\ over o' = over o /\ odis o' = odis o /\ omin o' = omin o /\ oinc o' = oinc o /\ owts o' = owts o /\ (if updateBasis then up_to_date makeMapper o' else omap o' = omap o).
Proof. exact @elevate_pf. Qed.
Print Assumptions C85_elevate.

(** So the elevated object is not the one constructed from the elevated bases. *)
Theorem C85_elevate_refuted : exists o o', wConstruct true tt [2; 2] (-1) (-1) = Ok o /\ wElevate (Z.add 1) true o = Ok o' /\ wCheck tt (obas o') = true /\
  forall o2, wConstruct true tt (obas o') (-1) (-1) = Ok o2 -> oinc o' <> oinc o2 /\ omin o' <> omin o2 /\ omap o' <> omap o2.
Proof. exact elevate_refuted_pf. Qed.
Print Assumptions C85_elevate_refuted.

(** An example of all this with two objects. *)
Theorem C85_nonvacuous : exists a b mem, wConstruct true tt [3; 3] (-1) (-1) = Ok a /\ omin a = 3 /\ oinc a = 2 /\ wConstruct true tt [2; 2] 0 1 = Ok b /\ omin b = 1 /\ wCopy true a = Ok a /\
  assignObj unit Z unit Z (list Z) Z [a; b] 0 1 = Ok mem /\ (exists o, nth_error mem 0 = Some o /\ obas o = [2; 2] /\ setMapping unit Z unit Z (list Z) Z wMapper o = Ok b).
Proof. exact obj_ok. Qed.
Print Assumptions C85_nonvacuous.
