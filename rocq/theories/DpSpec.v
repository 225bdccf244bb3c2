(** What the property C66 says: the smoothing matrix of gsDPatch before the treatment of the extraordinary vertices. *)
From Verif Require Import Common TopoModel BaseModel IndexSpec TopoSpec SmoothSpec SmoothSpec2 RingModel RingSpec DpModel.

Definition basis_at (I : dinput) (p : nat) : rbasis :=
  nth p (ribases (dring I)) (mkRB 0 (fun _ _ => []) (fun _ => 0) (fun _ _ _ _ => 0)).

(** matchWith lists the functions of the two rows, as many on either side *)
Definition rows_match (I : dinput) : Prop :=
  forall f o, In f (tif (ritopo (dring I))) -> o < 2 ->
    exists l1 l2, dmatch I f o = Ok (l1, l2) /\ length l1 = length l2 /\
      Permutation l1 (roff (basis_at I (fst (if1 f))) (snd (if1 f)) o) /\
      Permutation l2 (roff (basis_at I (fst (if2 f))) (snd (if2 f)) o).

(** Column of function [k] of patch [p] *)
Definition dcolumn (I : dinput) (p k : nat) : nat := sumN (map rsize (firstn p (ribases (dring I)))) + k.

(** Control point of a local function when the global functions have the coefficients [coef] *)
Definition dcontrol (R : dresult) (coef : nat -> Q) (c : nat) : Q :=
  sumQ (map (fun r => (coef r * dentry R r c)%Q) (seq 0 (drRows R))).

(** those of the functions [l] that are not in the two outermost rows of the sides next to [s] *)
Definition central (b : rbasis) (s : side) (l : list nat) : list nat :=
  filter (fun x => negb (existsb (fun s' => negb (side_dir s' =? side_dir s) &&
                                            (existsb (Nat.eqb x) (roff b s' 0) || existsb (Nat.eqb x) (roff b s' 1)))
                                 [West; East; South; North])) l.

(** Corner [c] of side [s] and corner [c'] of side [s'] are identified by an interface. *)
Definition joined (t : topo) (c : pcorner) (s : side) (c' : pcorner) (s' : side) : Prop :=
  exists f u, In f (tif t) /\ snd c = corner_at s (xorb (ifflip f) u) /\ snd c' = corner_at s' u /\
    ((if1 f = (fst c, s) /\ if2 f = (fst c', s')) \/ (if2 f = (fst c, s) /\ if1 f = (fst c', s'))).

(** column of the function [k] steps from corner [c] along side [s], [o] rows away from it *)
Definition vcolumn (I : dinput) (c : pcorner) (s : side) (k o : nat) : nat :=
  dcolumn I (fst c) (rifv (basis_at I (fst c)) k (snd c) s o).

(** The function [k] of patch [p] has a row of its own: its column has a one there and zeros elsewhere. *)
Definition own_row (I : dinput) (R : dresult) (p k : nat) : Prop :=
  exists r, cindex (drMap R) k p = Ok r /\ r < drRows R /\
    forall r', r' < drRows R -> dentry R r' (dcolumn I p k) = if r' =? r then 1%Q else 0%Q.

(** the function next to both sides at corner [c] *)
Definition inner_column (I : dinput) (c : pcorner) : nat := vcolumn I c (cside (snd c) 0) 1 1.

(** inputs of the statements: bases with two regular outer rings, a topology in which every side is used once, and
    no boundary vertex with more than three patches *)
Record dp_input (I : dinput) : Prop := {
  dp_ring : ring_input (dring I);
  dp_rows : rows_match I;
  dp_supported : supported SchemeDPatch (ritopo (dring I))
}.
