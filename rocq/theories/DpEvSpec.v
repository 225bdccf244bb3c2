(** What the property C73 says: the final matrix of gsDPatch. *)
From Coq Require Import Reals Qreals.
From Verif Require Import Common TopoModel BaseModel IndexSpec TopoSpec RingModel RingSpec DpModel DpSpec PiModel PiSpec EvModel EvSpec DpEvModel.
Open Scope nat_scope.

(** The function at distances [a] and [b] in the two directions from corner [c], at least one of them at most 1 *)
Definition function_at (B : rbasis) (c : corner) (a b : nat) : nat :=
  if b <=? 1 then rifv B a c (cside c 1) b else rifv B b c (cside c 0) a.

(** _indexFromVert gives the same function from both sides, and functions near different corners are different. *)
Record separated (B : rbasis) : Prop := {
  sp_range : forall k c s o, on_side c s = true -> k <= 3 -> o <= 1 -> rifv B k c s o < rsize B;
  sp_swap : forall c k o, k <= 1 -> o <= 1 -> rifv B k c (cside c 0) o = rifv B o c (cside c 1) k;
  sp_inj : forall c c' a b a' b', near a b -> near a' b' -> function_at B c a b = function_at B c' a' b' -> c = c' /\ a = a' /\ b = b' }.

(** Column of the function at distances [a], [b] from a corner *)
Definition column_of (bases : list rbasis) (c : pcorner) (a b : nat) : nat :=
  sumN (map rsize (firstn (fst c) bases)) + function_at (nth (fst c) bases (mkRB 0 (fun _ _ => []) (fun _ => 0) (fun _ _ _ _ => 0))) (snd c) a b.

(** Along every interface the third and the fourth function from either end are matched with each other, in the row on
    the interface and in the row next to it. *)
Definition ends_matched (I : dinput) : Prop :=
  forall f u k, In f (tif (ritopo (dring I))) -> k = 2 \/ k = 3 ->
    let b1 := basis_at I (fst (if1 f)) in let s1 := snd (if1 f) in let c1 := corner_at s1 (xorb (ifflip f) u) in
    let b2 := basis_at I (fst (if2 f)) in let s2 := snd (if2 f) in let c2 := corner_at s2 u in
    exists i, forall o, o < 2 -> exists l1 l2, dmatch I f o = Ok (l1, l2) /\
      nth_error (central b1 s1 l1) i = Some (rifv b1 k c1 s1 o) /\ nth_error (central b2 s2 l2) i = Some (rifv b2 k c2 s2 o).

(** [rw]: row of the function at distances [a], [b] from a corner *)
Definition rows_of (I : dinput) (D : dresult) (evs : list (list pcorner)) (rw : pcorner -> nat -> nat -> nat) : Prop :=
  forall c a b, In c (concat evs) -> (a = 1 /\ b = 1) \/ (a = 1 /\ b = 2) \/ (a = 2 /\ b = 1) ->
    cindex (drMap D) (function_at (basis_at I (fst c)) (snd c) a b) (fst c) = Ok (rw c a b).
