(** Model of the refinement in _makeTHB and _initBasis: src/gsDPatch.hpp:270-330, src/gsAlmostC1.hpp:519-549, and of _initTHB: src/gsDPatchBase.hpp:829-843,
    src/gsAlmostC1.hpp:405-422.

    Simplifications: real arithmetic is exact; a basis is a value of a type given as argument and refineElements_withTransfer (core; refineElements followed by
    transfer in gsAlmostC1) a function on it; the getXmatrix before it is not needed; a sparse matrix is its size and the list of its entries. *)
From Coq Require Import Reals.
From Verif Require Import Common.
Open Scope nat_scope.

(** src/gsDPatch.hpp:279-281 (add 1, factor 2), 304-306 (2, 4), src/gsAlmostC1.hpp:527-529 (1, 2): the boxes as the columns of a matrix with 2 d + 1 = 5 rows,
    entries beyond the last whole column are left alone *)
Definition scaleBoxes (add fac : Z) (v : list Z) : list Z :=
  map (fun iz : nat * Z => let (i, z) := iz in if i <? 5 * (length v / 5) then (if i mod 5 =? 0 then (z + add)%Z else (z * fac)%Z) else z) (combine (seq 0 (length v)) v).

Record spm := mkSpm { sprows : nat; spcols : nat; sptrip : list (nat * nat * R) }.
(** coeff(r, c) after setFromTriplets: entries at the same place are added *)
Definition spcoeff (l : list (nat * nat * R)) (r c : nat) : R :=
  fold_right (fun t s => if (fst (fst t) =? r) && (snd (fst t) =? c) then (snd t + s)%R else s) 0%R l.
(** setFromTriplets after resize; an entry outside is an error (assertion in the core) *)
Definition fromTriplets (nr nc : nat) (l : list (nat * nat * R)) : res spm :=
  do _ <- ensure (forallb (fun t => (fst (fst t) <? nr) && (snd (fst t) <? nc)) l); Ok (mkSpm nr nc l).

Section Refine.
Variable B : Type.
(** refineElements_withTransfer(boxes, tmp) *)
Variable refineT : B -> list Z -> res (B * spm).

(** src/gsDPatch.hpp:301-317, src/gsAlmostC1.hpp:524-543: one patch; the state is the refined bases, rows, cols and the triplets *)
Definition thbStep (add fac : Z) (boxes : list (list Z)) (st : list B * nat * nat * list (nat * nat * R)) (pb : nat * B) : res (list B * nat * nat * list (nat * nat * R)) :=
  let '(done, rows, cols, trip) := st in
  do el <- vget boxes (fst pb);
  do r <- refineT (snd pb) (scaleBoxes add fac el);
  let tmp := snd r in
  Ok (done ++ [fst r], rows + sprows tmp, cols + spcols tmp, trip ++ map (fun t => (fst (fst t) + rows, snd (fst t) + cols, snd t)) (sptrip tmp)).
(** src/gsDPatch.hpp:292-324 (2, 4), src/gsAlmostC1.hpp:521-549 (1, 2) *)
Definition makeTHB (add fac : Z) (bases : list B) (boxes : list (list Z)) : res (list B * spm) :=
  do st <- foldM (thbStep add fac boxes) (combine (seq 0 (length bases)) bases) ([], 0, 0, []);
  let '(done, rows, cols, trip) := st in
  do m <- fromTriplets rows cols trip;
  Ok (done, m).
(** src/gsDPatch.hpp:270-289, _initBasis: refined bases and one matrix for each *)
Definition initBasis (bases : list B) (boxes : list (list Z)) : res (list (B * spm)) :=
  mapM (fun pb : nat * B => do el <- vget boxes (fst pb); refineT (snd pb) (scaleBoxes 1 2 el)) (combine (seq 0 (length bases)) bases).
End Refine.

(** the kinds of bases that dynamic_cast tells apart *)
Inductive bkind := KTensor | KThb | KOther.
(** src/gsDPatchBase.hpp:829-843, _initTHB: a basis of another kind is not added, only a warning is written; [f] makes a THB basis *)
Definition initTHB {A} (f : A -> A) (bs : list (bkind * A)) : list A :=
  fold_left (fun acc b => match fst b with KTensor => acc ++ [f (snd b)] | KThb => acc ++ [snd b] | KOther => acc end) bs [].
(** src/gsAlmostC1.hpp:405-422, _initTHB: a patch of another kind stays as it is *)
Definition initTHBac {A} (f : A -> A) (bs : list (bkind * A)) : list A :=
  map (fun b => match fst b with KTensor => f (snd b) | KThb => snd b | KOther => snd b end) bs.
