(** Local refinement around extraordinary vertices:
    src/gsDPatch.hpp:186-268 and src/gsAlmostC1.hpp:427-501, 559-589. *)
From Verif Require Import Common TopoModel BaseModel.

(** A direction of a patch: degree and number of elements of the level-0 knot vector
    (KV.degree(), KV.numElements(); KV.uSize() is one more). *)
Record kdir := mkK { kdeg : nat; knel : nat }.
Record rfinput := mkRF { rftopo : topo; rfdirs : list (kdir * kdir) }.

(** number of refined elements: gsDPatch.hpp:225-226 and gsAlmostC1.hpp:461; only gsDPatch asserts
    that so many elements exist (line 228) *)
Record rfscheme := mkRS { rfnel : nat -> nat; rfassert : bool }.
Definition dpatchRef (RefLevel : nat) : rfscheme :=
  mkRS (fun degree => (if degree <? 4 then 2 else 1) * 2 ^ RefLevel) true.
Definition almostRef : rfscheme := mkRS (fun _ => 1) false.

(** gsDPatch.hpp:230-231: one row of the box; [par] is the corner's parameter in that direction *)
Definition boxRow (par : bool) (uSize nelements : Z) : Z * Z :=
  let base := ((if par then 1 else 0) * (uSize - 1))%Z in
  let step := ((1 - 2 * (if par then 1 else 0)) * nelements)%Z in
  if par then (base + step, base)%Z else (base, base + step)%Z.

(** gsDPatch.hpp:238-248: the other corner in direction dim *)
Definition otherCorner (c : corner) (dim : nat) : corner :=
  match c, dim with
  | SW, 0 => SE | NE, 1 => SE
  | SW, 1 => NW | NE, 0 => NW
  | SE, 0 => SW | NW, 1 => SW
  | _, _ => NE
  end.

Definition rfstate := (list (list pcorner) * list bool * list (list Z))%type.

Definition kdim (d : kdir * kdir) (dim : nat) : kdir := match dim with 0 => fst d | _ => snd d end.
Definition cparam (c : corner) (dim : nat) : bool := match dim with 0 => cpar0 c | _ => cpar1 c end.

(** gsDPatch.hpp:221-256, one direction: the row of the box and the corner lists to append *)
Definition refDim (S : rfscheme) (I : rfinput) (c : pcorner) (d : kdir * kdir) (dim : nat)
  : res ((Z * Z) * list (list pcorner)) :=
  let K := kdim d dim in
  let n := rfnel S (kdeg K) in
  do _ <- ensure (negb (rfassert S) || (n <=? knel K));
  let row := boxRow (cparam (snd c) dim) (Z.of_nat (knel K) + 1) (Z.of_nat n) in
  if knel K =? n then
    do l <- cornerList (rftopo I) (fst c, otherCorner (snd c) dim); Ok (row, [l])
  else Ok (row, []).

(** gsDPatch.hpp:210-265, one corner: skipped when its mask is set; boxes are stored as level,
    lower corner, upper corner (column-major data of the d x 2 matrix) *)
Definition refCorner (S : rfscheme) (I : rfinput) (st : rfstate) (c : pcorner) : res rfstate :=
  let '(lists, mask, boxes) := st in
  do m <- vget mask (vertIndex c);
  if m then Ok st
  else
    do d <- vget (rfdirs I) (fst c);
    do r0 <- refDim S I c d 0;
    do r1 <- refDim S I c d 1;
    let box := [0; fst (fst r0); fst (fst r1); snd (fst r0); snd (fst r1)]%Z in
    do old <- vget boxes (fst c);
    do boxes' <- vset boxes (fst c) (old ++ box);
    do mask' <- vset mask (vertIndex c) true;
    Ok (lists ++ snd r0 ++ snd r1, mask', boxes').

(** gsDPatch.hpp:206-267: the loop over the growing list of corner lists *)
Fixpoint refLoop (fuel : nat) (S : rfscheme) (I : rfinput) (v : nat) (st : rfstate) : res rfstate :=
  match nth_error (fst (fst st)) v with
  | None => Ok st
  | Some l =>
      match fuel with
      | O => Err
      | Datatypes.S f => do st' <- foldM (refCorner S I) l st; refLoop f S I (Datatypes.S v) st'
      end
  end.

Definition refBoxes (fuel : nat) (S : rfscheme) (I : rfinput) (cornerLists : list (list pcorner)) : res (list (list Z)) :=
  let np := length (rfdirs I) in
  do st <- refLoop fuel S I 0 (cornerLists, repeat false (4 * np), repeat [] np);
  Ok (snd st).

(** gsAlmostC1.hpp:559-589, _getSpecialCornerLists *)
Definition getSpecialCornerLists (t : topo) (C0s : list bool) : res (list (list pcorner)) :=
  foldM (fun acc pc =>
    do C0 <- vget C0s (vertIndex pc);
    do l <- cornerList t pc;
    let isCycle := vertex_inner t l in
    let alreadyReached := existsb (fun k => fst k <? fst pc) l in
    let special := (isCycle && negb (length l =? 4)) || (negb isCycle && (2 - (if C0 then 1 else 0) <? length l)) in
    if special && negb alreadyReached then Ok (acc ++ [l]) else Ok acc)
  (all_corners (tnp t)) [].
