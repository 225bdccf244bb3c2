(** Repairing the patches of a hierarchical basis: src/gsMPBESHSplineBasis.hpp:330-563.

    gsHTensorBasis (external) is seen as follows.  A patch has degrees, a number of elements in both directions at level 0, twice as many at each
    further level, and simple inner knots; the boxes inserted so far raise the level of the region they cover.  A function of a level is active if
    the smallest level on its support is that level (gsHTensorBasis::update_structure with gsHDomain::query3).
    Simplifications: the boxes of the tree (getBoxesInLevelIndex) are divided into elements, which leads to the same
    refined region; coefficients are left out; an interface is a side of each of two patches and an orientation. *)
From Verif Require Import Common TopoModel.

(** level and the elements of that level between (bu0,bv0) and (bu1,bv1) *)
Record hbox := mkBox { bl : nat; bu0 : nat; bv0 : nat; bu1 : nat; bv1 : nat }.
Record hbasis := mkHB { hpu : nat; hpv : nat; hnu : nat; hnv : nat; hboxes : list hbox }.

(** number of elements and of functions at level [l], gsKnotVector::uSize()-1 and gsTensorBSplineBasis::size(dir) *)
Definition elems (n l : nat) : nat := n * 2 ^ l.
Definition funs (p n l : nat) : nat := elems n l + p.
(** gsKnotVector::supportIndex_into, for [e] elements with simple inner knots *)
Definition supp (p e i : nat) : nat * nat := (i - p, Nat.min e (i + 1)).

(** gsHTensorBasis::maxLevel *)
Definition maxLevel (h : hbasis) : nat := fold_right Nat.max 0 (map bl (hboxes h)).
(** box [b] covers element (i,j) of level [M], not below the level of the box *)
Definition covers (M : nat) (b : hbox) (i j : nat) : bool :=
  let k := 2 ^ (M - bl b) in (bu0 b * k <=? i) && (i <? bu1 b * k) && (bv0 b * k <=? j) && (j <? bv1 b * k).
Definition levelAt (h : hbasis) (M i j : nat) : nat :=
  fold_right Nat.max 0 (map (fun b => if covers M b i j then bl b else 0) (hboxes h)).
(** elements of level [M] in the box *)
Definition cellsOf (M : nat) (b : hbox) : list (nat * nat) :=
  let k := 2 ^ (M - bl b) in
  flat_map (fun j => map (fun i => (i, j)) (seq (bu0 b * k) ((bu1 b - bu0 b) * k))) (seq (bv0 b * k) ((bv1 b - bv0 b) * k)).
(** gsHDomain::query3: at least level [l] everywhere in the box *)
Definition atLeast (h : hbasis) (l : nat) (b : hbox) : bool :=
  let M := Nat.max (bl b) (maxLevel h) in forallb (fun c => l <=? levelAt h M (fst c) (snd c)) (cellsOf M b).

(** support of the function (a,c) of level [l] *)
Definition suppBox (h : hbasis) (l a c : nat) : hbox :=
  let su := supp (hpu h) (elems (hnu h) l) a in let sv := supp (hpv h) (elems (hnv h) l) c in
  mkBox l (fst su) (fst sv) (snd su) (snd sv).
Definition active (h : hbasis) (l a c : nat) : bool :=
  atLeast h l (suppBox h l a c) && negb (atLeast h (S l) (suppBox h l a c)).

(** function [k] of level [l] on side [s] *)
Definition sideFun (h : hbasis) (l : nat) (s : side) (k : nat) : nat * nat :=
  match s with
  | West => (0, k) | East => (funs (hpu h) (hnu h) l - 1, k)
  | South => (k, 0) | North => (k, funs (hpv h) (hnv h) l - 1)
  end.
Definition sideSize (h : hbasis) (l : nat) (s : side) : nat :=
  match side_dir s with 0 => funs (hpv h) (hnv h) l | _ => funs (hpu h) (hnu h) l end.
(** gsHTensorBasis::activeBoundaryFunctionsOfLevel *)
Definition activeBoundary (h : hbasis) (l : nat) (s : side) : list bool :=
  map (fun k => active h l (fst (sideFun h l s k)) (snd (sideFun h l s k))) (seq 0 (sideSize h l s)).

(** gsHTensorBasis::refineElements *)
Definition refineElements (h : hbasis) (bs : list hbox) : hbasis := mkHB (hpu h) (hpv h) (hnu h) (hnv h) (hboxes h ++ bs).

(** the distances at 380-381 and 494-495 *)
Definition hdist (p incr : nat) : nat := 2 * Nat.min p (incr + 1).

(** 543-563, _addBox *)
Definition addBox (h : hbasis) (b : hbox) (bs : list hbox) : list hbox :=
  if (bu0 b <? bu1 b) && (bv0 b <? bv1 b) && negb (atLeast h (bl b) b) then bs ++ [b] else bs.

(** 372-419, _innerBoxesAreSuitable for one element (i,j) of level [l]; uMax-dist_u below 0 becomes a large unsigned number, so that _addBox adds nothing *)
Definition innerBox (h : hbasis) (incr : nat) (t : topo) (p : nat) (l : nat) (c : nat * nat) (bs : list hbox) : list hbox :=
  let i := fst c in let j := snd c in
  let du := hdist (hpu h) incr in let dv := hdist (hpv h) incr in
  let uM := elems (hnu h) l in let vM := elems (hnv h) l in
  let bs := if isInterface t (p, West) && (i =? 0) && (i + 1 <? du) then addBox h (mkBox l i j du (j + 1)) bs else bs in
  let bs := if isInterface t (p, East) && (i + 1 =? uM) && (uM <? i + du) && (du <=? uM) then addBox h (mkBox l (uM - du) j (i + 1) (j + 1)) bs else bs in
  let bs := if isInterface t (p, South) && (j =? 0) && (j + 1 <? dv) then addBox h (mkBox l i j (i + 1) dv) bs else bs in
  if isInterface t (p, North) && (j + 1 =? vM) && (vM <? j + dv) && (dv <=? vM) then addBox h (mkBox l i (vM - dv) (i + 1) (j + 1)) bs else bs.
(** elements of level [l] that are not refined further *)
Definition leaves (h : hbasis) (l : nat) : list (nat * nat) :=
  let M := maxLevel h in
  filter (fun c => forallb (fun x => levelAt h M (fst x) (snd x) =? l) (cellsOf M (mkBox l (fst c) (snd c) (fst c + 1) (snd c + 1))))
    (cellsOf l (mkBox l 0 0 (elems (hnu h) l) (elems (hnv h) l))).
Definition innerBoxes (h : hbasis) (incr : nat) (t : topo) (p : nat) : list hbox :=
  fold_left (fun bs l => fold_left (fun bs c => innerBox h incr t p l c bs) (leaves h l) bs) (seq 1 (maxLevel h)) [].

(** 528-541, _addFunBox; a function number beyond the last one is refused by supportIndex_into *)
Definition addFunBox (h : hbasis) (u0 v0 u1 v1 l : nat) (bs : list hbox) : res (list hbox) :=
  do _ <- ensure ((u0 <? funs (hpu h) (hnu h) l) && (v0 <? funs (hpv h) (hnv h) l) && (u1 <? funs (hpu h) (hnu h) l) && (v1 <? funs (hpv h) (hnv h) l));
  let eu := elems (hnu h) l in let ev := elems (hnv h) l in
  Ok (bs ++ [mkBox l (fst (supp (hpu h) eu u0)) (fst (supp (hpv h) ev v0)) (snd (supp (hpu h) eu u1)) (snd (supp (hpv h) ev v1))]).

Definition mark (b : bool) (i : nat) (chk : list bool) : list bool := if b then upd chk i true else chk.
(** 487-526, _addBoundaryBox; [chk] is sideToCheck *)
Definition addBoundaryBox (h : hbasis) (incr : nat) (s : side) (first last l : nat) (x : list hbox * list bool) : res (list hbox * list bool) :=
  let uM := funs (hpu h) (hnu h) l - 1 in let vM := funs (hpv h) (hnv h) l - 1 in
  let du := hdist (hpu h) incr in let dv := hdist (hpv h) incr in
  let (bs, chk) := x in
  do y <- match s with
          | West => do bs <- addFunBox h 0 first (du - 1) last l bs; Ok (bs, mark (uM <=? du) 1 chk)
          | East => do _ <- ensure (du - 1 <=? uM); do bs <- addFunBox h (uM - (du - 1)) first uM last l bs; Ok (bs, mark (uM <=? du) 0 chk)
          | South => do bs <- addFunBox h first 0 last (dv - 1) l bs; Ok (bs, mark (vM <=? dv) 3 chk)
          | North => do _ <- ensure (dv - 1 <=? vM); do bs <- addFunBox h first (vM - (dv - 1)) last vM l bs; Ok (bs, mark (vM <=? dv) 2 chk)
          end;
  let (bs, chk) := y in
  match side_dir s with
  | 0 => Ok (bs, mark (vM <=? last + 1) 3 (mark (first =? 0) 2 chk))
  | _ => Ok (bs, mark (uM <=? last + 1) 1 (mark (first =? 0) 0 chk))
  end.

(** 459-475: the loop over the functions that the neighbour has and this patch does not *)
Fixpoint scan {X} (fuel : nat) (r : list bool) (add : nat -> nat -> X -> res X) (start end_ : nat) (x : X) : res X :=
  match fuel with
  | 0 => Err
  | S fuel =>
      do b <- vget r start;
      do y <- (if negb b then Ok (S start, S end_, x)
               else if nth end_ r false then Ok (start, S end_, x)
               else do x <- add start (end_ - 1) x; Ok (end_, end_, x));
      let '(start, end_, x) := y in
      if start =? length r then Ok x else scan fuel r add start end_ x
  end.

(** 439-476: one level of one side; [n] and [sn]: the neighbour and its side, [fl]: the orientations are opposite *)
Definition matchLevel (h n : hbasis) (incr : nat) (s sn : side) (fl : bool) (x : list hbox * list bool) (l : nat) : res (list hbox * list bool) :=
  let sp := activeBoundary h l s in
  let sn := let v := activeBoundary n l sn in if fl then rev v else v in
  do _ <- ensure (length sp <=? length sn);
  let r := map (fun i => nth i sn false && negb (nth i sp false)) (seq 0 (length sp)) in
  let more := existsb (fun i => nth i sp false && negb (nth i sn false)) (seq 0 (length sp)) in
  scan (2 * length r + 2) r (fun a b => addBoundaryBox h incr s a b l) 0 0 (fst x, mark more (side_ix s - 1) (snd x)).
(** 421-485, _boxesMatchNeighbours: the boxes and the patches to be checked *)
Definition matchNeighbours (t : topo) (bs : list hbasis) (incr p : nat) : res (list hbox * list nat) :=
  do h <- vget bs p;
  do x <- foldM (fun x s =>
      match getInterface t (p, s) with
      | None => Ok x
      | Some f => do ps <- iother f (p, s); do n <- vget bs (fst ps);
                  foldM (matchLevel h n incr s (snd ps) (ifflip f)) (seq 1 (Nat.max (maxLevel h) (maxLevel n))) x
      end) [West; East; South; North] ([], repeat false 4);
  do nb <- mapM (fun s => match getInterface t (p, s) with None => Ok None | Some f => do ps <- iother f (p, s); Ok (Some (fst ps)) end) [West; East; South; North];
  Ok (fst x, flat_map (fun cn => match cn with (true, Some n) => [n] | _ => [] end) (combine (snd x) nb)).

Definition push (l : list nat) (p : nat) : list nat := if existsb (Nat.eqb p) l then l else l ++ [p].
(** 343-369: one round of the loop, for patch [p] and the other patches still to be checked *)
Definition repairRound (t : topo) (incr : nat) (bs : list hbasis) (p : nat) (todo : list nat) : res (list hbasis * list nat) :=
  do h <- vget bs p;
  match innerBoxes h incr t p with
  | [] => do x <- matchNeighbours t bs incr p; do bs <- vset bs p (refineElements h (fst x)); Ok (bs, fold_left push (snd x) todo)
  | add => do bs <- vset bs p (refineElements h add); Ok (bs, todo ++ [p])
  end.
(** 330-370, repairPatches: the loop, for the patches still to be checked *)
Fixpoint repairLoop (fuel : nat) (t : topo) (incr : nat) (bs : list hbasis) (todo : list nat) : res (list hbasis) :=
  match fuel with
  | 0 => Err
  | S fuel =>
      match todo with
      | [] => Err
      | p :: todo =>
          do y <- repairRound t incr bs p todo;
          let (bs, todo) := y in
          match todo with [] => Ok bs | _ => repairLoop fuel t incr bs todo end
      end
  end.
Definition repairPatches (fuel : nat) (t : topo) (incr : nat) (bs : list hbasis) (startFrom : option nat) : res (list hbasis) :=
  repairLoop fuel t incr bs (match startFrom with None => seq 0 (length bs) | Some p => [p] end).
