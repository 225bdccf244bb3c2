(** Model of the control mesh of gsMPBESBasis: which functions of the combined basis are joined by an edge
    (src/gsMPBESBasis.hpp:39-134, src/gsMPBESBSplineBasis.hpp:151-167). *)
From Verif Require Import Common TopoModel MapModel.
Open Scope Z_scope.

(** src/gsMPBESBSplineBasis.hpp:151-167 isLocallyConnected; [_getPatch] and [_getPatchIndex] of gsMappedBasis (G+Smo core)
    number the functions as gsMPBESMapTensor does; an index without a patch is [Err] *)
Definition isLocallyConnected (bs : list mbase) (i j : Z) : res bool :=
  if Nat.eqb (getPatch bs i) (getPatch bs j) then
    do b <- vget bs (getPatch bs i);
    do ki <- getPatchIndex bs i;
    do kj <- getPatchIndex bs j;
    Ok (Z.abs (patchPar b ki false - patchPar b kj false) + Z.abs (patchPar b ki true - patchPar b kj true) =? 1)
  else Ok false.

(** a loop that stops at the first hit *)
Fixpoint existsM {A} (f : A -> res bool) (l : list A) : res bool :=
  match l with [] => Ok false | x :: r => do b <- f x; if b then Ok true else existsM f r end.
(** a loop that stops at the first miss *)
Fixpoint forallM {A} (f : A -> res bool) (l : list A) : res bool :=
  match l with [] => Ok true | x :: r => do b <- f x; if b then forallM f r else Ok false end.

(** std::set_intersection of two ascending sequences *)
Fixpoint setIntersection (fuel : nat) (a b : list Z) : list Z :=
  match fuel with
  | O => []
  | S n => match a, b with
           | x :: a', y :: b' => if x <? y then setIntersection n a' b
                                 else if y <? x then setIntersection n a b'
                                 else x :: setIntersection n a' b'
           | _, _ => []
           end
  end.

(** src/gsMPBESBasis.hpp:55-134 isConnected; [li], [lj] are the local functions combined in the two functions
    (gsWeightMapper::targetToSource, G+Smo core) *)
Definition isConnected (bs : list mbase) (li lj : list Z) : res bool :=
  let szi := Z.of_nat (length li) in let szj := Z.of_nat (length lj) in
  if (szi =? 1) && (szj =? 1) then
    do a <- vget li 0; do b <- vget lj 0; isLocallyConnected bs a b
  else if (szi =? 1) || (szj =? 1) then
    do element <- (if szi =? 1 then vget li 0 else vget lj 0);
    let lookthrough := if szi =? 1 then lj else li in
    existsM (isLocallyConnected bs element) lookthrough
  else
    let inter := Z.of_nat (length (setIntersection (length li + length lj) li lj)) in
    if (inter =? szi - 1) || (inter =? szj - 1) then Ok true
    else if inter =? 0 then
      do a <- forallM (fun i => existsM (fun j => isLocallyConnected bs i j) lj) li;
      if a then Ok true
      else forallM (fun j => existsM (fun i => isLocallyConnected bs i j) li) lj
    else Ok false.

(** src/gsMPBESBasis.hpp:39-52 connectivity: the edges added to the mesh; [locals] lists the local functions of every
    function of the basis *)
Definition connectivity (bs : list mbase) (locals : list (list Z)) : res (list (nat * nat)) :=
  let sz := length locals in
  do ll <- mapM (fun i =>
    do lj <- mapM (fun j =>
      do a <- vget locals i; do b <- vget locals j;
      do c <- isConnected bs a b; Ok (if c then [(i, j)] else [])) (seq (i + 1) (sz - (i + 1)));
    Ok (concat lj)) (seq 0 sz);
  Ok (concat ll).
