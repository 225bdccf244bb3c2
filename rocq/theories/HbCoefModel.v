(** Refining and repairing a hierarchical basis together with coefficients: src/gsMPBESHSplineBasis.hpp:216-370 and
    src/gsMPBESBasis.hpp:197-266.  The bases are those of HbModel.v.

    Simplifications: the number of functions of a basis, gsHTensorBasis::size, and gsHTensorBasis::refineElements_withCoefs
    (G+Smo core) are arguments; the matrix of coefficients is the list of its rows; boxes given by parameters (refine,
    refine_withCoefs, 216-228, 244-279) are elements, as for refineElements; updateTopol (a new map, see HbMapModel.v) is
    left out. *)
From Verif Require Import Common TopoModel HbModel.

Section HbCoefs.
Context {C : Type} (hsz : hbasis -> nat) (refC : hbasis -> list hbox -> list C -> res (list C)).

(** src/gsMPBESHSplineBasis.hpp:350-353, 362-365: refineElements_withCoefs if there are coefficients, else refineElements *)
Definition refineBoth (bs : list hbasis) (cs : list (option (list C))) (p : nat) (add : list hbox) : res (list hbasis * list (option (list C))) :=
  do h <- vget bs p; do c <- vget cs p;
  do c' <- match c with None => Ok None | Some c => do c' <- refC h add c; Ok (Some c') end;
  do bs' <- vset bs p (refineElements h add); do cs' <- vset cs p c';
  Ok (bs', cs').

(** src/gsMPBESHSplineBasis.hpp:341-368: one round of the loop; nothing is refined if there are no boxes *)
Definition repairRoundC (t : topo) (incr : nat) (bs : list hbasis) (cs : list (option (list C))) (p : nat) (todo : list nat) :
    res (list hbasis * list (option (list C)) * list nat) :=
  do h <- vget bs p;
  match innerBoxes h incr t p with
  | [] =>
      do x <- matchNeighbours t bs incr p;
      do r <- match fst x with [] => Ok (bs, cs) | add => refineBoth bs cs p add end;
      Ok (r, fold_left push (snd x) todo)
  | add => do r <- refineBoth bs cs p add; Ok (r, todo ++ [p])
  end.
(** src/gsMPBESHSplineBasis.hpp:330-370 repairPatches(coefs, startFromPatch) *)
Fixpoint repairLoopC (fuel : nat) (t : topo) (incr : nat) (bs : list hbasis) (cs : list (option (list C))) (todo : list nat) :
    res (list hbasis * list (option (list C))) :=
  match fuel with
  | 0 => Err
  | S fuel =>
      match todo with
      | [] => Err
      | p :: todo =>
          do y <- repairRoundC t incr bs cs p todo;
          let '(bs, cs, todo) := y in
          match todo with [] => Ok (bs, cs) | _ => repairLoopC fuel t incr bs cs todo end
      end
  end.
Definition repairPatchesC (fuel : nat) (t : topo) (incr : nat) (bs : list hbasis) (cs : list (option (list C))) (startFrom : option nat) :
    res (list hbasis * list (option (list C))) :=
  repairLoopC fuel t incr bs cs (match startFrom with None => seq 0 (length bs) | Some p => [p] end).

(** src/gsMPBESHSplineBasis.hpp:248-258, 284-294: the blocks of the patches; a block beyond the matrix is [Err] *)
Fixpoint splitC (bs : list hbasis) (c : list C) : res (list (list C)) :=
  match bs with
  | [] => Ok []
  | h :: r => do _ <- ensure (hsz h <=? length c); do cs <- splitC r (skipn (hsz h) c); Ok (firstn (hsz h) c :: cs)
  end.
(** src/gsMPBESHSplineBasis.hpp:262-274, 298-310: a block must have the size of its basis *)
Fixpoint joinC (bs : list hbasis) (cs : list (option (list C))) : res (list C) :=
  match bs, cs with
  | [], _ => Ok []
  | h :: r, Some c :: cs => do _ <- ensure (length c =? hsz h); do x <- joinC r cs; Ok (c ++ x)
  | _ :: _, _ => Err
  end.

(** src/gsMPBESHSplineBasis.hpp:244-279, 281-314 refine_withCoefs and refineElements_withCoefs *)
Definition refineElementsC (fuel : nat) (t : topo) (incr : nat) (bs : list hbasis) (c : list C) (patch : nat) (boxes : list hbox) (update : bool) :
    res (list hbasis * list C) :=
  do cs <- splitC bs c;
  do r <- refineBoth bs (map Some cs) patch boxes;
  do r <- if update then repairPatchesC fuel t incr (fst r) (snd r) (Some patch) else Ok r;
  do c <- joinC (fst r) (snd r);
  Ok (fst r, c).
(** src/gsMPBESHSplineBasis.hpp:216-242, 316-328 refine, refineElements and refineWithExtension: the coefficients are NULL *)
Definition refineElementsN (fuel : nat) (t : topo) (incr : nat) (bs : list hbasis) (patch : nat) (boxes : list hbox) (update : bool) : res (list hbasis) :=
  do h <- vget bs patch;
  do bs <- vset bs patch (refineElements h boxes);
  if update then do r <- repairPatchesC fuel t incr bs (repeat None (length bs)) (Some patch); Ok (fst r) else Ok bs.

(** src/gsMPBESBasis.hpp:238-266 repairPatches(localCoef, startFromPatch) *)
Definition repairPatchesM (fuel : nat) (t : topo) (incr : nat) (bs : list hbasis) (c : list C) (startFrom : option nat) : res (list hbasis * list C) :=
  do cs <- splitC bs c;
  do r <- repairPatchesC fuel t incr bs (map Some cs) startFrom;
  do c <- joinC (fst r) (snd r);
  Ok (fst r, c).
(** src/gsMPBESBasis.hpp:197-204 repairPatches(startFromPatch) *)
Definition repairPatchesN (fuel : nat) (t : topo) (incr : nat) (bs : list hbasis) (startFrom : option nat) : res (list hbasis) :=
  do r <- repairPatchesC fuel t incr bs (repeat None (length bs)) startFrom; Ok (fst r).
End HbCoefs.
