(** Model of the distances along interfaces of hierarchical bases (src/gsMPBESHSplineBasis.hpp, src/gsMPBESMapHB2D.h).

    Simplifications: knots are integers, as in VertexModel; comparisons with a tolerance are equalities.  The knots of the
    levels along a side and the flags of activeBoundaryFunctionsOfLevel (gsHTensorBasis, G+Smo core) are inputs, one
    record for every side of a patch; the parametric distance (getParametricDistanceOfVertex, modelled in VertexModel)
    is an argument of [hdistance]. *)
From Verif Require Import Common TopoModel VertexModel.

(** Along one side of a patch: degree, knots of level 0, 1, ..., and for every level which functions on the side are active. *)
Record hside := mkHS { hsDeg : nat; hsKnots : list (list Z); hsAct : list (list bool) }.
Definition hlev (S : hside) : list (list Z * list bool) := combine (hsKnots S) (hsAct S).

(** src/gsMPBESHSplineBasis.hpp:178-192 basisFunctionsOnSide *)
Definition hfunctionsOnSide (S : hside) : nat :=
  fold_left (fun nr (e : list Z * list bool) => fold_left (fun n (a : bool) => if a then n + 1 else n) (snd e) nr) (hlev S) 0.

(** src/gsMPBESHSplineBasis.hpp:569-581 one level of _endpointsOfActiveBoundaryFunctions; knots.at beyond the end is [Err] *)
Definition endpointsOfLevel (deg : nat) (orient : bool) (k : list Z) (a : list bool) (acc : list Z) : res (list Z) :=
  let k := if orient then kreverse k else k in
  let a := if orient then rev a else a in
  foldM (fun acc (ia : nat * bool) => if snd ia then do x <- vget k (fst ia + deg + 1); Ok (acc ++ [x]) else Ok acc)
        (combine (seq 0 (length a)) a) acc.

(** src/gsMPBESHSplineBasis.hpp:563-583 _endpointsOfActiveBoundaryFunctions *)
Definition endpoints (S : hside) (orient : bool) : res (list Z) :=
  do l <- foldM (fun acc (e : list Z * list bool) => endpointsOfLevel (hsDeg S) orient (fst e) (snd e) acc) (hlev S) [];
  Ok (zsort l).

(** src/gsMPBESHSplineBasis.hpp:585-595 findParameter at the corner [c] of the side [s]; reading beyond the vector is [Err] *)
Definition hfindParameter (S : hside) (s : side) (c : corner) (n : nat) : res Z :=
  match n with
  | 0 => Ok 0%Z
  | _ => do l <- endpoints S (pos_on s c); vget l (n - 1)
  end.

(** src/gsMPBESMapHB2D.h:112-135 getDistanceOfVertex on level [m] for the parametric distance [p] *)
Definition hdistance (S : hside) (m : nat) (s : side) (c : corner) (p : Z) : res nat :=
  if (p =? 0)%Z then Ok 0 else
  do k <- vget (hsKnots S) m;
  let k := if pos_on s c then k else kreverse k in
  Ok (firstAtLeast p (zsort (skipn (hsDeg S + 1) k)) + 1).
