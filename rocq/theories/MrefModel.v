(** Model of the refinement of a gsMPBESBSplineBasis, with and without coefficients
    (src/gsMPBESBSplineBasis.hpp:179-315, 338-366; src/gsMPBESBasis.hpp:136-177, 238-268; src/gsMPBESSpline.hpp:31-186).

    Simplifications: knots are integers and comparisons with a tolerance are comparisons; a midpoint that is no integer is rounded,
    so the theorems ask for even spans. updateTopol builds the mapping of the refined bases and is modelled elsewhere. The
    coefficients are a list, one entry per row; a block that does not fit is [Err]. *)
From Verif Require Import Common TopoModel VertexModel RepairModel SplineModel BoehmModel.
Open Scope nat_scope.

(** ** Knots to insert *)
(** the spans of positive length, src/gsMPBESBSplineBasis.hpp:292-293, 302-303 *)
Fixpoint spans (k : list Z) : list (Z * Z) :=
  match k with
  | a :: (b :: _) as r => if (a <? b)%Z then (a, b) :: spans r else spans r
  | _ => []
  end.

(** a box: the column of its lower left and the column of its upper right corner *)
Record box := mkBox { bLo0 : Z; bLo1 : Z; bHi0 : Z; bHi1 : Z }.
Definition rangeOf (dir : nat) (x : box) : Z * Z := match dir with 0 => (bLo0 x, bHi0 x) | _ => (bLo1 x, bHi1 x) end.

(** src/gsMPBESBSplineBasis.hpp:295-300, 305-310 the loops over the spans and the boxes: a midpoint is inserted for every box
    whose range contains it *)
Definition midKnots (ranges : list (Z * Z)) (k : list Z) : list Z :=
  flat_map (fun s => let '(a, b) := s in let m := (a + (b - a) / 2)%Z in
    flat_map (fun r => if (fst r <? m)%Z && (m <? snd r)%Z then [m] else []) ranges) (spans k).

(** src/gsMPBESBSplineBasis.hpp:281-315 _boxToRefineKnots *)
Definition boxToRefineKnots (b : vbase) (boxes : list box) : list Z * list Z :=
  (midKnots (map (rangeOf 0) boxes) (vk0 b), midKnots (map (rangeOf 1) boxes) (vk1 b)).

(** src/gsMPBESBSplineBasis.hpp:267-279 _boxesVectorToMatrix: five numbers per box, of which the first, the level, is dropped *)
Fixpoint boxesVectorToMatrix (v : list Z) : res (list box) :=
  match v with
  | [] => Ok []
  | _ :: a :: b :: c :: d :: r => do l <- boxesVectorToMatrix r; Ok (mkBox a b c d :: l)
  | _ => Err
  end.

(** gsKnotVector::uniformRefine (G+Smo core): [num] equally spaced knots in every span, each [mul] times *)
Definition uniKnots (num mul : nat) (k : list Z) : list Z :=
  flat_map (fun s => let '(a, b) := s in flat_map (fun j => repeat (a + (b - a) * Z.of_nat j / Z.of_nat (num + 1))%Z mul) (seq 1 num)) (spans k).

(** gsTensorBSplineBasis::size *)
Definition vsize0 (b : vbase) : nat := length (vk0 b) - vd0 b - 1.
Definition vsize1 (b : vbase) : nat := length (vk1 b) - vd1 b - 1.
Definition vsize (b : vbase) : nat := vsize0 b * vsize1 b.

(** ** Bases only *)
(** src/gsMPBESBSplineBasis.hpp:179-191 refine by knots *)
Definition refineKnots (fuel : nat) (t : topo) (B : list vbase) (patch : nat) (u v : list Z) (update : bool) : res (list vbase) :=
  do b <- vget B patch;
  do B' <- vset B patch (insertKnots b u v);
  if update then repairPatches fuel t B' None else Ok B'.
(** src/gsMPBESBSplineBasis.hpp:193-199 refine by boxes *)
Definition refineBoxes (fuel : nat) (t : topo) (B : list vbase) (patch : nat) (boxes : list box) (update : bool) : res (list vbase) :=
  do b <- vget B patch;
  let '(u, v) := boxToRefineKnots b boxes in refineKnots fuel t B patch u v update.
(** src/gsMPBESBSplineBasis.hpp:201-207 refineElements *)
Definition refineElements (fuel : nat) (t : topo) (B : list vbase) (patch : nat) (v : list Z) (update : bool) : res (list vbase) :=
  do boxes <- boxesVectorToMatrix v; refineBoxes fuel t B patch boxes update.
(** src/gsMPBESBasis.hpp:136-148 uniformRefine *)
Definition uniformRefine (B : list vbase) (num mul : nat) : list vbase :=
  map (fun b => insertKnots b (uniKnots num mul (vk0 b)) (uniKnots num mul (vk1 b))) B.

(** ** With coefficients *)
Section Coefs.
(** [refC b u v c]: gsTensorBSplineBasis::refine_withCoefs (G+Smo core), the coefficients after inserting the knots [u] and [v] *)
Context {C : Type} (refC : vbase -> list Z -> list Z -> list C -> res (list C)).

(** the blocks of the patches, src/gsMPBESBSplineBasis.hpp:219-226 *)
Fixpoint splitC (B : list vbase) (c : list C) : res (list (list C)) :=
  match B with
  | [] => Ok []
  | b :: B' => do _ <- ensure (vsize b <=? length c); do r <- splitC B' (skipn (vsize b) c); Ok (firstn (vsize b) c :: r)
  end.
(** and back, src/gsMPBESBSplineBasis.hpp:230-242 *)
Fixpoint joinC (B : list vbase) (cs : list (list C)) : res (list C) :=
  match B, cs with
  | [], _ => Ok []
  | b :: B', c :: cs' => do _ <- ensure (length c =? vsize b); do r <- joinC B' cs'; Ok (c ++ r)
  | _ :: _, [] => Err
  end.

Definition nothing (i0 i1 : list Z) : bool := match i0, i1 with [], [] => true | _, _ => false end.

(** src/gsMPBESBSplineBasis.hpp:347-366 the loop of repairPatches with coefficients *)
Fixpoint repairLoopC (fuel : nat) (t : topo) (B : list vbase) (cs : list (list C)) (toCheck : list nat) : res (list vbase * list (list C)) :=
  match fuel with
  | 0 => Err
  | S fuel' =>
      match toCheck with
      | [] => Err
      | p :: r =>
          do m <- knotsMatchNeighbours t B p;
          let '(i0, i1, chk) := m in
          do b <- vget B p;
          do c <- vget cs p;
          do c' <- if nothing i0 i1 then Ok c else refC b i0 i1 c;
          do B' <- vset B p (insertKnots b i0 i1);
          do cs' <- vset cs p c';
          let toCheck' := fold_left (fun l x => setInsert x l) chk r in
          match toCheck' with [] => Ok (B', cs') | _ => repairLoopC fuel' t B' cs' toCheck' end
      end
  end.
(** src/gsMPBESBSplineBasis.hpp:338-346 *)
Definition repairPatchesC (fuel : nat) (t : topo) (B : list vbase) (cs : list (list C)) (startFrom : option nat) : res (list vbase * list (list C)) :=
  repairLoopC fuel t B cs (match startFrom with None => seq 0 (length B) | Some p => [p] end).
(** src/gsMPBESBasis.hpp:238-268 repairPatches of one matrix of coefficients *)
Definition repairPatchesM (fuel : nat) (t : topo) (B : list vbase) (c : list C) (startFrom : option nat) : res (list vbase * list C) :=
  do cs <- splitC B c;
  do r <- repairPatchesC fuel t B cs startFrom;
  do c' <- joinC (fst r) (snd r);
  Ok (fst r, c').

(** src/gsMPBESBSplineBasis.hpp:209-246 refine_withCoefs by knots *)
Definition refineKnotsC (fuel : nat) (t : topo) (B : list vbase) (c : list C) (patch : nat) (u v : list Z) (update : bool) : res (list vbase * list C) :=
  do cs <- splitC B c;
  do b <- vget B patch;
  do cp <- vget cs patch;
  do cp' <- refC b u v cp;
  do B' <- vset B patch (insertKnots b u v);
  do cs' <- vset cs patch cp';
  do r <- if update then repairPatchesC fuel t B' cs' (Some patch) else Ok (B', cs');
  do c' <- joinC (fst r) (snd r);
  Ok (fst r, c').
(** src/gsMPBESBSplineBasis.hpp:248-255 refine_withCoefs by boxes *)
Definition refineBoxesC (fuel : nat) (t : topo) (B : list vbase) (c : list C) (patch : nat) (boxes : list box) (update : bool) : res (list vbase * list C) :=
  do b <- vget B patch;
  let '(u, v) := boxToRefineKnots b boxes in refineKnotsC fuel t B c patch u v update.
(** src/gsMPBESBSplineBasis.hpp:257-264 refineElements_withCoefs *)
Definition refineElementsC (fuel : nat) (t : topo) (B : list vbase) (c : list C) (patch : nat) (v : list Z) (update : bool) : res (list vbase * list C) :=
  do boxes <- boxesVectorToMatrix v; refineBoxesC fuel t B c patch boxes update.

(** src/gsMPBESBasis.hpp:150-177 uniformRefine_withCoefs: here the blocks follow the sizes of the refined coefficients *)
Definition uniformRefineC (B : list vbase) (c : list C) (num mul : nat) : res (list vbase * list C) :=
  do cs <- splitC B c;
  do cs' <- mapM (fun x => let '(b, d) := x in refC b (uniKnots num mul (vk0 b)) (uniKnots num mul (vk1 b)) d) (combine B cs);
  Ok (uniformRefine B num mul, concat cs').

(** ** gsMPBESSpline; the local coefficients are those of the mapped spline on the patches *)
(** src/gsMPBESSpline.hpp:31-51 constructor from a multi-patch: bases and local coefficients
    (src/gsMPBESBSplineBasis.hpp:45-66, src/gsMPBESUtils.h:53-85). The mapping and its inverse are modelled elsewhere. *)
Definition splineOf (fuel : nat) (t : topo) (B : list vbase) (cs : list (list C)) : res (list vbase * list C) :=
  do r <- repairPatchesC fuel t B cs None;
  do c <- joinC (fst r) (snd r);
  Ok (fst r, c).
(** src/gsMPBESSpline.hpp:53-82 constructor with a list of C0 corners: the coefficients are not repaired *)
Definition splineWithC0 (fuel : nat) (t : topo) (B : list vbase) (cs : list (list C)) : res (list vbase * list C) :=
  do B' <- repairPatches fuel t B None;
  do c <- joinC B' cs;
  Ok (B', c).
(** src/gsMPBESSpline.hpp:143-156 refineElements of all patches *)
Definition refineAllElements (fuel : nat) (t : topo) (B : list vbase) (c : list C) (boxes : list (list Z)) : res (list vbase * list C) :=
  do _ <- ensure (length boxes =? length B);
  do r <- foldM (fun s x => let '(p, v) := x in refineElementsC fuel t (fst s) (snd s) p v false) (combine (seq 0 (length boxes)) boxes) (B, c);
  repairPatchesM fuel t (fst r) (snd r) None.
(** src/gsMPBESSpline.hpp:158-166 uniformRefineAndSmooth: the third argument of uniformRefine_withCoefs is the multiplicity, and
    [false] is passed. smoothEverything changes the distances of the vertices, not the bases. *)
Definition uniformRefineAndSmooth (B : list vbase) (c : list C) (num : nat) : res (list vbase * list C) := uniformRefineC B c num 0.
(** src/gsMPBESSpline.hpp:168-176 refineAndSmooth *)
Definition refineAndSmooth (fuel : nat) (t : topo) (B : list vbase) (c : list C) (patch : nat) (boxes : list box) : res (list vbase * list C) :=
  refineBoxesC fuel t B c patch boxes false.
End Coefs.

(** ** gsTensorBSplineBasis::refine_withCoefs (G+Smo core: gsTensorBoehmRefine) for one coordinate of the control points: the
    knots are inserted one after the other, first in every row, then in every column *)
Fixpoint insertAll (p : nat) (ins : list Z) (Tc : list R * list R) : res (list R * list R) :=
  match ins with [] => Ok Tc | u :: r => do Tc' <- insertAll p r Tc; boehm1 p (IZR u) Tc' end.
Definition boehm2 (b : vbase) (i0 i1 : list Z) (c : list R) : res (list R) :=
  let n0 := vsize0 b in let n1 := vsize1 b in
  do _ <- ensure (length c =? n0 * n1);
  do rows <- mapM (fun j => insertAll (vd0 b) i0 (map IZR (vk0 b), map (fun i => nth (i + n0 * j) c 0%R) (seq 0 n0))) (seq 0 n1);
  do cols <- mapM (fun i => insertAll (vd1 b) i1 (map IZR (vk1 b), map (fun r => nth i (snd r) 0%R) rows)) (seq 0 (n0 + length i0));
  Ok (concat (map (fun j => map (fun r => nth j (snd r) 0%R) cols) (seq 0 (n1 + length i1)))).
