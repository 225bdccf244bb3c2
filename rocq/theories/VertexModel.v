(** Model of the bookkeeping of gsMPBESBasis: weights of sides, special vertices, and the distances along interfaces up to
    which functions stay merely continuous (src/gsMPBESBasis.{h,hpp}, src/gsMPBESBSplineBasis.hpp, src/gsMPBESMapB2D.h).

    Simplifications: knots are integers (finitely many rational knots have a common denominator), comparisons with a
    tolerance (math::almostEqual) are equalities, and weights are rational numbers. *)
From Verif Require Import Common TopoModel.

(** Per patch: knots and degrees of the two directions (gsTensorBSplineBasis, G+Smo core). *)
Record vbase := mkVB { vk0 : list Z; vk1 : list Z; vd0 : nat; vd1 : nat }.
Definition knots (b : vbase) (dir : nat) : list Z := match dir with 0 => vk0 b | _ => vk1 b end.
Definition degree (b : vbase) (dir : nat) : nat := match dir with 0 => vd0 b | _ => vd1 b end.

(** struct distances, src/gsMPBESBasis.h:344-350 *)
Record drec := mkD { dIf : iface; dC1 : pcorner; dP1 : Z; dC2 : pcorner; dP2 : Z }.

(** Data members, src/gsMPBESBasis.h:373-385, with m_topol and m_bases of gsMappedBasis. *)
Record vstate := mkVS {
  vT : topo; vB : list vbase;
  vIncr : nat;                       (* m_incrSmoothnessDegree *)
  vMin : nat;                        (* m_minDist *)
  vWeights : list (pside * Q);       (* m_patchSideWeights *)
  vVert : list (pcorner * bool);     (* m_vertices *)
  vDist : list drec }.               (* m_distances *)

(** *** Weights *)

(** src/gsMPBESBasis.hpp:269-276 getWeight *)
Definition getWeight (w : list (pside * Q)) (ps : pside) : Q :=
  match find (fun e => ps_eqb (fst e) ps) w with Some e => snd e | None => 1%Q end.

(** src/gsMPBESBasis.hpp:279-295 setWeight: new list and the returned flag *)
Definition setWeight (t : topo) (w : list (pside * Q)) (ps : pside) (x : Q) : list (pside * Q) * bool :=
  let found := existsb (fun e => ps_eqb (fst e) ps) w in
  let w' := map (fun e => if ps_eqb (fst e) ps then (fst e, x) else e) w in
  if negb found && isInterface t ps then (w' ++ [(ps, x)], true) else (w', found).

(** *** Special vertices *)

(** src/gsMPBESBasis.hpp:362-369 isSpecialVertex *)
Definition isSpecialVertex (vs : list (pcorner * bool)) (pc : pcorner) : bool :=
  match find (fun e => pc_eqb pc (fst e)) vs with Some e => snd e | None => false end.

(** gsBoxTopology::getEVs / getOVs (G+Smo core): the corner lists of interior vertices whose valence is not / is 4; a
    vertex is skipped when it already occurred at a patch with smaller number *)
Definition interiorVertices (t : topo) (four : bool) : res (list (list pcorner)) :=
  foldM (fun acc pc =>
    do l <- cornerList t pc;
    let isCycle := vertex_inner t l in
    let alreadyReached := existsb (fun k => fst k <? fst pc) l in
    if isCycle && Bool.eqb (length l =? 4) four && negb alreadyReached then Ok (acc ++ [l]) else Ok acc)
  (all_corners (tnp t)) [].

(** src/gsMPBESBasis.hpp:298-310 _initVertices *)
Definition initVertices (t : topo) : res (list (pcorner * bool)) :=
  do ev <- interiorVertices t false;
  do ov <- interiorVertices t true;
  Ok (map (fun c => (c, true)) (concat ev) ++ map (fun c => (c, false)) (concat ov)).

(** *** Knots and parameters *)

(** gsKnotVector::reverse() (G+Smo core): t -> first + last - t, order reversed *)
Definition kreverse (k : list Z) : list Z :=
  let ab := (hd 0%Z k + last k 0%Z)%Z in rev (map (fun t => (ab - t)%Z) k).

(** the unique knots, gsKnotVector::ubegin() .. uend() (G+Smo core) *)
Fixpoint uniques (k : list Z) : list Z :=
  match k with
  | [] => []
  | x :: r => match r with [] => [x] | y :: _ => if (x =? y)%Z then uniques r else x :: uniques r end
  end.

(** knots of the patch along side [ps], reversed unless the corner is at the upper end *)
Definition knotsFrom (B : list vbase) (ps : pside) (pc : pcorner) : res (list Z) :=
  do b <- vget B (fst ps);
  let k := knots b (1 - side_dir (snd ps)) in
  Ok (if pos_on (snd ps) (snd pc) then k else kreverse k).

(** src/gsMPBESBSplineBasis.hpp:436-449 findParameter; moving the iterator beyond the last unique knot is [Err] *)
Definition findParameter (B : list vbase) (ps : pside) (pc : pcorner) (n : nat) : res Z :=
  match n with
  | 0 => Ok 0%Z
  | _ => do k <- knotsFrom B ps pc; vget (uniques k) n
  end.

(** *** Distances *)

(** unsigned subtraction (32 bits) *)
Definition usub (a b : nat) : Z := ((Z.of_nat a - Z.of_nat b) mod 2 ^ 32)%Z.

(** src/gsMPBESBasis.hpp:472-531 _determineValues; the flags say whether the vertices at the two ends are special and
    whether the adjacent sides there are interfaces *)
Definition determineValues (ls rs li ri : bool) (dist degree max : nat) : Z * Z :=
  let Z' := Z.of_nat in
  if ls && rs then
    if dist + dist <=? max then (Z' dist, Z' dist) else (Z' (max / 2), usub max (max / 2))
  else if ls && ri then
    (if (usub max degree <? Z' dist)%Z then usub max degree else Z' dist, Z' degree)
  else if rs && li then
    (Z' degree, if (usub max degree <? Z' dist)%Z then usub max degree else Z' dist)
  else if rs then (0%Z, Z' (if max <? dist then max else dist))
  else if ls then (Z' (if max <? dist then max else dist), 0%Z)
  else (if li then Z' degree else 0%Z, if ri then Z' degree else 0%Z).

(** the other side at an end of a side *)
Definition otherSide (s : side) (upper : bool) : side :=
  match side_dir s with 0 => if upper then North else South | _ => if upper then East else West end.

(** src/gsMPBESBSplineBasis.hpp:142-148 basisFunctionsOnSide *)
Definition functionsOnSide (B : list vbase) (ps : pside) : res nat :=
  do b <- vget B (fst ps);
  let dir := 1 - side_dir (snd ps) in Ok (length (knots b dir) - degree b dir - 1).

(** src/gsMPBESBasis.hpp:397-423 the constructor of distances, with the corners chosen by
    src/gsMPBESBasis.hpp:312-331 _setDistanceOfAllVertices: the lower and the upper end of the first side *)
Definition newDistances (t : topo) (B : list vbase) (vs : list (pcorner * bool)) (incr minDist : nat) (f : iface) : res drec :=
  let ps := if1 f in
  let pc1 := (fst ps, corner_at (snd ps) false) in
  let pc2 := (fst ps, corner_at (snd ps) true) in
  do b <- vget B (fst ps);
  do mx <- functionsOnSide B ps;
  let deg := Nat.min (degree b (1 - side_dir (snd ps))) (incr + 1) in
  let dist := Nat.max deg minDist in
  let v := determineValues (isSpecialVertex vs pc1) (isSpecialVertex vs pc2)
             (isInterface t (fst ps, otherSide (snd ps) false)) (isInterface t (fst ps, otherSide (snd ps) true)) dist deg mx in
  do p1 <- findParameter B (if1 f) pc1 (Z.to_nat (fst v));
  do p2 <- findParameter B (if1 f) pc1 (Z.to_nat (snd v));
  Ok (mkD f pc1 p1 pc2 p2).

(** src/gsMPBESBasis.hpp:312-331 _setDistanceOfAllVertices *)
Definition setDistanceOfAllVertices (t : topo) (B : list vbase) (vs : list (pcorner * bool)) (incr minDist : nat) : res (list drec) :=
  mapM (newDistances t B vs incr minDist) (tif t).

Definition iface_eqb (f g : iface) : bool :=
  ps_eqb (if1 f) (if1 g) && ps_eqb (if2 f) (if2 g) && Bool.eqb (ifflip f) (ifflip g).

(** src/gsMPBESBasis.h:357-360 isDistancesOfInterface: the same interface, possibly seen from the other side *)
Definition isDistancesOf (d : drec) (g : iface) : bool :=
  iface_eqb (dIf d) g || iface_eqb (mkI (if2 (dIf d)) (if1 (dIf d)) (ifflip (dIf d))) g.

(** src/gsMPBESBasis.hpp:425-453 setParamDist *)
Definition setParamDist (S : vstate) (d : drec) (val : nat) (pc : pcorner) : res drec :=
  do l1 <- cornerList (vT S) (dC1 d);
  if existsb (pc_eqb pc) l1 then
    if isSpecialVertex (vVert S) pc then
      do p <- findParameter (vB S) (if fst (dC1 d) =? fst (if1 (dIf d)) then if1 (dIf d) else if2 (dIf d)) (dC1 d) val;
      Ok (mkD (dIf d) (dC1 d) p (dC2 d) (dP2 d))
    else Ok d
  else
    do l2 <- cornerList (vT S) (dC2 d);
    if existsb (pc_eqb pc) l2 && isSpecialVertex (vVert S) pc then
      do p <- findParameter (vB S) (if fst (dC2 d) =? fst (if1 (dIf d)) then if1 (dIf d) else if2 (dIf d)) (dC2 d) val;
      Ok (mkD (dIf d) (dC1 d) (dP1 d) (dC2 d) p)
    else Ok d.

(** src/gsMPBESBasis.hpp:455-469 getParamDist; -1 when the corner is at neither end *)
Definition getParamDist (t : topo) (d : drec) (pc : pcorner) : res Z :=
  do l1 <- cornerList t (dC1 d);
  if existsb (pc_eqb pc) l1 then Ok (dP1 d)
  else do l2 <- cornerList t (dC2 d);
       Ok (if existsb (pc_eqb pc) l2 then dP2 d else (-1)%Z).

Definition withDist (S : vstate) (l : list drec) : vstate := mkVS (vT S) (vB S) (vIncr S) (vMin S) (vWeights S) (vVert S) l.
Definition withVert (S : vstate) (l : list (pcorner * bool)) : vstate := mkVS (vT S) (vB S) (vIncr S) (vMin S) (vWeights S) l (vDist S).

(** the loops over m_distances in setC0 and smoothCornerEdge for one side *)
Definition setSideDist (S : vstate) (pc : pcorner) (ps : pside) : res vstate :=
  match getInterface (vT S) ps with
  | None => Ok S
  | Some g => do l <- mapM (fun d => if isDistancesOf d g then setParamDist S d (vMin S) pc else Ok d) (vDist S);
              Ok (withDist S l)
  end.

(** src/gsMPBESBasis.hpp:333-359 setC0: first the vertices, then the distances on the sides of the given corner *)
Definition markSpecial (vs : list (pcorner * bool)) (c : pcorner) : list (pcorner * bool) :=
  let found := existsb (fun e => pc_eqb (fst e) c) vs in
  let vs' := map (fun e => if pc_eqb (fst e) c then (fst e, true) else e) vs in
  if found then vs' else vs' ++ [(c, true)].

Definition setC0 (S : vstate) (pc : pcorner) : res vstate :=
  do l <- cornerList (vT S) pc;
  foldM (fun S s => setSideDist S pc (fst pc, s)) (containing_sides (snd pc)) (withVert S (fold_left markSpecial l (vVert S))).

(** src/gsMPBESBasis.hpp:209-223 smoothCornerEdge, without the new mapping *)
Definition smoothCornerEdge (S : vstate) (pc : pcorner) (ps : pside) : res vstate :=
  if isSpecialVertex (vVert S) pc then setSideDist S pc ps else Ok S.

(** src/gsMPBESBasis.hpp:225-241 smoothEverything, without the new mapping *)
Definition smoothEverything (S : vstate) : res vstate :=
  do ev <- interiorVertices (vT S) false;
  foldM (fun S pc => foldM (fun S s => smoothCornerEdge S pc (fst pc, s)) (containing_sides (snd pc)) S) (concat ev) S.

(** src/gsMPBESBasis.hpp:372-394 getParametricDistanceOfVertex: with several records of the interface the last one counts;
    the initial value of [param] is 0 *)
Definition parametricDistance (S : vstate) (pc : pcorner) (ps : pside) : res Z :=
  if isSpecialVertex (vVert S) pc then
    match getInterface (vT S) ps with
    | Some g => foldM (fun acc d => if isDistancesOf d g then getParamDist (vT S) d pc else Ok acc) (vDist S) 0%Z
    | None => findParameter (vB S) ps pc (vMin S)
    end
  else if existsb (fun e => pc_eqb pc (fst e)) (vVert S) then
    do b <- vget (vB S) (fst pc);
    findParameter (vB S) ps pc (Nat.min (degree b (1 - side_dir (snd ps))) (vIncr S + 1))
  else Ok 0%Z.

(** std::sort of the parameters *)
Fixpoint zinsert (x : Z) (l : list Z) : list Z :=
  match l with [] => [x] | y :: r => if (y <? x)%Z then y :: zinsert x r else x :: l end.
Definition zsort (l : list Z) : list Z := fold_right zinsert [] l.

(** position of the first element that is at least [x]; the length of the list if there is none *)
Fixpoint firstAtLeast (x : Z) (l : list Z) : nat :=
  match l with [] => 0 | y :: r => if (x <=? y)%Z then 0 else S (firstAtLeast x r) end.

(** src/gsMPBESMapB2D.h:113-136 getDistanceOfVertex *)
Definition distanceOfVertex (S : vstate) (pc : pcorner) (ps : pside) : res nat :=
  do p <- parametricDistance S pc ps;
  if (p =? 0)%Z then Ok 0
  else do b <- vget (vB S) (fst ps);
       do k <- knotsFrom (vB S) ps pc;
       Ok (firstAtLeast p (zsort (skipn (degree b (1 - side_dir (snd ps)) + 1) k)) + 1).

(** *** Construction *)

(** gsMappedBasis::maxDegree (G+Smo core), called at src/gsMPBESBSplineBasis.hpp:33 *)
Definition maxDegree (B : list vbase) : nat := fold_left (fun m b => Nat.max m (Nat.max (vd0 b) (vd1 b))) B 0.

(** src/gsMPBESBSplineBasis.hpp:23-43 and 67-90 the constructors up to _setDistanceOfAllVertices, for an increase of
    smoothness that is not the default -1 *)
Definition start (t : topo) (B : list vbase) (incr minEV : nat) : res vstate :=
  let n := Nat.max (Nat.min (incr + 1) (maxDegree B)) minEV in
  do vs <- initVertices t;
  do ds <- setDistanceOfAllVertices t B vs incr n;
  Ok (mkVS t B incr n [] vs ds).

(** *** Copies *)

(** src/gsMPBESBSplineBasis.hpp:91-108 copy constructor: the weights are not copied *)
Definition copyBasis (S : vstate) : vstate := mkVS (vT S) (vB S) (vIncr S) (vMin S) [] (vVert S) (vDist S).
(** src/gsMPBESBSplineBasis.hpp:110-128 operator=: the weights of the left-hand side stay *)
Definition assignBasis (old S : vstate) : vstate := mkVS (vT S) (vB S) (vIncr S) (vMin S) (vWeights old) (vVert S) (vDist S).
