(** Assembly of the C1 bases: init() and compute() of gsApproxC1Spline and of
    gsC1SurfSpline, the univariate spaces of src/gsApproxC1Utils.cpp and the loops over
    the edge functions of gsApproxC1Edge and gsC1SurfBasisEdge. *)
From Verif Require Import Common TopoModel BaseModel ReparamModel.

(* ------------------------------------------------------------------ *)
(** * Univariate spaces *)

(** A clamped knot vector (gsKnotVector, G+Smo core): degree, end knots (multiplicity
    degree+1) and the unique inner knots with their multiplicities, increasing. *)
Record kvec := mkKV { kvdeg : nat; kvlo : Q; kvhi : Q; kvin : list (Q * nat) }.

(** size(), numElements(), multiplicityIndex(degree+1): multiplicity of the first knot
    after the left end *)
Definition kvsize (k : kvec) : nat := kvdeg k + 1 + sumN (map snd (kvin k)).
Definition kvelements (k : kvec) : nat := length (kvin k) + 1.
Definition multAfterEnd (k : kvec) : nat := match kvin k with [] => kvdeg k + 1 | (_, m) :: _ => m end.

(** gsKnotVector::reverse() *)
Definition kvrev (k : kvec) : kvec :=
  mkKV (kvdeg k) (kvlo k) (kvhi k) (rev (map (fun xm => ((kvlo k + kvhi k - fst xm)%Q, snd xm)) (kvin k))).

(** reduceMultiplicity(1) of the inner knots, behind elevateContinuity(1) and degreeReduce(1)
    (G+Smo core): [red] gives the new multiplicity; knots of multiplicity 0 disappear. *)
Definition reduceInner (red : nat -> nat) (l : list (Q * nat)) : list (Q * nat) :=
  filter (fun xm => 0 <? snd xm) (map (fun xm => (fst xm, red (snd xm))) l).

(** kv.uFind(x): position of the last unique knot that is not greater than x, among the inner
    knots; the left end knot is [None] *)
Fixpoint uFind (l : list (Q * nat)) (x : Q) : option nat :=
  match l with
  | [] => None
  | (y, _) :: r => if Qle_bool y x then match uFind r x with Some i => Some (S i) | None => Some 0 end else None
  end.

(** kv.insert(x,n) *)
Fixpoint kinsert (l : list (Q * nat)) (x : Q) (n : nat) : list (Q * nat) :=
  match l with
  | [] => [(x, n)]
  | (y, m) :: r => if Qeq_bool y x then (y, m + n) :: r
                   else if Qle_bool y x then (y, m) :: kinsert r x n else (x, n) :: l
  end.

(** kv.remove(uit,n): at most the multiplicity *)
Fixpoint kremove (l : list (Q * nat)) (i n : nat) : list (Q * nat) :=
  match l, i with
  | [], _ => []
  | (y, m) :: r, 0 => if m <=? n then r else (y, m - n) :: r
  | a :: r, S j => a :: kremove r j n
  end.

(** One geometry knot in the "Geometry check" loops: src/gsApproxC1Utils.cpp:79-91 (plus),
    117-132 (minus).  A geometry knot before the first inner knot of the space would make the
    code look at (and remove from) the left end knot: error. *)
Definition geoStep (minus : bool) (pgeo pbasis : nat) (l : list (Q * nat)) (g : Q * nat) : res (list (Q * nat)) :=
  let rgeo := (Z.of_nat pgeo - Z.of_nat (snd g) - (if minus then 1 else 0))%Z in
  match uFind l (fst g) with
  | None => Err
  | Some i =>
      do xm <- vget l i;
      let rbasis := (Z.of_nat pbasis - Z.of_nat (snd xm))%Z in
      if (rgeo <? rbasis)%Z then Ok (kinsert l (fst g) (Z.to_nat (rbasis - rgeo)))
      else if (rbasis <? rgeo)%Z then Ok (kremove l i (Z.to_nat (rgeo - rbasis)))
      else if minus && (rbasis =? 0)%Z && (rgeo =? 0)%Z then Ok (kremove l i 1)
      else Ok l
  end.

(** src/gsApproxC1Utils.cpp:59-94, createPlusSpace: [geo] is the geometry's and [b] the basis'
    component *)
Definition createPlusSpace (red : nat -> nat) (geo b : kvec) : res kvec :=
  let inner := if multAfterEnd b =? 1 then kvin b else reduceInner red (kvin b) in
  do l <- foldM (geoStep false (kvdeg geo) (kvdeg b)) (kvin geo) inner;
  Ok (mkKV (kvdeg b) (kvlo b) (kvhi b) l).

(** src/gsApproxC1Utils.cpp:96-135, createMinusSpace (degreeDecrease keeps the multiplicities of the
    inner knots; degree 0 cannot be decreased) *)
Definition createMinusSpace (red : nat -> nat) (geo b : kvec) : res kvec :=
  do _ <- ensure (0 <? kvdeg b);
  let inner := if multAfterEnd b =? 1 then kvin b else reduceInner red (kvin b) in
  do l <- foldM (geoStep true (kvdeg geo) (kvdeg b - 1)) (kvin geo) inner;
  Ok (mkKV (kvdeg b - 1) (kvlo b) (kvhi b) l).

(** sizes n_plus, n_minus *)
Definition plusMinus (red : nat -> nat) (geo b : kvec) : res (nat * nat) :=
  do a <- createPlusSpace red geo b;
  do m <- createMinusSpace red geo b;
  Ok (kvsize a, kvsize m).

(** the edge functions: (true,i) of the plus space, (false,i) of the minus space;
    src/gsApproxC1Edge.hpp:117-118, 148-149; src/gsC1SurfBasisEdge.h:112-152 *)
Definition edgeFunctions (nn : nat * nat) : list (bool * nat) :=
  map (pair true) (seq 3 (fst nn - 6)) ++ map (pair false) (seq 2 (snd nn - 4)).

(* ------------------------------------------------------------------ *)
(** * Input *)

(** The coefficients of the edge and vertex functions are results of linear solves and enter as
    functions: [c1icoef k second f], [c1bcoef k f], [c1vcoef k n f] for interface, boundary, vertex
    number k, n-th patch of the vertex.  The sizes of the edge and vertex pieces (1..8), results of
    createEdgeSpace and createVertexSpace, are given as well. *)
Record c1in := mkC1 {
  c1topo : topo;
  c1verts : list (list pcorner);           (* m_patches.vertices() *)
  c1basis : list (kvec * kvec);            (* m_multiBasis *)
  c1geo : list (kvec * kvec);              (* bases of m_patches *)
  c1more : list (list nat);                (* sizes of the further pieces of m_bases[p] *)
  c1red : nat -> nat;
  c1icoef : nat -> bool -> bool * nat -> list Q;
  c1bcoef : nat -> bool * nat -> list Q;
  c1vcoef : nat -> nat -> nat -> list Q }.

(** component of a tensor basis *)
Definition kcomp (b : kvec * kvec) (dir : nat) : kvec := match dir with 0 => fst b | _ => snd b end.
(** direction along a side: src/gsApproxC1Spline.hpp:101-102, 159 *)
Definition along (s : side) : nat := if 2 <? side_ix s then 0 else 1.

(** sizes of all pieces of m_bases[p]; size of the container (src/gsContainerBasis.h:98-103) *)
Definition pieceSizes (I : c1in) (p : nat) : res (list nat) :=
  do b <- vget (c1basis I) p;
  do more <- vget (c1more I) p;
  Ok (kvsize (fst b) * kvsize (snd b) :: more).
Definition containerSize (I : c1in) (p : nat) : res nat :=
  do l <- pieceSizes I p; Ok (sumN l).

(* ------------------------------------------------------------------ *)
(** * gsApproxC1Spline *)

(** src/gsApproxC1Spline.hpp:110-124: the coarser of the two sides decides *)
Definition initChoice (I : c1in) (f : iface) : res (kvec * kvec) :=
  do b1 <- vget (c1basis I) (fst (if1 f));
  do b2 <- vget (c1basis I) (fst (if2 f));
  do g1 <- vget (c1geo I) (fst (if1 f));
  do g2 <- vget (c1geo I) (fst (if2 f));
  let d1 := along (snd (if1 f)) in
  let d2 := along (snd (if2 f)) in
  if kvelements (kcomp b2 d2) <? kvelements (kcomp b1 d1) then Ok (kcomp g2 d2, kcomp b2 d2)
  else Ok (kcomp g1 d1, kcomp b1 d1).

(** src/gsApproxC1Spline.hpp:150, 175 *)
Definition edgeDofs (nn : nat * nat) : Z := Z.max (Z.of_nat (fst nn) + Z.of_nat (snd nn) - 10) 0.

Definition initIface (I : c1in) (f : iface) : res Z :=
  do gb <- initChoice I f;
  do nn <- plusMinus (c1red I) (fst gb) (snd gb);
  Ok (edgeDofs nn).

(** src/gsApproxC1Spline.hpp:155-177 *)
Definition initBoundary (I : c1in) (ps : pside) : res Z :=
  do b <- vget (c1basis I) (fst ps);
  do g <- vget (c1geo I) (fst ps);
  do nn <- plusMinus (c1red I) (kcomp g (along (snd ps))) (kcomp b (along (snd ps)));
  Ok (edgeDofs nn).

(** src/gsApproxC1Spline.hpp:88-91 *)
Definition innerDofs (b : kvec * kvec) : Z := ((Z.of_nat (kvsize (fst b)) - 4) * (Z.of_nat (kvsize (snd b)) - 4))%Z.

(** src/gsApproxC1Spline.hpp:62-247: dimensions of the matrix (rows, columns) *)
Definition c1init (I : c1in) : res (Z * nat) :=
  let inner := sumZ (map innerDofs (c1basis I)) in
  do a <- mapM (initIface I) (tif (c1topo I));
  do b <- mapM (initBoundary I) (tbd (c1topo I));
  do cols <- mapM (containerSize I) (seq 0 (length (c1basis I)));
  Ok ((inner + sumZ a + sumZ b + sumZ (map (fun _ => 6) (c1verts I)))%Z, sumN cols).

(** Rotated bases of a gsPatchReparameterized object: components of the basis are exchanged
    (gsContainerBasis::reverse, gsContainerBasis.h:105-131), knots of the geometry also reversed.
    Patches have positive orientation, fixOrientation() being called in line 67. *)
Definition rotBasis (o : op) (b : kvec * kvec) : kvec * kvec :=
  match o with OTwice => b | _ => (snd b, fst b) end.
Definition rotGeo (o : op) (g : kvec * kvec) : kvec * kvec :=
  match o with
  | OSwap => (snd g, fst g) | OAnti => (snd g, kvrev (fst g))
  | OClock => (kvrev (snd g), fst g) | OTwice => (kvrev (fst g), kvrev (snd g))
  end.
Definition rotAll {A} (f : op -> A -> A) (ops : list op) (a : A) : A := fold_left (fun a o => f o a) ops a.

(** src/gsApproxC1Edge.hpp:32-63, interface: sizes of the plus and minus spaces *)
Definition edgeSizes (I : c1in) (f : iface) : res (nat * nat) :=
  let o1 := interfaceOps true (side_ix (snd (if1 f))) in
  let o2 := interfaceOps false (side_ix (snd (if2 f))) in
  do b1 <- vget (c1basis I) (fst (if1 f));
  do b2 <- vget (c1basis I) (fst (if2 f));
  do g1 <- vget (c1geo I) (fst (if1 f));
  do g2 <- vget (c1geo I) (fst (if2 f));
  let b1 := rotAll rotBasis o1 b1 in
  let b2 := rotAll rotBasis o2 b2 in
  if kvelements (fst b2) <? kvelements (snd b1) then plusMinus (c1red I) (fst (rotAll rotGeo o2 g2)) (fst b2)
  else plusMinus (c1red I) (snd (rotAll rotGeo o1 g1)) (snd b1).

(** the same for a boundary side (lines 44-49) *)
Definition bdySizes (I : c1in) (ps : pside) : res (nat * nat) :=
  let o := singleOps false (side_ix (snd ps)) in
  do b <- vget (c1basis I) (fst ps);
  do g <- vget (c1geo I) (fst ps);
  plusMinus (c1red I) (snd (rotAll rotGeo o g)) (snd (rotAll rotBasis o b)).

(** 1e-25, 1e-20 *)
Definition thr25 : Q := 1 # 10000000000000000000000000.
Definition thr20 : Q := 1 # 100000000000000000000.
Definition above (thr x : Q) : bool := negb (Qle_bool (x * x) thr).

(** the loops over ii, jj: src/gsApproxC1Spline.hpp:316-323, 334-341, 365-372, 405-414 *)
Definition blockWrites (thr : Q) (row col : nat) (fs : list (list Q)) (ncols : nat) : res (list entry) :=
  do ll <- mapM (fun iif : nat * list Q =>
      do l <- mapM (fun jj =>
          do x <- vget (snd iif) jj;
          Ok (if above thr x then [(row + fst iif, col + jj, x)] else [])) (seq 0 ncols);
      Ok (concat l)) (combine (seq 0 (length fs)) fs);
  Ok (concat ll).

(** shift_col + begin_col and end_col - begin_col, e.g. src/gsApproxC1Spline.hpp:307-314 *)
Definition colRange (I : c1in) (p piece : nat) : res (nat * nat) :=
  do shift <- mapM (containerSize I) (seq 0 p);
  do l <- pieceSizes I p;
  do n <- vget l piece;
  Ok (sumN shift + sumN (firstn piece l), n).

Definition putPiece (I : c1in) (thr : Q) (row p piece : nat) (fs : list (list Q)) : res (list entry) :=
  do cr <- colRange I p piece; blockWrites thr row (fst cr) fs (snd cr).

(** interior functions of a patch: src/gsApproxC1Spline.hpp:277-292; pairs (i,j) *)
Definition innerPairs (dimU dimV : nat) : list (nat * nat) :=
  flat_map (fun j => map (fun i => (i, j)) (seq 2 (dimU - 4))) (seq 2 (dimV - 4)).

Definition c1state := (nat * nat * list entry)%type. (* shift_row, shift_col, writes *)
Definition putInner (I : c1in) (st : c1state) (p : nat) : res c1state :=
  let '(row, col, W) := st in
  do b <- vget (c1basis I) p;
  let dimU := kvsize (fst b) in
  let pairs := innerPairs dimU (kvsize (snd b)) in
  do n <- containerSize I p;
  Ok (row + length pairs, col + n,
      W ++ map (fun k => (row + fst k, col + (snd (snd k) * dimU + fst (snd k)), 1%Q)) (combine (seq 0 (length pairs)) pairs)).

(** src/gsApproxC1Spline.hpp:295-344 *)
Definition putIface (I : c1in) (st : nat * list entry) (kf : nat * iface) : res (nat * list entry) :=
  let '(row, W) := st in
  let '(k, f) := kf in
  do nn <- edgeSizes I f;
  let fns := edgeFunctions nn in
  do w1 <- putPiece I thr25 row (fst (if1 f)) (side_ix (snd (if1 f))) (map (c1icoef I k false) fns);
  do w2 <- putPiece I thr25 row (fst (if2 f)) (side_ix (snd (if2 f))) (map (c1icoef I k true) fns);
  Ok (row + length fns, W ++ w1 ++ w2).

(** src/gsApproxC1Spline.hpp:346-374 *)
Definition putBoundary (I : c1in) (st : nat * list entry) (kp : nat * pside) : res (nat * list entry) :=
  let '(row, W) := st in
  let '(k, ps) := kp in
  do nn <- bdySizes I ps;
  let fns := edgeFunctions nn in
  do w <- putPiece I thr20 row (fst ps) (side_ix (snd ps)) (map (c1bcoef I k) fns);
  Ok (row + length fns, W ++ w).

(** src/gsApproxC1Spline.hpp:376-417; a vertex always has six functions (gsApproxC1Vertex.h:303;
    computeKernel replaces their coefficients, gsApproxC1Vertex.hpp:322-340).  basisVertex[0] of an
    empty list would be undefined. *)
Definition putVertex (I : c1in) (st : nat * list entry) (kl : nat * list pcorner) : res (nat * list entry) :=
  let '(row, W) := st in
  let '(k, l) := kl in
  do _ <- ensure (0 <? length l);
  do ww <- mapM (fun nc : nat * pcorner =>
      putPiece I thr20 row (fst (snd nc)) (corner_ix (snd (snd nc)) + 4) (map (c1vcoef I k (fst nc)) (seq 0 6)))
    (combine (seq 0 (length l)) l);
  Ok (row + 6, W ++ concat ww).

(** m_matrix.insert(r,c) = v: the position must exist and be free *)
Definition insertEntry (dim : Z * nat) (M : list entry) (e : entry) : res (list entry) :=
  let '(r, c, v) := e in
  do _ <- ensure ((Z.of_nat r <? fst dim)%Z && (c <? snd dim));
  do _ <- ensure (forallb (fun e' => negb ((fst (fst e') =? r) && (snd (fst e') =? c))) M);
  Ok (M ++ [e]).

Definition indexed {A} (l : list A) : list (nat * A) := combine (seq 0 (length l)) l.

(** src/gsApproxC1Spline.hpp:273-419: number of rows filled and the entries *)
Definition c1writes (I : c1in) : res (nat * list entry) :=
  do s1 <- foldM (putInner I) (seq 0 (length (c1basis I))) (0, 0, []);
  do s2 <- foldM (putIface I) (indexed (tif (c1topo I))) (fst (fst s1), snd s1);
  do s3 <- foldM (putBoundary I) (indexed (tbd (c1topo I))) s2;
  foldM (putVertex I) (indexed (c1verts I)) s3.
Definition c1compute (I : c1in) : res (nat * list entry) :=
  do dim <- c1init I;
  do s <- c1writes I;
  do M <- foldM (insertEntry dim) (snd s) [];
  Ok (fst s, M).

(* ------------------------------------------------------------------ *)
(** * gsC1SurfSpline: one piece per patch; the edge functions live on the bases of the geometry *)

(** elevateContinuity(1) and degreeReduce(1): src/gsC1SurfSpline.hpp:86-93, 107-114;
    src/gsC1SurfBasisEdge.h:36-47 *)
Definition surfSizes (red : nat -> nat) (b : kvec) : res (nat * nat) :=
  do _ <- ensure (0 <? kvdeg b);
  let l := reduceInner red (kvin b) in
  Ok (kvsize (mkKV (kvdeg b) (kvlo b) (kvhi b) l), kvsize (mkKV (kvdeg b - 1) (kvlo b) (kvhi b) l)).

(** src/gsC1SurfSpline.hpp:37-46: knots.size()-2*(degree+1) >= 5-degree *)
Definition surfCheck (k : kvec) : bool :=
  (5 - Z.of_nat (kvdeg k) <=? Z.of_nat (sumN (map snd (kvin k))))%Z.

(** src/gsC1SurfSpline.hpp:34-134 *)
Definition surfInit (I : c1in) : res (Z * nat) :=
  do _ <- ensure (forallb (fun g => surfCheck (fst g) && surfCheck (snd g)) (c1geo I));
  let side_dofs (ps : pside) :=
    do b <- vget (c1basis I) (fst ps);
    do nn <- surfSizes (c1red I) (kcomp b (along (snd ps)));
    Ok (Z.of_nat (fst nn) + Z.of_nat (snd nn) - 10)%Z in
  do a <- mapM side_dofs (map if1 (tif (c1topo I)));
  do b <- mapM side_dofs (tbd (c1topo I));
  do cols <- mapM (containerSize I) (seq 0 (length (c1basis I)));
  Ok ((sumZ (map innerDofs (c1basis I)) + sumZ a + sumZ b + sumZ (map (fun _ => 6) (c1verts I)))%Z, sumN cols).

(** gsG1AuxiliaryPatch: components exchanged without reversal *)
Definition surfPlus (I : c1in) (ops : list op) (ps : pside) (dir : nat) : res (nat * nat) :=
  do g <- vget (c1geo I) (fst ps); surfSizes (c1red I) (kcomp (rotAll rotBasis ops g) dir).

(** src/gsC1SurfSpline.hpp:165-208; src/gsC1SurfEdge.h:50-86 *)
Definition surfIface (I : c1in) (st : nat * list entry) (kf : nat * iface) : res (nat * list entry) :=
  let '(row, W) := st in
  let '(k, f) := kf in
  do n1 <- surfPlus I (interfaceOps true (side_ix (snd (if1 f)))) (if1 f) 1;
  do n2 <- surfPlus I (interfaceOps false (side_ix (snd (if2 f)))) (if2 f) 0;
  do w1 <- putPiece I thr25 row (fst (if1 f)) 0 (map (c1icoef I k false) (edgeFunctions n1));
  do w2 <- putPiece I thr25 row (fst (if2 f)) 0 (map (c1icoef I k true) (edgeFunctions n2));
  Ok (row + length (edgeFunctions n1), W ++ w1 ++ w2).

(** src/gsC1SurfSpline.hpp:209-236; src/gsC1SurfEdge.h:88-104 *)
Definition surfBoundary (I : c1in) (st : nat * list entry) (kp : nat * pside) : res (nat * list entry) :=
  let '(row, W) := st in
  let '(k, ps) := kp in
  do nn <- surfPlus I (singleOps false (side_ix (snd ps))) ps 1;
  let fns := edgeFunctions nn in
  do w <- putPiece I thr25 row (fst ps) 0 (map (c1bcoef I k) fns);
  Ok (row + length fns, W ++ w).

(** src/gsC1SurfSpline.hpp:237-269 *)
Definition surfVertex (I : c1in) (st : nat * list entry) (kl : nat * list pcorner) : res (nat * list entry) :=
  let '(row, W) := st in
  let '(k, l) := kl in
  do ww <- mapM (fun nc : nat * pcorner =>
      putPiece I thr25 row (fst (snd nc)) 0 (map (c1vcoef I k (fst nc)) (seq 0 6)))
    (combine (seq 0 (length l)) l);
  Ok (row + 6, W ++ concat ww).

(** src/gsC1SurfSpline.hpp:144-272; setFromTriplets adds up equal positions and requires valid ones *)
Definition surfWrites (I : c1in) : res (nat * list entry) :=
  do s1 <- foldM (putInner I) (seq 0 (length (c1basis I))) (0, 0, []);
  do s2 <- foldM (surfIface I) (indexed (tif (c1topo I))) (fst (fst s1), snd s1);
  do s3 <- foldM (surfBoundary I) (indexed (tbd (c1topo I))) s2;
  foldM (surfVertex I) (indexed (c1verts I)) s3.
Definition surfCompute (I : c1in) : res (nat * list entry) :=
  do dim <- surfInit I;
  do s <- surfWrites I;
  do _ <- ensure (forallb (fun e => (Z.of_nat (fst (fst e)) <? fst dim)%Z && (snd (fst e) <? snd dim)) (snd s));
  Ok s.
