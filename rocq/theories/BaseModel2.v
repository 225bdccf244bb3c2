(** Further members of gsDPatchBase: selection of the lowest indices, sharp
    corners, export of patches, member state across calls of compute()
    (src/gsDPatchBase.{h,hpp}, src/gsSmoothInterfaces.hpp, src/gsDPatch.hpp). *)
From Verif Require Import Common TopoModel BaseModel.

(* ------------------------------------------------------------------ *)
(** * Selection *)

(** std::sort(begin,end,less), modelled by insertion sort.  (For a comparison that
    leaves different elements tied, std::sort may also return another order.) *)
Fixpoint insert {A} (lt : A -> A -> bool) (x : A) (l : list A) : list A :=
  match l with
  | [] => [x]
  | y :: r => if lt y x then y :: insert lt x r else x :: l
  end.
Fixpoint sort {A} (lt : A -> A -> bool) (l : list A) : list A :=
  match l with [] => [] | x :: r => insert lt x (sort lt r) end.

(** std::vector::resize(n): cut or fill with value-initialised elements *)
Definition resize {A} (d : A) (n : nat) (l : list A) : list A :=
  firstn n l ++ repeat d (n - length l).

(** customLess / customGreater, src/gsDPatchBase.hpp:466-476, 489-499 *)
Definition dof_less (a b : dof) : bool := (fst a <? fst b) || ((fst a =? fst b) && (snd a <? snd b)).
Definition dof_greater (a b : dof) : bool := (fst b <? fst a) || ((fst a =? fst b) && (snd b <? snd a)).

(** src/gsDPatchBase.hpp:462-481, _getLowestIndices *)
Definition getLowestIndices (l : list dof) (n : nat) : list dof := resize (0, 0) n (sort dof_less l).

(** src/gsDPatchBase.hpp:483-504, _removeLowestIndices *)
Definition removeLowestIndices (l : list dof) (n : nat) : res (list dof) :=
  do _ <- ensure (n <=? length l);
  Ok (resize (0, 0) (length l - n) (sort dof_greater l)).

(** src/gsDPatchBase.hpp:434-445, 447-460, _getLowestCorners / _removeLowestCorners:
    the comparison looks at the patch only.  (A value-initialised patchCorner has
    corner number 0, which is not a corner; padding is therefore an error here.) *)
Definition getLowestCorners (l : list pcorner) (n : nat) : res (list pcorner) :=
  do _ <- ensure (n <=? length l);
  Ok (firstn n (sort (fun a b => fst a <? fst b) l)).
Definition removeLowestCorners (l : list pcorner) (n : nat) : res (list pcorner) :=
  do _ <- ensure (n <=? length l);
  Ok (firstn (length l - n) (sort (fun a b => fst b <? fst a) l)).

(** src/gsDPatchBase.hpp:506-534, _getInterfaceIndices *)
Definition getInterfaceIndices (I : input) (pc : pcorner) (depth : nat) : res (list dof) :=
  do b <- basisOf I (fst pc);
  if depth =? 0 then Ok [(fst pc, functionAtCorner b (snd pc))]
  else
    do ll <- mapM (fun s => if isBoundary (itopo I) (fst pc, s) then Ok []
                            else do i <- ifv I depth pc s 0; Ok [(fst pc, i)]) (containing_sides (snd pc));
    Ok (concat ll).

(** src/gsDPatchBase.hpp:536-550, _getAllInterfaceIndices *)
Definition getAllInterfaceIndices (I : input) (pc : pcorner) (depth : nat) : res (list dof) :=
  do l <- cornerList (itopo I) pc;
  do ll <- mapM (fun c => getInterfaceIndices I c depth) l;
  Ok (concat ll).

(* ------------------------------------------------------------------ *)
(** * Sharp corners *)

(** External: the outer unit normal of a patch side at a corner (computeMap with
    NEED_OUTER_NORMAL, then normalized()), as a vector of coordinates. *)
Definition normals := pcorner -> side -> list Q.

Definition dot (a b : list Q) : Q := sumQ (map (fun xy => (fst xy * snd xy)%Q) (combine a b)).

Definition Qabs_gt (x tol : Q) : bool := negb (Qle_bool x tol) || negb (Qle_bool (- x) tol).

(** src/gsDPatchBase.hpp:76-93: boundary (corner, side) pairs around a vertex *)
Definition boundary_pairs (t : topo) (l : list pcorner) : list (pcorner * side) :=
  flat_map (fun c => map (fun s => (c, s))
    (filter (fun s => negb (isInterface t (fst c, s))) (containing_sides (snd c)))) l.

(** body of the loop, src/gsDPatchBase.hpp:66-124; state: (m_vertCheck, result) *)
Definition sharp_step (t : topo) (nrm : normals) (tol : Q) (st : list bool * list bool) (pc : pcorner)
  : res (list bool * list bool) :=
  let '(vc, result) := st in
  do chk <- vget vc (vertIndex pc);
  if (chk : bool) then Ok st else
  do l <- cornerList t pc;
  let bd := boundary_pairs t l in
  do vc' <- foldM (fun v c => vset v (vertIndex c) true) l vc;
  match bd with
  | [] => Ok (vc', result)
  | [(c1, s1); (c2, s2)] =>
      if Qabs_gt (dot (nrm c1 s1) (nrm c2 s2) - 1) tol then
        do result' <- foldM (fun v c => vset v (vertIndex c) true) l result;
        Ok (vc', result')
      else Ok (vc', result)
  | _ => Err
  end.

(** src/gsDPatchBase.hpp:46-127, getSharpCorners(tol); [np]: m_Bbases.nBases(),
    [has_geometry]: !m_patches.empty() *)
Definition getSharpCorners (t : topo) (np : nat) (has_geometry : bool) (nrm : normals) (tol : Q) : res (list bool) :=
  if negb has_geometry then Ok (repeat false (4 * np)) else
  do st <- foldM (sharp_step t nrm tol) (all_corners np) (repeat false (4 * np), repeat false (4 * np));
  Ok (snd st).

(* ------------------------------------------------------------------ *)
(** * Export *)

(** m_matrix.transpose() * v for one coordinate: one value per local function.
    (The coordinates of the control points are treated independently of each other,
    so the model keeps one of them.) *)
Definition transposeTimes (R : result) (v : list Q) : list Q :=
  map (fun c => sumQ (map (fun rv => (mget (rMat R) (fst rv) c * snd rv)%Q) (combine (seq 0 (rRows R)) v)))
      (seq 0 (rCols R)).

(** src/gsSmoothInterfaces.hpp:32-52, _preCoefficients(patches): coefficient rows of
    the free functions.  Rows never assigned stay uninitialised: error. *)
Definition preCoefficients {A} (m : mapper) (patches : list (list A)) : res (list A) :=
  do v <- foldM (fun v (x : dof) =>
      let '(p, k) := x in
      if is_free m k p then
        do i <- mindex m k p;
        do cs <- vget patches p;
        do row <- vget cs k;
        vset v i (Some row)
      else Ok v) (all_dofs m) (repeat None (freeSize m));
  mapM (fun o => match o with Some a => Ok a | None => Err end) v.

(** coefficients that exportToPatches(patches) obtains from the control points of the
    given patches: src/gsDPatchBase.h:190 *)
Definition exported (R : result) (P : list (list Q)) : res (list Q) :=
  do v <- preCoefficients (rMap R) P; Ok (transposeTimes R v).

(** Cached coefficients m_coefs; [None]: m_coefs.rows()==0 *)
Definition cache (A : Type) := option (list A).

(** the block read by exportPatch, src/gsDPatchBase.hpp:199-206 *)
Definition patchBlock {A} (sizes : list nat) (patch : nat) (coefs : list A) : res (list A) :=
  do size <- vget sizes patch;
  let offset := sumN (firstn patch sizes) in
  do _ <- ensure (offset + size <=? length coefs);
  Ok (firstn size (skipn offset coefs)).

(** src/gsDPatchBase.hpp:185-207, exportPatch(patch,computeCoefs).  [fresh] are the
    coefficients m_matrix^T * _preCoefficients() of the stored geometry. *)
Definition exportPatch {A} (fresh : res (list A)) (sizes : list nat) (patch : nat) (computeCoefs : bool) (c : cache A)
  : res (list A * cache A) :=
  do coefs <- (match c with
               | Some ((_ :: _) as l) => if computeCoefs then fresh else Ok l
               | _ => fresh
               end);
  do b <- patchBlock sizes patch coefs;
  Ok (b, Some coefs).

(** src/gsDPatchBase.h:187-199, exportToPatches(patches): [given] are the
    coefficients obtained from the given patches, [fresh] those of the stored ones. *)
Definition exportToPatches {A} (fresh given : res (list A)) (sizes : list nat) (c : cache A)
  : res (list (list A) * cache A) :=
  do g <- given;
  do r <- foldM (fun (st : list (list A) * cache A) p =>
             do x <- exportPatch fresh sizes p false (snd st);
             Ok (fst st ++ [fst x], snd x)) (seq 0 (length sizes)) ([], Some g);
  Ok r.

(* ------------------------------------------------------------------ *)
(** * Member state across calls of compute() *)

(** Members written by compute(). *)
Record members := mkMem {
  mB : list tbasis;       (* m_bases *)
  mB0 : list tbasis;      (* m_bases0 (gsDPatch only) *)
  mC0 : list bool;        (* m_C0s *)
  mSize : Z;              (* m_size *)
  mMap : mapper;          (* m_mapModified *)
  mOrig : mapper;         (* m_mapOriginal *)
  mMat : list entry; mRows : nat; mCols : nat;  (* m_matrix *)
  mDone : bool }.         (* m_computed *)

(** freshly constructed object, src/gsDPatchBase.h:60-67 *)
Definition new_members : members := mkMem [] [] [] 0 (mkM [] []) (mkM [] []) [] 0 0 false.

(** The three implementations of _initTHB followed by _initBasis. *)
Inductive variant := SmoothInterfaces | BaseTHB | DPatch.

(** gsSmoothInterfaces.hpp:87-103; gsDPatchBase.hpp:822-841; gsDPatch.hpp:143-184, 288.
    [Bb] = m_Bbases; only the sizes are kept: the knot multiplicities raised by
    gsDPatch::_initTHB give [raise] of the basis (level 1). *)
Definition initBases (v : variant) (raise : tbasis -> tbasis) (Bb : list tbasis) (s : members) : members :=
  match v with
  | SmoothInterfaces => mkMem Bb (mB0 s) (mC0 s) (mSize s) (mMap s) (mOrig s) (mMat s) (mRows s) (mCols s) (mDone s)
  | BaseTHB => mkMem (mB s ++ Bb) (mB0 s) (mC0 s) (mSize s) (mMap s) (mOrig s) (mMat s) (mRows s) (mCols s) (mDone s)
  | DPatch => let b0 := mB0 s ++ map raise Bb in
              mkMem b0 b0 (mC0 s) (mSize s) (mMap s) (mOrig s) (mMat s) (mRows s) (mCols s) (mDone s)
  end.

(** gsSmoothInterfaces::compute() on the member state:
    src/gsDPatchBase.hpp:25-36, 791-807 *)
Definition compute_members (t : topo) (Bb : list tbasis) (sharp : res (list bool)) (s : members) : res members :=
  do c0 <- sharp;
  let s := mkMem (mB s) (mB0 s) c0 (mSize s) (mMap s) (mOrig s) (mMat s) (mRows s) (mCols s) (mDone s) in
  let s := initBases SmoothInterfaces (fun b => b) Bb s in
  let I := mkIn t (mB s) (mC0 s) in
  do size <- countDoFs I;
  let orig := mapper_of (mB s) in
  (* _initMatrix: resize() empties the sparse matrix *)
  let s := mkMem (mB s) (mB0 s) (mC0 s) size (mMap s) orig [] (Z.to_nat size) (sumN (map tsize (mB s))) (mDone s) in
  do m <- computeMapper I;
  do _ <- ensure (Z.of_nat (freeSize m) =? mSize s)%Z;
  let C := mkC I m orig (Z.to_nat size) (freeSize orig) in
  do w <- computeSmoothMatrix C;
  Ok (mkMem (mB s) (mB0 s) (mC0 s) (mSize s) m orig (w ++ mMat s) (mRows s) (mCols s) true).
