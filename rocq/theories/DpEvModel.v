(** gsDPatch from the smoothing matrix to the final one: src/gsDPatchBase.hpp:25-36 (compute) and 553-565 (_checkMatrix), with the
    treatment of the extraordinary vertices of EvModel on the matrix of DpModel.

    Simplifications: real arithmetic is exact; the refined bases and the transfer matrix that _makeTHB computes
    (src/gsDPatch.hpp:186-329) are given; the refined bases are seen through the functions called on them (see RingModel). *)
From Coq Require Import Reals Qreals.
From Verif Require Import Common TopoModel BaseModel RingModel DpModel PiModel PiSpec EvModel.
Open Scope nat_scope.

(** _indexFromVert(m_bases,...), _indexFromVert(m_bases0,...), and the two mappers, src/gsDPatch.hpp:327-328, 440-478 *)
Definition dEv (I : dinput) (fine : list rbasis) (m : cmap) (opt : Z) (beta : R) (level : nat) : evin :=
  mkEV (ritopo (dring I))
    (fun k c s o => do b <- vget fine (fst c); Ok (rifv b k (snd c) s o))
    (fun k c s o => do b <- rbasisOf (dring I) (fst c); Ok (rifv b k (snd c) s o))
    (fun x p => let m0 := cmap_of (map rsize fine) in do _ <- ensure (cis_free m0 x p); cindex m0 x p)
    (fun x p => do _ <- ensure (cis_free m x p); cindex m x p) opt beta level.

(** src/gsDPatchBase.hpp:553-565, _checkMatrix on a matrix with [nr] rows and [nc] columns *)
Definition checkMatrix (nr nc : nat) (A : matrix) : bool :=
  forallb (fun c => let d := (rsum nr (fun r => A r c) - 1)%R in
    (if Rlt_dec d (1 / 10 ^ 8) then true else false) && (if Rlt_dec (- (1 / 10 ^ 8)) d then true else false)) (seq 0 nc).

(** src/gsDPatchBase.hpp:25-36, compute; number of rows and columns and the matrix *)
Definition dPatch (I : dinput) (fine : list rbasis) (T : matrix) (evs : list (list pcorner)) (opt : Z) (beta : R) (level : nat) : res (nat * nat * matrix) :=
  do D <- dCompute I;
  let A := fun r c => Q2R (dentry D r c) in
  do _ <- ensure (checkMatrix (drRows D) (drCols D) A);
  do A' <- computeEVs (dEv I fine (drMap D) opt beta level) (drCols D) A T evs;
  let nc := match evs with [] => drCols D | _ => sumN (map rsize fine) end in
  do _ <- ensure (checkMatrix (drRows D) nc A');
  Ok (drRows D, nc, A').
