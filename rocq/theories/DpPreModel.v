(** Coefficients of gsDPatch: src/gsDPatch.hpp:62-138 (_preCoefficients).

    Simplifications: exact arithmetic; one coordinate of the control points (all coordinates are treated alike).  The matrices of
    refineElements_withTransfer (external) are given. *)
From Verif Require Import Common TopoModel BaseModel RingModel DpModel PreModel.

(** m_tMatrices[p]; without columns if the patch was not refined *)
Record tmat := mkTM { tmRows : nat; tmCols : nat; tmAt : nat -> nat -> Q }.

(** src/gsDPatch.hpp:72-76: tmpCoefs *)
Definition tmul (M : tmat) (cs : list Q) : res (list Q) :=
  if negb (tmRows M =? 0) && negb (tmCols M =? 0) then
    do _ <- ensure (length cs =? tmCols M);
    Ok (map (fun r => sumQ (map (fun x => (tmAt M r (fst x) * snd x)%Q) (combine (seq 0 (tmCols M)) cs))) (seq 0 (tmRows M)))
  else Ok cs.
Definition dpTransferred (np : nat) (T : list tmat) (P : list (list Q)) : res (list (list Q)) :=
  mapM (fun p => do M <- vget T p; do cs <- vget P p; tmul M cs) (seq 0 np).

(** src/gsDPatch.hpp:99, std::count(m_C0s.begin(), m_C0s.end(), pcorner): m_C0s is a vector of flags, so each flag is compared with the
    number of the corner in its patch *)
Definition c0Count (C0 : list bool) (pc : pcorner) : bool :=
  existsb (fun b : bool => (if b then 1 else 0) =? corner_ix (snd pc)) C0.

(** src/gsDPatch.hpp:108-129, one corner of the vertex: rows b11b, b11i and the marks *)
Definition v3Step (I : rinput) (m : cmap) (st : list nat * option nat * list bool) (c : pcorner) : res (list nat * option nat * list bool) :=
  let '(b11b, b11i, vc) := st in
  do b <- rbasisOf I (fst c);
  do r <- cindex m (rifv b 1 (snd c) (cside (snd c) 0) 1) (fst c);
  do bi <- (if isBoundary (ritopo I) (fst c, cside (snd c) 0) || isBoundary (ritopo I) (fst c, cside (snd c) 1) then Ok (b11b ++ [r], b11i)
            else match b11i with None => Ok (b11b, Some r) | Some _ => Err end);
  do vc <- vset vc (vertIndex c) true;
  Ok (fst bi, snd bi, vc).

(** src/gsDPatch.hpp:104-131, a boundary vertex of three patches *)
Definition v3Correct (I : rinput) (m : cmap) (coefs : list Q) (vc : list bool) (pc : pcorner) : res (list Q * list bool) :=
  do l <- cornerList (ritopo I) pc;
  do st <- foldM (v3Step I m) l ([], None, vc);
  do b00 <- match l with
            | [] => Err
            | c :: _ => do b <- rbasisOf I (fst c); cindex m (rcorner b (snd c)) (fst c)
            end;
  match st with
  | (r0 :: r1 :: _, Some ri, vc) =>
      do x0 <- vget coefs r0;
      do x1 <- vget coefs r1;
      do xi <- vget coefs ri;
      do coefs <- vset coefs b00 (x0 + x1 - xi)%Q;
      Ok (coefs, vc)
  | _ => Err
  end.

(** src/gsDPatch.hpp:90-134: one corner.  A skipped corner (line 99) is not marked. *)
Definition dpPreStep (I : rinput) (m : cmap) (st : list Q * list bool) (pc : pcorner) : res (list Q * list bool) :=
  do chk <- vget (snd st) (vertIndex pc);
  if (chk : bool) then Ok st else
  do vd <- vertexData (ritopo I) pc;
  if c0Count (riC0 I) pc then Ok st
  else if (fst vd =? 3) && negb (snd vd) then v3Correct I m (fst st) (snd st) pc
  else do vc <- vset (snd st) (vertIndex pc) true; Ok (fst st, vc).

(** src/gsDPatch.hpp:62-138 *)
Definition dpPre (I : rinput) (m : cmap) (T : list tmat) (P : list (list Q)) : res (list Q) :=
  let np := length (ribases I) in
  do tmp <- dpTransferred np T P;
  do coefs <- cfreeCoefs m tmp;
  do st <- foldM (dpPreStep I m) (all_corners np) (coefs, repeat false (4 * np));
  Ok (fst st).
