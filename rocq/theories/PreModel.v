(** Coefficients of gsAlmostC1: src/gsAlmostC1.hpp:260-393 (freeCoefficients, _preCoefficients, setCoefficients), the coefficients of
    _makeTHB (src/gsAlmostC1.hpp:512-515) and those of the exported geometry (src/gsDPatchBase.hpp:185-207).

    Simplifications: control points have three coordinates, in the plane the third is zero.  A matrix of coefficients is the list of its
    rows.  The refinement of the geometry (refineElements, transfer) is external: see [refinedIn] in AcModel.v. *)
From Coq Require Import Reals Qreals.
From Verif Require Import Common TopoModel BaseModel BaseModel2 RingModel RefModel DpModel TriangleModel EvModel AcModel.
Open Scope nat_scope.

(** src/gsAlmostC1.hpp:260-279, freeCoefficients.  Rows never assigned stay uninitialised: error. *)
Definition cfreeCoefs {A} (m : cmap) (patches : list (list A)) : res (list A) :=
  do v <- foldM (fun v (x : dof) =>
      if cis_free m (snd x) (fst x) then
        do i <- cindex m (snd x) (fst x);
        do cs <- vget patches (fst x);
        do row <- vget cs (snd x);
        vset v i (Some row)
      else Ok v) (cdofs m) (repeat None (cfreeSize m));
  mapM (fun o => match o with Some a => Ok a | None => Err end) v.

(** matrix.transpose() * coefs for a matrix with [rows] rows and [cols] columns: the sizes must fit *)
Definition timesT (rows cols : nat) (A : nat -> nat -> R) (v : list vec3) : res (list vec3) :=
  do _ <- ensure (length v =? rows);
  Ok (map (fun c => fold_right (fun rv s => vadd (vscale (A (fst rv) c) (snd rv)) s) vzero (combine (seq 0 rows) v)) (seq 0 cols)).

(** src/gsAlmostC1.hpp:373-393, setCoefficients: the control points of patches with [sizes] functions *)
Definition setCoefs {A} (sizes : list nat) (coefs : list A) : res (list (list A)) :=
  do _ <- ensure (sumN sizes =? length coefs);
  mapM (fun pn => mapM (fun k => do i <- cindex (cmap_of sizes) k (fst pn); vget coefs i) (seq 0 (snd pn)))
       (combine (seq 0 (length sizes)) sizes).

(** src/gsAlmostC1.hpp:512-515, _makeTHB: the patches before they are refined *)
Definition acLocal (I : dinput) (D : dresult) (P : list (list vec3)) : res (list (list vec3)) :=
  do v <- cfreeCoefs (drMap D) P;
  do l <- timesT (drRows D) (drCols D) (fun r c => Q2R (dentry D r c)) v;
  setCoefs (map rsize (ribases (dring I))) l.

(** src/gsAlmostC1.hpp:297-367, one corner in _preCoefficients.  The two branches differ in the rows: see [acRows]. *)
Definition acPreStep (I : rinput) (m : cmap) (F : refinedIn) (st : list vec3 * list bool) (pc : pcorner) : res (list vec3 * list bool) :=
  do chk <- vget (snd st) (vertIndex pc);
  if (chk : bool) then Ok st else
  do C0 <- vget (riC0 I) (vertIndex pc);
  do l <- cornerList (ritopo I) pc;
  do vd <- vertexData (ritopo I) pc;
  let v := fst vd in
  if ((2 <? v) && negb ((v =? 4) && snd vd)) || ((v =? 2) && C0) then
    do T <- acTri (ritopo I) F pc;
    do rows <- acRows I m pc v;
    do coefs <- foldM (fun coefs j => do r <- vget rows j; do k <- vget (fst T) j; vset coefs r k) (seq 0 (length (fst T))) (fst st);
    do vc <- foldM (fun vc c => vset vc (vertIndex c) true) l (snd st);
    Ok (coefs, vc)
  else
    do vc <- vset (snd st) (vertIndex pc) true;
    Ok (fst st, vc).

(** src/gsAlmostC1.hpp:281-371, _preCoefficients *)
Definition acPre (I : rinput) (m : cmap) (F : refinedIn) (P : list (list vec3)) : res (list vec3) :=
  do coefs <- cfreeCoefs m P;
  do st <- foldM (acPreStep I m F) (all_corners (length (ribases I))) (coefs, repeat false (4 * length (ribases I)));
  Ok (fst st).

(** src/gsAlmostC1.h:83-87, _preCoefficients(patches): the argument is not used *)
Definition acPreGiven (I : rinput) (m : cmap) (F : refinedIn) (P given : list (list vec3)) : res (list vec3) := acPre I m F P.

(** src/gsDPatchBase.hpp:199 and gsDPatchBase.h:190: coefficients of the exported geometry; [nf]: number of functions of the refined bases *)
Definition acExport (I : dinput) (F : refinedIn) (nf : nat) (P : list (list vec3)) : res (list vec3) :=
  do RA <- acFinal I F;
  do v <- acPre (dring I) (drMap (fst RA)) F P;
  timesT (drRows (fst RA)) nf (snd RA) v.
Definition acExportGiven (I : dinput) (F : refinedIn) (nf : nat) (P given : list (list vec3)) : res (list vec3) :=
  do RA <- acFinal I F;
  do v <- acPreGiven (dring I) (drMap (fst RA)) F P given;
  timesT (drRows (fst RA)) nf (snd RA) v.
