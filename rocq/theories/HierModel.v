(** Functions near a corner of a hierarchical basis, src/gsDPatchBase.hpp:280-304 and 370-422.

    The hierarchical basis (gsHTensorBasis, core) is given by what is called: maxLevel, levelAtCorner, tensorLevel,
    flatTensorIndexToHierachicalIndex ([None] for -1) and functionAtCorner. *)
From Verif Require Import Common TopoModel BaseModel.

Record hbasis := mkH {
  hmax : nat; hlev : corner -> nat; hten : nat -> tbasis; hflat : nat -> nat -> option nat; hcorner : corner -> res nat }.

Definition isNone {A} (x : option A) : bool := match x with None => true | Some _ => false end.

(** lines 391-397 ([stop] = "result is -1") and 403-412 ([stop] = "result is not -1"): the first function on the line for which
    the search stops; leaving the line is an assertion of the tensor version. Every round passes to the next function, so the
    number of functions bounds the number of rounds. *)
Fixpoint scan (b : hbasis) (c : corner) (s : side) (o lev : nat) (none : bool) (fuel k : nat) : res nat :=
  match fuel with
  | 0 => Err
  | S fuel => do x <- indexFromVert (hten b lev) k c s o;
              if Bool.eqb (isNone (hflat b lev x)) none then Ok k else scan b c s o lev none fuel (S k)
  end.
Definition rounds (b : hbasis) (lev : nat) : nat := S (fst (hten b lev) + snd (hten b lev)).

(** lines 370-422 *)
Definition indexFromVertH_impl (b : hbasis) (index : nat) (c : corner) (s : side) (offset : nat) : res nat :=
  let level := hlev b c in
  do x <- indexFromVert (hten b level) index c s offset;
  match hflat b level x with
  | Some y => Ok y
  | None =>
      do _ <- ensure (negb (hmax b =? 0));
      do _ <- ensure (negb (level =? 0));
      do nActive_f <- scan b c s offset level true (rounds b level) 0;
      let level := level - 1 in
      do nInactive_c <- scan b c s offset level false (rounds b level) 0;
      let tmpIdx := index - nActive_f + nInactive_c in
      do x <- indexFromVert (hten b level) tmpIdx c s offset;
      match hflat b level x with Some y => Ok y | None => Err end
  end.

(** lines 280-304 for a hierarchical basis *)
Definition indexFromVertH (b : hbasis) (index : nat) (c : corner) (s : side) (offset : nat) : res nat :=
  if (index =? 0) && (offset =? 0) then hcorner b c else indexFromVertH_impl b index c s offset.
