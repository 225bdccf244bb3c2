(** Model of the choice of the gluing data at a vertex: kindOfVertex and selectGD (src/gsC1SurfVertex.h:80-91, 446-582).

    Simplifications: the interfaces are those computed by computeAuxTopology (gsMultiPatch::computeTopology belongs to the core);
    a side is a patch and the index of the side; the gluing data of two patches (right, left) are given by a function ([sol] and
    [solBeta], SurfGDModel.v); an entry of the matrix which is not assigned is [None] (the constructor of line 448 leaves it
    uninitialised). *)
From Coq Require Import Reals.
From Verif Require Import Common.
Open Scope R_scope.

(** a side: patch and index (1 west, 2 east, 3 south, 4 north) *)
Record pside := mkPS { pspatch : nat; psindex : nat }.
(** an interface: first() and second() *)
Record iface := mkIF { first : pside; second : pside }.

(** src/gsC1SurfVertex.h:80-91 kindOfVertex *)
Definition kindOfVertex (n : nat) (ifs : list iface) : Z :=
  if (n =? 1)%nat then -1
  else if (n =? length ifs)%nat then 0
  else 1.

Definition gmat := nat -> nat -> option R.
(** coefs(i, j) = x *)
Definition gset (m : gmat) (i j : nat) (x : R) : gmat := fun r c => if (r =? i)%nat && (c =? j)%nat then Some x else m r c.

(** (i == iter.first().patch && iter.first().index() == k) || (i == iter.second().patch && iter.second().index() == k) *)
Definition onSide (i k : nat) (f : iface) : bool :=
  ((i =? pspatch (first f))%nat && (psindex (first f) =? k)%nat) || ((i =? pspatch (second f))%nat && (psindex (second f) =? k)%nat).

(** lines 457-467: the right and the left patch *)
Definition rightLeft (f : iface) : nat * nat :=
  if (psindex (first f) =? 1)%nat then (pspatch (first f), pspatch (second f)) else (pspatch (second f), pspatch (first f)).

(** lines 478-485, 555-562 *)
Definition setLeft (sol solB : nat -> R) (m : gmat) : gmat :=
  gset (gset (gset (gset m 0 0 (sol 2%nat)) 1 0 (sol 3%nat)) 2 0 (solB 2%nat)) 3 0 (solB 3%nat).
(** lines 487-495, 564-572 *)
Definition setRight (sol solB : nat -> R) (m : gmat) : gmat :=
  gset (gset (gset (gset m 0 1 (sol 0%nat)) 1 1 (sol 1%nat)) 2 1 (solB 0%nat)) 3 1 (solB 1%nat).
(** lines 499-510 *)
Definition setLeftBdy (sol solB : nat -> R) (m : gmat) : gmat :=
  gset (gset (gset (gset (gset (gset (gset (gset m 0 0 (sol 2%nat)) 0 1 1) 1 0 (sol 3%nat)) 1 1 1) 2 0 (solB 2%nat)) 2 1 0) 3 0 (solB 3%nat)) 3 1 0.
(** lines 511-522 *)
Definition setRightBdy (sol solB : nat -> R) (m : gmat) : gmat :=
  gset (gset (gset (gset (gset (gset (gset (gset m 0 0 1) 0 1 (sol 0%nat)) 1 0 1) 1 1 (sol 1%nat)) 2 0 0) 2 1 (solB 0%nat)) 3 0 0) 3 1 (solB 1%nat).

(** src/gsC1SurfVertex.h:446-582 selectGD; [bdy0] and [bdy1] are isBdy[i][0] and isBdy[i][1] *)
Definition selectGD (n : nat) (ifs : list iface) (gds : nat -> nat -> (nat -> R) * (nat -> R)) (bdy0 bdy1 : bool) (i : nat) : gmat :=
  let coefs : gmat := fun _ _ => None in
  if (kindOfVertex n ifs =? 1)%Z then
    fold_left (fun m f =>
      if (i =? pspatch (first f))%nat || (i =? pspatch (second f))%nat then
        let '(r, l) := rightLeft f in
        let '(sol, solB) := gds r l in
        if negb bdy0 && negb bdy1 then
          if onSide i 3 f then setLeft sol solB m else if onSide i 1 f then setRight sol solB m else m
        else
          if onSide i 3 f then setLeftBdy sol solB m else if onSide i 1 f then setRightBdy sol solB m else m
      else m) ifs coefs
  else if (kindOfVertex n ifs =? -1)%Z then
    gset (gset (gset (gset (fun _ _ => Some 0) 0 0 1) 0 1 1) 1 0 1) 1 1 1
  else if (kindOfVertex n ifs =? 0)%Z then
    fold_left (fun m f =>
      if (i =? pspatch (first f))%nat || (i =? pspatch (second f))%nat then
        let '(r, l) := rightLeft f in
        let '(sol, solB) := gds r l in
        if onSide i 3 f then setLeft sol solB m else if onSide i 1 f then setRight sol solB m else m
      else m) ifs coefs
  else coefs.
