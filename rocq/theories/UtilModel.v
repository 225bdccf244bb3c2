(** Model of getCompBasisFromMultiPatch and getCompBasisFromMultiPatch_withCoefs (src/gsMPBESUtils.h:15-83): which composite basis is made from the bases of the patches, and
    what happens to the copies made on the way.

    Simplifications: the heap holds the copies made here only; the constructors of the composite bases (ObjModel.v), which copy the bases they get, are arguments [newB] and
    [newH], the coefficients of the second function included; of the dynamic type of a basis only its kind counts. *)
From Verif Require Import Common.

Inductive bkind := Tensor | Hierarchical | Other.
Definition kind_eqb (a b : bkind) : bool := match a, b with Tensor, Tensor | Hierarchical, Hierarchical | Other, Other => true | _, _ => false end.

Section Bases.
Variables B X : Type.
(** the dynamic type *)
Variable kindOf : B -> bkind.
(** new gsMPBESBSplineBasis(...) and new gsMPBESHSplineBasis(...) *)
Variables newB newH : list B -> res X.

(** objects allocated and not freed, with their addresses, and the next address *)
Record heap := mkHeap { live : list (nat * B); next : nat }.
(** clone().release() *)
Definition alloc (h : heap) (b : B) : heap * nat := (mkHeap (live h ++ [(next h, b)]) (S (next h)), next h).
(** delete of a null pointer does nothing, delete of an object that does not exist is undefined *)
Definition free (h : heap) (p : option nat) : res heap :=
  match p with
  | None => Ok h
  | Some a => if existsb (fun x => fst x =? a) (live h) then Ok (mkHeap (filter (fun x => negb (fst x =? a)) (live h)) (next h)) else Err
  end.
(** freeAll (G+Smo core) *)
Definition freeAll (ps : list (option nat)) (h : heap) : res heap := foldM free ps h.
Definition deref (h : heap) (p : option nat) : res B :=
  match p with
  | None => Err
  | Some a => match find (fun x => fst x =? a) (live h) with Some x => Ok (snd x) | None => Err end
  end.
(** src/gsMPBESUtils.h:22-26, 32-36, 54-58, 64-68: the copies, null where the cast to the kind [k] fails *)
Definition cloneStep (k : bkind) (st : heap * list (option nat)) (b : B) : heap * list (option nat) :=
  let '(h, ps) := st in
  let '(h', a) := alloc h b in
  (h', ps ++ [if kind_eqb (kindOf b) k then Some a else None]).
Definition cloneAll (k : bkind) (h : heap) (mp : list B) : heap * list (option nat) := fold_left (cloneStep k) mp (h, []).
(** tensorBSpline and hTensor *)
Definition noneNull (ps : list (option nat)) : bool := forallb (fun p => match p with Some _ => true | None => false end) ps.
(** src/gsMPBESUtils.h:15-45, 48-83; [debug]: GISMO_ASSERT is active *)
Definition getCompBasis (debug : bool) (mp : list B) (h : heap) : res (option X * heap) :=
  let '(h1, ts) := cloneAll Tensor h mp in
  do r <- (if noneNull ts then
             do bs <- mapM (deref h1) ts; do x <- newB bs; Ok (Some x, h1, true)
           else
             let '(h2, hs) := cloneAll Hierarchical h1 mp in
             do x <- (if noneNull hs then do bs <- mapM (deref h2) hs; do x <- newH bs; Ok (Some x) else Ok None);
             do h3 <- freeAll hs h2;
             Ok (x, h3, noneNull hs));
  let '(x, h4, found) := r in
  do h5 <- freeAll ts h4;
  do _ <- ensure (negb debug || found);
  Ok (x, h5).
End Bases.
