(** Model of gsContainerBasis (src/gsContainerBasis.h): a list of tensor-product bases used as one basis.
    X is the type of evaluation points; one point (column) at a time. *)
From Verif Require Import Common TopoModel BaseModel.

(** A piece (gsTensorBSplineBasis, external): numbers of functions, degrees, indices of the functions active at
    a point, rows of eval_into (k = 0), deriv_into (k = 1), deriv2_into (k = 2), support of a function. *)
Record cpiece (X S : Type) := mkCP {
  cp_tb : tbasis; cp_deg : nat * nat; cp_act : X -> list nat; cp_rows : nat -> X -> list Q; cp_sup : nat -> S }.
Arguments mkCP {X S}. Arguments cp_tb {X S}. Arguments cp_deg {X S}. Arguments cp_act {X S}.
Arguments cp_rows {X S}. Arguments cp_sup {X S}.

Section Container.
Context {X S : Type}.
Notation piece := (cpiece X S).

(** src/gsContainerBasis.h:86-96 *)
Definition cdegree (l : list piece) (dir : nat) : nat :=
  fold_left (fun deg b => let d := match dir with 0 => fst (cp_deg b) | _ => snd (cp_deg b) end in
                          if deg <? d then d else deg) l 0.

(** src/gsContainerBasis.h:98-103 *)
Definition csize (l : list piece) : nat := fold_left (fun sz b => sz + tsize (cp_tb b)) l 0.

(** src/gsContainerBasis.h:197-223 *)
Definition cactive (l : list piece) (u : X) : list nat :=
  snd (fold_left (fun st b => (fst st + tsize (cp_tb b), snd st ++ map (fun i => i + fst st) (cp_act b u))) l (0, [])).

(** src/gsContainerBasis.h:225-262 (eval_into, deriv_into, deriv2_into) *)
Definition crows (l : list piece) (k : nat) (u : X) : list Q :=
  fold_left (fun result b => result ++ cp_rows b k u) l [].

(** shift of piece [id]: loops i < id, e.g. src/gsContainerBasis.h:315-317; reading a missing piece is an error *)
Definition cshift (l : list piece) (id : nat) : res nat :=
  foldM (fun sh i => do b <- vget l i; Ok (sh + tsize (cp_tb b))) (seq 0 id) 0.

(** gsTensorBasis::boundaryOffset with its assertion offset+1 <= size in the direction of the side *)
Definition pieceOffset (b : tbasis) (s : side) (o : nat) : res (list nat) :=
  do _ <- ensure (o <? match side_dir s with 0 => fst b | _ => snd b end);
  Ok (boundaryOffset b s o).

(** one block of boundaryOffset: src/gsContainerBasis.h:314-319, 339-346 *)
Definition shiftedOffset (l : list piece) (id : nat) (s : side) (o : nat) : res (list nat) :=
  do sh <- cshift l id;
  do b <- vget l id;
  do r <- pieceOffset (cp_tb b) s o;
  Ok (map (fun i => i + sh) r).

(** src/gsContainerBasis.h:294-353 *)
Definition cboundaryOffset (l : list piece) (s : side) (o : nat) : res (list nat) :=
  if negb (length l =? 1) then
    do r <- shiftedOffset l (side_ix s) s o;
    foldM (fun result c => do t <- shiftedOffset l (corner_ix c + 4) s o; Ok (result ++ t)) (contained_corners s) r
  else
    do b <- vget l 0; pieceOffset (cp_tb b) s o.

(** src/gsContainerBasis.h:355-369 *)
Definition cfunctionAtCorner (l : list piece) (c : corner) : res nat :=
  if negb (length l =? 1) then
    do sh <- cshift l (corner_ix c + 4);
    do b <- vget l (corner_ix c + 4);
    Ok (functionAtCorner (cp_tb b) c + sh)
  else
    do b <- vget l 0; Ok (functionAtCorner (cp_tb b) c).

(** src/gsContainerBasis.h:171-174; gsTensorBasis::support(i) of an index that is out of range is an error *)
Definition csupport (l : list piece) (i : nat) : res S :=
  do b <- vget l 0;
  do _ <- ensure (i <? tsize (cp_tb b));
  Ok (cp_sup b i).

(** src/gsContainerBasis.h:375, setBasis(row,basis) *)
Definition csetBasis (l : list piece) (row : nat) (b : piece) : res (list piece) := vset l row b.

End Container.
