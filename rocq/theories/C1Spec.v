(** Specification of the assembled C1 bases (C26, C27, C46, C47), without offsets: the rows are
    listed as functions, the columns as triples (patch, piece, local number). *)
From Verif Require Import Common TopoModel BaseModel C1Model.

(** A basis function of the C1 space. *)
Inductive c1fun :=
| FInner (p i j : nat)           (* tensor-product function (i,j) of patch p *)
| FIface (k : nat) (f : bool * nat)
| FBoundary (k : nat) (f : bool * nat)
| FVertex (k n : nat).

(** Inner functions of a patch: all but the two outer rows on every side. *)
Definition inner_functions (p : nat) (b : kvec * kvec) : list c1fun :=
  flat_map (fun j => map (fun i => FInner p i j) (seq 2 (kvsize (fst b) - 4))) (seq 2 (kvsize (snd b) - 4)).

(** Edge functions: of the n functions of the plus space without the first and last three, of the
    minus space without the first and last two. *)
Definition edge_functions (F : bool * nat -> c1fun) (np nm : nat) : list c1fun :=
  map (fun i => F (true, i)) (seq 3 (np - 6)) ++ map (fun i => F (false, i)) (seq 2 (nm - 4)).

(** Dimension of the plus space on a univariate basis: multiplicities lowered by one, unless the
    first one is 1; that of the minus space is one less. *)
Definition lowered (red : nat -> nat) (b : kvec) : nat := sumN (map red (map snd (kvin b))).
Definition plus_dim (red : nat -> nat) (b : kvec) : nat :=
  kvdeg b + 1 + match map snd (kvin b) with 1 :: _ => sumN (map snd (kvin b)) | _ => lowered red b end.

(** The component of the basis along a side. *)
Definition side_basis (I : c1in) (ps : pside) (b : kvec) : Prop :=
  exists uv, nth_error (c1basis I) (fst ps) = Some uv /\
    b = match snd ps with West | East => snd uv | South | North => fst uv end.

(** The basis that decides about the functions of an interface: the one with fewer elements, the
    first one when the numbers agree. *)
Definition decides (I : c1in) (f : iface) (b : kvec) : Prop :=
  exists b1 b2, side_basis I (if1 f) b1 /\ side_basis I (if2 f) b2 /\
    (length (kvin b1) <= length (kvin b2) /\ b = b1 \/ length (kvin b2) < length (kvin b1) /\ b = b2).

(** All functions in the order of the rows. [N] gives the dimension of the plus space for every
    interface (by number) and every boundary side. *)
Definition all_functions (I : c1in) (Ni Nb : nat -> nat) : list c1fun :=
  flat_map (fun pb => inner_functions (fst pb) (snd pb)) (indexed (c1basis I)) ++
  flat_map (fun k => edge_functions (FIface k) (Ni k) (Ni k - 1)) (seq 0 (length (tif (c1topo I)))) ++
  flat_map (fun k => edge_functions (FBoundary k) (Nb k) (Nb k - 1)) (seq 0 (length (tbd (c1topo I)))) ++
  flat_map (fun k => map (FVertex k) (seq 0 6)) (seq 0 (length (c1verts I))).

(** All columns. *)
Definition piece_sizes (I : c1in) (pb : nat * (kvec * kvec)) : list nat :=
  kvsize (fst (snd pb)) * kvsize (snd (snd pb)) :: nth (fst pb) (c1more I) [].
Definition all_columns (I : c1in) : list (nat * nat * nat) :=
  flat_map (fun pb => flat_map (fun qn => map (fun j => (fst pb, fst qn, j)) (seq 0 (snd qn)))
                               (indexed (piece_sizes I pb))) (indexed (c1basis I)).

(** Where a function lives: (patch, piece, coefficients).  [surf]: one piece per patch. *)
Definition side_piece (surf : bool) (s : side) : nat :=
  if surf then 0 else match s with West => 1 | East => 2 | South => 3 | North => 4 end.
Definition corner_piece (surf : bool) (c : corner) : nat :=
  if surf then 0 else match c with SW => 5 | SE => 6 | NW => 7 | NE => 8 end.
Definition parts (surf : bool) (I : c1in) (F : c1fun) : list (nat * nat * list Q) :=
  match F with
  | FInner _ _ _ => []
  | FIface k f =>
      match nth_error (tif (c1topo I)) k with
      | Some it => [(fst (if1 it), side_piece surf (snd (if1 it)), c1icoef I k false f);
                    (fst (if2 it), side_piece surf (snd (if2 it)), c1icoef I k true f)]
      | None => []
      end
  | FBoundary k f =>
      match nth_error (tbd (c1topo I)) k with
      | Some ps => [(fst ps, side_piece surf (snd ps), c1bcoef I k f)]
      | None => []
      end
  | FVertex k n =>
      match nth_error (c1verts I) k with
      | Some l => map (fun mc => (fst (snd mc), corner_piece surf (snd (snd mc)), c1vcoef I k (fst mc) n)) (indexed l)
      | None => []
      end
  end.

(** Coefficients below the threshold are dropped. *)
Definition threshold (surf : bool) (F : c1fun) : Q :=
  match F with FIface _ _ => thr25 | _ => if surf then thr25 else thr20 end.
Definition cut (thr x : Q) : Q := if Qle_bool (x * x) thr then 0%Q else x.

(** Value in the row of [F] and the column (p,q,j). *)
Definition coef_value (surf : bool) (I : c1in) (F : c1fun) (c : nat * nat * nat) : Q :=
  match F, c with
  | FInner p i j, (p', q', m) =>
      match nth_error (c1basis I) p with
      | Some b => if (p' =? p) && (q' =? 0) && (m =? j * kvsize (fst b) + i) then 1%Q else 0%Q
      | None => 0%Q
      end
  | _, (p', q', m) =>
      sumQ (map (fun x => let '(p, q, cs) := x in
        if (p' =? p) && (q' =? q) then cut (threshold surf F) (nth m cs 0%Q) else 0%Q) (parts surf I F))
  end.

(** Value of a matrix given by its entries: entries at the same position are added. *)
Definition entry_sum (M : list entry) (r c : nat) : Q :=
  sumQ (map snd (filter (fun e => (fst (fst e) =? r) && (snd (fst e) =? c)) M)).

(** Conditions on the input. *)
Record c1_wf (surf : bool) (I : c1in) : Prop := {
  wf_geo : length (c1geo I) = length (c1basis I);
  wf_more : length (c1more I) = length (c1basis I);
  wf_pieces : forall p l, nth_error (c1more I) p = Some l -> length l = if surf then 0 else 8;
  wf_deg : forall b, In b (c1basis I) -> 1 <= kvdeg (fst b) /\ 1 <= kvdeg (snd b);
  (** patches refer to existing bases *)
  wf_if : forall f, In f (tif (c1topo I)) -> fst (if1 f) < length (c1basis I) /\ fst (if2 f) < length (c1basis I);
  wf_bd : forall ps, In ps (tbd (c1topo I)) -> fst ps < length (c1basis I);
  wf_vt : forall l, In l (c1verts I) -> l <> [] /\ (forall c, In c l -> fst c < length (c1basis I));
  (** every coefficient vector has the size of the piece *)
  wf_coefs : forall F p q cs, In (p, q, cs) (parts surf I F) ->
     forall pb, nth_error (c1basis I) p = Some pb -> nth_error (piece_sizes I (p, pb)) q = Some (length cs);
  (** at least four functions in each direction *)
  wf_dim : forall b, In b (c1basis I) -> 4 <= kvsize (fst b) /\ 4 <= kvsize (snd b) }.

(** gsApproxC1Spline: geometry without inner knots; an interface joins two different sides; the corners
    of a vertex are different. *)
Record approx_wf (I : c1in) : Prop := {
  aw_wf : c1_wf false I;
  aw_geo : forall g, In g (c1geo I) -> kvin (fst g) = [] /\ kvin (snd g) = [];
  aw_if : forall f, In f (tif (c1topo I)) -> if1 f <> if2 f;
  aw_vt : forall l, In l (c1verts I) -> NoDup l }.

(** [Ni], [Nb] are the dimensions of the plus spaces. *)
Definition approx_dims (I : c1in) (Ni Nb : nat -> nat) : Prop :=
  (forall k f, nth_error (tif (c1topo I)) k = Some f -> exists b, decides I f b /\ Ni k = plus_dim (c1red I) b) /\
  (forall k ps, nth_error (tbd (c1topo I)) k = Some ps -> exists b, side_basis I ps b /\ Nb k = plus_dim (c1red I) b).

(** gsC1SurfSpline: the basis is that of the geometry, with at least six functions in each direction. *)
Record surf_wf (I : c1in) : Prop := {
  sw_wf : c1_wf true I;
  sw_geo : c1geo I = c1basis I;
  sw_six : forall b, In b (c1basis I) -> 6 <= kvsize (fst b) /\ 6 <= kvsize (snd b) }.

(** Dimension of the plus space: multiplicities lowered by one. *)
Definition surf_dim (red : nat -> nat) (b : kvec) : nat := kvdeg b + 1 + lowered red b.

(** [Ni], [Nb] are these dimensions; the two sides of an interface agree; nowhere less than [least]. *)
Definition surf_dims (least : nat) (I : c1in) (Ni Nb : nat -> nat) : Prop :=
  (forall k f, nth_error (tif (c1topo I)) k = Some f -> least <= Ni k /\
     forall b, side_basis I (if1 f) b \/ side_basis I (if2 f) b -> Ni k = surf_dim (c1red I) b) /\
  (forall k ps, nth_error (tbd (c1topo I)) k = Some ps -> least <= Nb k /\
     forall b, side_basis I ps b -> Nb k = surf_dim (c1red I) b).
