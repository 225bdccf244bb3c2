(** The treatment of extraordinary vertices in the D-patch construction, src/gsDPatch.hpp:331-577 (_computeEVs).

    Simplifications: real arithmetic is exact; matrices are functions of row and column. _indexFromVert on the two bases, the two
    mappers (with their assertions is_free) and the transfer matrix of the refined bases are given. The corner lists come from
    gsBoxTopology::getEVs (core). *)
From Coq Require Import Reals.
From Verif Require Import Common TopoModel PiModel PiSpec.
Open Scope nat_scope.

Definition matrix := nat -> nat -> R.

(** [ev_ix], [ev_ix0]: _indexFromVert(m_bases,index,corner,side,offset), _indexFromVert(m_bases0,...);
    [ev_mo], [ev_mm]: is_free and index of m_mapOriginal, m_mapModified (local index, patch) *)
Record evin := mkEV {
  ev_t : topo;
  ev_ix : nat -> pcorner -> side -> nat -> res nat;
  ev_ix0 : nat -> pcorner -> side -> nat -> res nat;
  ev_mo : nat -> nat -> res nat;
  ev_mm : nat -> nat -> res nat;
  ev_opt : Z; ev_beta : R; ev_ref : nat }.

(** std::map<index_t,index_t>: insert keeps an existing entry, operator[] gives 0 for a missing one *)
Definition pmap := list (nat * nat).
Definition plook (m : pmap) (k : nat) : nat := match find (fun e => fst e =? k) m with Some e => snd e | None => 0 end.
Definition pinsert (m : pmap) (k v : nat) : pmap := if existsb (fun e => fst e =? k) m then m else m ++ [(k, v)].

(** *** The walk around the vertex, lines 386-428 *)
Record wstate := mkW { w_corner : pcorner; w_side : pside; w_other : option pcorner; w_patches : pmap; w_corners : list pcorner; w_ifaces : list iface }.

(** lines 401-408: the corner of the neighbouring side that belongs to the vertex; the last match counts *)
Definition findOther (l : list pcorner) (ps : pside) (old : option pcorner) : option pcorner :=
  fold_left (fun o c =>
    if pc_eqb c (fst ps, nth 0 (contained_corners (snd ps)) SW) || pc_eqb c (fst ps, nth 1 (contained_corners (snd ps)) SW) then Some c else o) l old.

(** lines 391-427, one step *)
Definition walkStep (t : topo) (l : list pcorner) (st : wstate) (i : nat) : res wstate :=
  let patches := pinsert (w_patches st) (fst (w_side st)) i in
  match getInterface t (w_side st) with
  | None => Err
  | Some f =>
      do os <- getNeighbour t (w_side st);
      match findOther l os (w_other st) with
      | None => Err
      | Some oc =>
          let s0 := (fst oc, cside (snd oc) 0) in let s1 := (fst oc, cside (snd oc) 1) in
          do ns <- (if ps_eqb os s0 then Ok s1 else if ps_eqb os s1 then Ok s0 else Err);
          Ok (mkW oc ns (Some oc) patches (w_corners st ++ [w_corner st]) (w_ifaces st ++ [f]))
      end
  end.

Definition walk (t : topo) (l : list pcorner) : res wstate :=
  match l with
  | [] => Err
  | c :: _ => foldM (walkStep t l) (seq 0 (length l)) (mkW c (fst c, cside (snd c) 0) None [] [] [])
  end.

(** *** The indices 11, 21, 12, lines 430-459 *)
Definition three := (list nat * list nat * list nat)%type.
Definition sidesOf (f : iface) (c : pcorner) : pside * pside := if fst (if1 f) =? fst c then (if1 f, if2 f) else (if2 f, if1 f).

Definition cijStep (ix : nat -> pcorner -> side -> nat -> res nat) (patches : pmap) (st : three) (cf : pcorner * iface) : res three :=
  let '(a, b, c) := st in let (corner, f) := cf in
  do oc <- imapCorner f corner;
  let (sd, os) := sidesOf f corner in
  do x0 <- ix 1 corner (snd sd) 1;
  do a <- vset a (plook patches (fst sd)) x0;
  do x1 <- ix 2 oc (snd os) 1;
  do b <- vset b (plook patches (fst os)) x1;
  do x2 <- ix 2 corner (snd sd) 1;
  do c <- vset c (plook patches (fst sd)) x2;
  Ok (a, b, c).

Definition cijs (ix : nat -> pcorner -> side -> nat -> res nat) (w : wstate) (N : nat) : res three :=
  foldM (cijStep ix (w_patches w)) (combine (w_corners w) (w_ifaces w)) (repeat 0 N, repeat 0 N, repeat 0 N).

(** lines 461-478: to the numbering of the matrix; entry [i] belongs to the patch of corner [i] *)
Definition numbered (m : nat -> nat -> res nat) (w : wstate) (x : list nat) : res (list nat) :=
  mapM (fun ci => m (snd ci) (fst (fst ci))) (combine (w_corners w) x).
Definition numbered3 (m : nat -> nat -> res nat) (w : wstate) (x : three) : res (list (list nat)) :=
  let '(a, b, c) := x in mapM (numbered m w) [a; b; c].

(** *** The entries *)
Definition entries := list (nat * nat * R).
(** src/gsDPatchBase.h:321-330 _push *)
Definition push1 (A : matrix) (e : nat * nat * R) : matrix := fun r c => if (r =? fst (fst e)) && (c =? snd (fst e)) then snd e else A r c.
Definition push (A : matrix) (E : entries) : matrix := fold_left push1 E A.

Definition at2 (X : list (list nat)) (k i : nat) : nat := nth i (nth k X []) 0.

(** lines 480-496 *)
Definition piEntries (A : matrix) (Pi : matrix) (N : nat) (rows cij : list (list nat)) : entries :=
  flat_map (fun i => flat_map (fun k =>
    let c := fun x => A (at2 rows k i) (at2 cij (x / N) (x mod N)) in
    flat_map (fun j => map (fun l => (at2 rows k i, at2 cij l j, papply (3 * N) Pi c (j + l * N))) (seq 0 3)) (seq 0 N)) (seq 0 3)) (seq 0 N).

(** lines 503-530 *)
Definition gcol (I : evin) (k : nat) (c : pcorner) (s : side) (o : nat) : res nat := do x <- ev_ix I k c s o; ev_mo I x (fst c).
Definition centreEntries (I : evin) (A : matrix) (w : wstate) (N : nat) (rows cij : list (list nat)) : res entries :=
  do cols <- mapM (fun c => mapM (fun x => gcol I (fst x) c (cside (snd c) (snd x)) 0) [(0, 0); (1, 0); (1, 1)]) (w_corners w);
  Ok (flat_map (fun i => flat_map (fun j => flat_map (fun k =>
        map (fun x => (at2 rows k i, x, A (at2 rows k i) (at2 cij 0 j))) (nth j cols [])) (seq 0 3)) (seq 0 N)) (seq 0 N)).

(** lines 537-571 *)
Definition ifaceEntries (I : evin) (A : matrix) (w : wstate) (N : nat) (rows : list (list nat)) : res entries :=
  do es <- mapM (fun f =>
    do c <- vget (w_corners w) (plook (w_patches w) (fst (if1 f)));
    do oc <- vget (w_corners w) (plook (w_patches w) (fst (if2 f)));
    do e <- mapM (fun k =>
      do j0k <- (do x <- ev_ix I k c (snd (if1 f)) 0; ev_mo I x (fst (if1 f)));
      do jk0 <- (do x <- ev_ix I k oc (snd (if2 f)) 0; ev_mo I x (fst (if2 f)));
      do jk1 <- (do x <- ev_ix I k c (snd (if1 f)) 1; ev_mo I x (fst (if1 f)));
      do j1k <- (do x <- ev_ix I k oc (snd (if2 f)) 1; ev_mo I x (fst (if2 f)));
      Ok (flat_map (fun l => flat_map (fun r => let row := at2 rows l r in
            let v := (/ 2 * (A row jk1 + A row j1k))%R in [(row, j0k, v); (row, jk0, v)]) (seq 0 N)) (seq 0 3))) [2; 3];
    Ok (concat e)) (w_ifaces w);
  Ok (concat es).

(** lines 370-574: one vertex; the entries of the last stage stay in the list for the next vertex *)
Definition computeEV (I : evin) (st : matrix * entries) (l : list pcorner) : res (matrix * entries) :=
  let (A, E) := st in
  let N := length l in
  do w <- walk (ev_t I) l;
  do cij <- cijs (ev_ix I) w N;
  do cijo <- cijs (ev_ix0 I) w N;
  do rows <- numbered3 (ev_mm I) w cijo;
  do cols <- numbered3 (ev_mo I) w cij;
  do Pi <- makePi (ev_opt I) (ev_beta I) (ev_ref I) N;
  let A1 := push A (E ++ piEntries A Pi N rows cols) in
  do E2 <- centreEntries I A1 w N rows cols;
  let A2 := push A1 E2 in
  do E3 <- ifaceEntries I A2 w N rows;
  Ok (push A2 E3, E3).

(** m_matrix * m_tMatrix.transpose(), [n] functions before the refinement *)
Definition refined (n : nat) (A T : matrix) : matrix := fun r c => rsum n (fun k => (A r k * T c k)%R).

Definition computeEVs (I : evin) (n : nat) (A T : matrix) (evs : list (list pcorner)) : res matrix :=
  match evs with
  | [] => Ok A
  | _ => do st <- foldM (computeEV I) evs (refined n A T, []); Ok (fst st)
  end.
