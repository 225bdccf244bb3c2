(** Multipatch topology.

    The classes boxSide, boxCorner, patchSide, patchCorner, boundaryInterface
    and gsBoxTopology belong to the G+Smo core and are not part of /repo.  This
    file re-specifies the parts that the code in /repo calls (trusted base);
    each definition names the calls it stands for. *)
From Verif Require Import Common.

(** boxSide for d=2: 1=west 2=east 3=south 4=north
    (numbering as used in src/gsDPatchBase.hpp:243-262). *)
Inductive side := West | East | South | North.

(** boxCorner for d=2: 1=southwest 2=southeast 3=northwest 4=northeast
    (numbering as used in src/gsDPatchBase.hpp:325-362). *)
Inductive corner := SW | SE | NW | NE.

Definition side_eqb (a b : side) : bool :=
  match a, b with
  | West, West | East, East | South, South | North, North => true
  | _, _ => false
  end.

Definition corner_eqb (a b : corner) : bool :=
  match a, b with
  | SW, SW | SE, SE | NW, NW | NE, NE => true
  | _, _ => false
  end.

(** boxSide::index(), boxCorner index *)
Definition side_ix (s : side) : nat :=
  match s with West => 1 | East => 2 | South => 3 | North => 4 end.
Definition corner_ix (c : corner) : nat :=
  match c with SW => 1 | SE => 2 | NW => 3 | NE => 4 end.

(** boxSide::direction() (0 for west/east, 1 for south/north) and
    boxSide::parameter() (false for west/south, true for east/north). *)
Definition side_dir (s : side) : nat :=
  match s with West | East => 0 | South | North => 1 end.
Definition side_par (s : side) : bool :=
  match s with West | South => false | East | North => true end.

(** boxCorner::parameters(): which end of direction 0 / direction 1. *)
Definition cpar0 (c : corner) : bool := match c with SW | NW => false | _ => true end.
Definition cpar1 (c : corner) : bool := match c with SW | SE => false | _ => true end.
Definition corner_of (p0 p1 : bool) : corner :=
  match p0, p1 with
  | false, false => SW | true, false => SE | false, true => NW | true, true => NE
  end.

(** The side of direction [d] through corner [c]. *)
Definition cside (c : corner) (d : nat) : side :=
  match d with
  | 0 => if cpar0 c then East else West
  | _ => if cpar1 c then North else South
  end.

(** patchCorner::getContainingSides(2,sides): sides ordered by direction. *)
Definition containing_sides (c : corner) : list side := [cside c 0; cside c 1].

(** patchSide::getContainedCorners(2,corners): corners in increasing order. *)
Definition contained_corners (s : side) : list corner :=
  match s with
  | West => [SW; NW] | East => [SE; NE] | South => [SW; SE] | North => [NW; NE]
  end.

Definition on_side (c : corner) (s : side) : bool :=
  match side_dir s with
  | 0 => Bool.eqb (cpar0 c) (side_par s)
  | _ => Bool.eqb (cpar1 c) (side_par s)
  end.

Definition pside := (nat * side)%type.
Definition pcorner := (nat * corner)%type.
Definition ps_eqb (a b : pside) : bool := (fst a =? fst b) && side_eqb (snd a) (snd b).
Definition pc_eqb (a b : pcorner) : bool := (fst a =? fst b) && corner_eqb (snd a) (snd b).

(** boundaryInterface for d=2: two patch sides and whether the orientation of
    the second side is opposite to that of the first
    (directionOrientation of the tangential direction is 0). *)
Record iface := mkI { if1 : pside; if2 : pside; ifflip : bool }.

(** gsBoxTopology: number of boxes, list of interfaces, list of boundary sides. *)
Record topo := mkT { tnp : nat; tif : list iface; tbd : list pside }.

(** position (end) of corner [c] along side [s], and its inverse *)
Definition pos_on (s : side) (c : corner) : bool :=
  match side_dir s with 0 => cpar1 c | _ => cpar0 c end.
Definition corner_at (s : side) (p : bool) : corner :=
  match side_dir s with
  | 0 => corner_of (side_par s) p
  | _ => corner_of p (side_par s)
  end.

(** gsBoxTopology::isInterface(ps) *)
Definition isInterface (t : topo) (ps : pside) : bool :=
  existsb (fun f => ps_eqb (if1 f) ps || ps_eqb (if2 f) ps) (tif t).

(** gsBoxTopology::isBoundary(ps) *)
Definition isBoundary (t : topo) (ps : pside) : bool :=
  existsb (ps_eqb ps) (tbd t).

(** gsBoxTopology::getInterface(ps,iface): first interface having [ps]. *)
Definition getInterface (t : topo) (ps : pside) : option iface :=
  find (fun f => ps_eqb (if1 f) ps || ps_eqb (if2 f) ps) (tif t).

(** boundaryInterface::other(ps) *)
Definition iother (f : iface) (ps : pside) : res pside :=
  if ps_eqb (if1 f) ps then Ok (if2 f)
  else if ps_eqb (if2 f) ps then Ok (if1 f) else Err.

(** gsBoxTopology::getNeighbour(ps,result) *)
Definition getNeighbour (t : topo) (ps : pside) : res pside :=
  match getInterface t ps with
  | Some f => iother f ps
  | None => Err
  end.

(** boundaryInterface::mapCorner(c): if [c] lies on the first side it is mapped
    to the second side, otherwise if it lies on the second side it is mapped to
    the first, otherwise GISMO_ERROR. *)
Definition imapCorner (f : iface) (c : pcorner) : res pcorner :=
  if (fst c =? fst (if1 f)) && on_side (snd c) (snd (if1 f)) then
    Ok (fst (if2 f), corner_at (snd (if2 f)) (xorb (ifflip f) (pos_on (snd (if1 f)) (snd c))))
  else if (fst c =? fst (if2 f)) && on_side (snd c) (snd (if2 f)) then
    Ok (fst (if1 f), corner_at (snd (if1 f)) (xorb (ifflip f) (pos_on (snd (if2 f)) (snd c))))
  else Err.

(** Corners reached from [c] through its interface sides. *)
Definition corner_nbrs (t : topo) (c : pcorner) : res (list pcorner) :=
  foldM (fun acc s =>
           match getInterface t (fst c, s) with
           | Some f => do c' <- imapCorner f c; Ok (acc ++ [c'])
           | None => Ok acc
           end) (containing_sides (snd c)) [].

(** append the elements of [l] not yet present *)
Fixpoint add_new (vis l : list pcorner) : list pcorner :=
  match l with
  | [] => vis
  | c :: r => if existsb (pc_eqb c) vis then add_new vis r else add_new (vis ++ [c]) r
  end.

(** gsBoxTopology::getCornerList(start,list): breadth first search over the
    growing list; position [i] is the next corner to expand. *)
Fixpoint corner_bfs (fuel : nat) (t : topo) (vis : list pcorner) (i : nat) : res (list pcorner) :=
  match nth_error vis i with
  | None => Ok vis
  | Some c =>
      match fuel with
      | 0 => Err
      | S fuel' => do l <- corner_nbrs t c; corner_bfs fuel' t (add_new vis l) (S i)
      end
  end.

Definition cornerList (t : topo) (c : pcorner) : res (list pcorner) :=
  corner_bfs (4 * tnp t) t [c] 0.

(** the boolean returned by getCornerList: true when no side at the vertex is a
    boundary side *)
Definition vertex_inner (t : topo) (l : list pcorner) : bool :=
  forallb (fun c => forallb (fun s => isInterface t (fst c, s)) (containing_sides (snd c))) l.

Definition all_sides (n : nat) : list pside :=
  flat_map (fun p => map (fun s => (p, s)) [West; East; South; North]) (seq 0 n).
Definition all_corners (n : nat) : list pcorner :=
  flat_map (fun p => map (fun c => (p, c)) [SW; SE; NW; NE]) (seq 0 n).
