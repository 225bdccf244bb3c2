(** What the property C65 says. *)
From Verif Require Import Common TopoModel BaseModel IndexSpec HierModel.

(** the function of a tensor basis at the distances [a], [a'] from a corner *)
Definition at_dist (b : tbasis) (c : corner) (a a' : nat) : nat :=
  (match c with SW | NW => a | SE | NE => fst b - 1 - a end) + fst b * (match c with SW | SE => a' | NW | NE => snd b - 1 - a' end).
(** the function at distance [k] along side [s] and [o] away from it *)
Definition at_side (b : tbasis) (c : corner) (s : side) (k o : nat) : nat :=
  match s with West | East => at_dist b c o k | South | North => at_dist b c k o end.
(** direction across and along a side *)
Definition dacross (s : side) : nat := match s with West | East => 0 | _ => 1 end.
Definition dalong (s : side) : nat := match s with West | East => 1 | _ => 0 end.
Definition dsize (b : tbasis) (d : nat) : nat := match d with 0 => fst b | _ => snd b end.

(** Two levels at a corner: a box of extent [e] is refined. [endp lev d k] is the end of the support of function [k] in direction [d],
    counted from the corner. A function of the finer level is used if its support lies in the box, a function of the coarser level if it
    does not. *)
Record two_levels (b : hbasis) (c : corner) (lc : nat) (endp : nat -> nat -> nat -> nat) (e : nat -> nat) : Prop := {
  tl_level : hlev b c = S lc;
  tl_max : 0 < hmax b;
  tl_pos : forall lev d, lev = lc \/ lev = S lc -> 0 < dsize (hten b lev) d;
  tl_corner : forall x, hflat b (S lc) (at_dist (hten b (S lc)) c 0 0) = Some x -> hcorner b c = Ok x;
  tl_first : hflat b (S lc) (at_dist (hten b (S lc)) c 0 0) <> None;
  tl_fine : forall a a', a < fst (hten b (S lc)) -> a' < snd (hten b (S lc)) ->
    hflat b (S lc) (at_dist (hten b (S lc)) c a a') <> None <-> endp (S lc) 0 a <= e 0 /\ endp (S lc) 1 a' <= e 1;
  tl_coarse : forall a a', a < fst (hten b lc) -> a' < snd (hten b lc) ->
    hflat b lc (at_dist (hten b lc) c a a') <> None <-> ~ (endp lc 0 a <= e 0 /\ endp lc 1 a' <= e 1);
  tl_mono : forall lev d k k', k <= k' -> endp lev d k <= endp lev d k' }.

(** The functions in use on a line parallel to a side: those of the finer level, then those of the coarser level, each in the order of
    their distance from the corner *)
Definition used (b : hbasis) (c : corner) (s : side) (o lev : nat) : list (nat * nat) :=
  map (fun k => (lev, k)) (filter (fun k => negb (isNone (hflat b lev (at_side (hten b lev) c s k o)))) (seq 0 (dsize (hten b lev) (dalong s)))).
Definition line (b : hbasis) (c : corner) (s : side) (o lc : nat) : list (nat * nat) := used b c s o (S lc) ++ used b c s o lc.

(** The bases of the D-patch, src/gsDPatch.hpp:144-330: [nel] elements and degree [p]; level 0 has simple knots, in the finer levels every
    knot has multiplicity [p]-1 (level 1: the same elements, level 2: the elements cut in half). The end of the support is counted in
    elements of the level. *)
Definition simple_end (nel k : nat) : nat := Nat.min nel (S k).
Definition multi_end (p nel k : nat) : nat := Nat.min nel (S (k / (p - 1))).
Definition dpatch_end (p nel : nat) (lev d k : nat) : nat := if lev =? 0 then simple_end nel k else multi_end p nel k.
(** the elements refined at the corner, lines 226-229 *)
Definition box (p r : nat) : nat := (if p <? 4 then 2 else 1) * 2 ^ r.
Definition multi_size (p nel : nat) : nat := p + 1 + (nel - 1) * (p - 1).

(** before refinement: levels 0 and 1 *)
Record dpatch0 (b : hbasis) (c : corner) (p nel r : nat) : Prop := {
  d0_two : two_levels b c 0 (dpatch_end p nel) (fun _ => box p r);
  d0_coarse : hten b 0 = (nel + p, nel + p);
  d0_fine : hten b 1 = (multi_size p nel, multi_size p nel) }.

(** after refinement: levels 0, 1 and 2; the functions of level 1 inside the box are replaced by those of level 2, those that are not
    inside are not used *)
Record dpatch1 (b : hbasis) (c : corner) (p nel r : nat) : Prop := {
  d1_level : hlev b c = 2;
  d1_corner : forall x, hflat b 2 (at_dist (hten b 2) c 0 0) = Some x -> hcorner b c = Ok x;
  d1_mid_size : hten b 1 = (multi_size p nel, multi_size p nel);
  d1_size : hten b 2 = (multi_size p (2 * nel), multi_size p (2 * nel));
  d1_mid : forall x, hflat b 1 x = None;
  d1_fine : forall a a', a < multi_size p (2 * nel) -> a' < multi_size p (2 * nel) ->
    hflat b 2 (at_dist (hten b 2) c a a') <> None <-> multi_end p (2 * nel) a <= 2 * box p r /\ multi_end p (2 * nel) a' <= 2 * box p r }.
