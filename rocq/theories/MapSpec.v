(** What the properties C31, C32, C33, C48, C49 say. *)
From Verif Require Import Common TopoModel MapModel.
Open Scope Z_scope.

(** number of functions in the first [p] patches *)
Fixpoint before (bs : list mbase) (p : nat) : Z :=
  match p, bs with
  | S q, b :: r => mb_u b * mb_v b + before r q
  | _, _ => 0
  end.

(** all positions of a box with the given largest coordinates *)
Definition in_box (lengths p : list Z) : Prop := Forall2 (fun l x => 0 <= x <= l) lengths p.

(** product of the numbers of values of the coordinates *)
Fixpoint box_size (lengths : list Z) : nat :=
  match lengths with [] => 1%nat | l :: r => (Z.to_nat (l + 1) * box_size r)%nat end.

(** Corner distances for which the regions fit together.  [h] and [v] tell whether the horizontal and the vertical side
    at the corner are interfaces; [lh], [lv] are the distances along them; [du], [dv] the degrees. *)
Definition corner_fits (h v : bool) (lh lv du dv : Z) : Prop :=
  match h, v with
  | true, true => (du <= lh \/ dv <= lv) /\ (lh <= du \/ dv <= lv) /\ (lv <= dv \/ du <= lh)
  | true, false => lh = 0 \/ lv = dv
  | false, true => lv = 0 \/ lh = du
  | false, false => (lh <= du \/ lv = 0) /\ (lv <= dv \/ lh = 0)
  end.

(** the distances fit on every side, patches have room for two strips *)
Record conf_ok (c : pconf) : Prop := {
  ok_du : 0 <= pdu c; ok_dv : 0 <= pdv c;
  ok_U : 2 * pdu c <= pU c; ok_V : 2 * pdv c <= pV c;
  ok_pos : forall x, 0 <= pH c x /\ 0 <= pW c x;
  ok_sw : corner_fits (pInt c South) (pInt c West) (sw_u (clamped c)) (sw_v (clamped c)) (pdu c) (pdv c);
  ok_se : corner_fits (pInt c South) (pInt c East) (se_u (clamped c)) (se_v (clamped c)) (pdu c) (pdv c);
  ok_nw : corner_fits (pInt c North) (pInt c West) (nw_u (clamped c)) (nw_v (clamped c)) (pdu c) (pdv c);
  ok_ne : corner_fits (pInt c North) (pInt c East) (ne_u (clamped c)) (ne_v (clamped c)) (pdu c) (pdv c) }.

Definition in_patch (c : pconf) (x : Z * Z) : Prop := 0 <= fst x < pU c /\ 0 <= snd x < pV c.

(** *** What should happen with a function (C48) *)

(** distance to the vertical / horizontal side at the corner *)
Definition cdi (c : pconf) (k : corner) (x : Z * Z) : Z := if cpar0 k then pU c - 1 - fst x else fst x.
Definition cdj (c : pconf) (k : corner) (x : Z * Z) : Z := if cpar1 k then pV c - 1 - snd x else snd x.
Definition vside (k : corner) : side := if cpar0 k then East else West.
Definition hside (k : corner) : side := if cpar1 k then North else South.

(** distances of a corner after they have been cut to fit *)
Definition lh (c : pconf) (k : corner) : Z := match k with SW => sw_u (clamped c) | SE => se_u (clamped c) | NW => nw_u (clamped c) | NE => ne_u (clamped c) end.
Definition lv (c : pconf) (k : corner) : Z := match k with SW => sw_v (clamped c) | SE => se_v (clamped c) | NW => nw_v (clamped c) | NE => ne_v (clamped c) end.

(** Distances as they are set up for a vertex: at least the degree along interfaces of a special vertex, exactly the degree
    for a regular vertex between interfaces, zero along an interface that ends on the boundary in a regular vertex, zero or
    the degree along the boundary. *)
Definition natural_corner (c : pconf) (k : corner) : Prop :=
  match pInt c (hside k), pInt c (vside k), pSpec c k with
  | true, true, true => pdu c <= lh c k /\ pdv c <= lv c k
  | true, true, false => lh c k = pdu c /\ lv c k = pdv c
  | true, false, true => lv c k = pdv c
  | true, false, false => lh c k = 0 /\ (lv c k = 0 \/ lv c k = pdv c)
  | false, true, true => lh c k = pdu c
  | false, true, false => lv c k = 0 /\ (lh c k = 0 \/ lh c k = pdu c)
  | false, false, true => lh c k = pdu c /\ lv c k = pdv c
  | false, false, false => (lh c k = 0 \/ lh c k = pdu c) /\ (lv c k = 0 \/ lv c k = pdv c)
  end.

Record natural (c : pconf) : Prop := {
  nt_du : 2 <= pdu c; nt_dv : 2 <= pdv c; nt_U : 2 * pdu c <= pU c; nt_V : 2 * pdv c <= pV c;
  nt_pos : forall x, 0 <= pH c x /\ 0 <= pW c x;
  nt_corner : forall k, natural_corner c k }.

(** the function lies in the strips along the sides at a special corner, within its distances *)
Definition special_zone (c : pconf) (x : Z * Z) (k : corner) : bool :=
  pSpec c k && (cdi c k x <? lh c k) && (cdj c k x <? lv c k) && ((cdi c k x <? pdu c) || (cdj c k x <? pdv c)).

(** the interface (south or north; west or east) whose strip contains the function, and the distance to it *)
Definition near_h (c : pconf) (x : Z * Z) : option (side * Z) :=
  if pInt c South && (snd x <? pdv c) then Some (South, snd x)
  else if pInt c North && (pV c - 1 - snd x <? pdv c) then Some (North, pV c - 1 - snd x) else None.
Definition near_v (c : pconf) (x : Z * Z) : option (side * Z) :=
  if pInt c West && (fst x <? pdu c) then Some (West, fst x)
  else if pInt c East && (pU c - 1 - fst x <? pdu c) then Some (East, pU c - 1 - fst x) else None.

(** Near a special vertex only continuity is imposed: the corner function is joined with those of all patches at the vertex,
    functions on an interface with their counterpart.  Elsewhere functions in the strip of one interface are combined across
    it, functions in two strips across both, with as many functions as the degree across the interface; all others are
    free. *)
Definition expected (c : pconf) (x : Z * Z) : act :=
  match find (special_zone c x) [SW; SE; NW; NE] with
  | Some k =>
      if (cdi c k x =? 0) && (cdj c k x =? 0) then Singular
      else if pInt c (vside k) && (cdi c k x =? 0) then Line (vside k) 1 0
      else if pInt c (hside k) && (cdj c k x =? 0) then Line (hside k) 1 0
      else Free
  | None =>
      match near_h c x, near_v c x with
      | Some (s, j), Some (s', i) => Block s s' (pdv c) (pdu c) j i
      | Some (s, j), None => Line s (pdv c) j
      | None, Some (s', i) => Line s' (pdu c) i
      | None, None => Free
      end
  end.

(** two distances [a], [b] on a side with [n] functions become [x], [y]: unchanged if they fit, otherwise equal shares of the side *)
Definition shared (n a b x y : Z) : Prop := 0 <= x /\ 0 <= y /\ (a + b <= n -> x = a /\ y = b) /\ (n < a + b -> x + y = n /\ x <= y <= x + 1).
