(** What refinement with coefficients is meant to do. *)
From Verif Require Import Common TopoModel HbModel.

(** [value h c x]: the spline with the coefficients [c] at [x].  refineElements_withCoefs of one patch (G+Smo core) keeps it. *)
Definition core_ok {C X V} (hsz : hbasis -> nat) (refC : hbasis -> list hbox -> list C -> res (list C)) (value : hbasis -> list C -> X -> V) : Prop :=
  forall h add c, length c = hsz h -> exists c', refC h add c = Ok c' /\ length c' = hsz (refineElements h add) /\
    forall x, value (refineElements h add) c' x = value h c x.

(** number of functions of all patches, and of those before patch [p] *)
Definition total (hsz : hbasis -> nat) (bs : list hbasis) : nat := fold_right (fun h n => hsz h + n) 0 bs.
Definition before (hsz : hbasis -> nat) (bs : list hbasis) (p : nat) : nat := total hsz (firstn p bs).
(** the rows of patch [p] *)
Definition rows {C} (hsz : hbasis -> nat) (bs : list hbasis) (c : list C) (p : nat) : list C :=
  match nth_error bs p with None => [] | Some h => firstn (hsz h) (skipn (before hsz bs p) c) end.

(** the same spline on every patch *)
Definition same_splines {C X V} (hsz : hbasis -> nat) (value : hbasis -> list C -> X -> V) (bs : list hbasis) (c : list C) (bs' : list hbasis) (c' : list C) : Prop :=
  length bs' = length bs /\ length c' = total hsz bs' /\
  forall p h h', nth_error bs p = Some h -> nth_error bs' p = Some h' -> forall x, value h' (rows hsz bs' c' p) x = value h (rows hsz bs c p) x.
