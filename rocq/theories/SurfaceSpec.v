(** Specification of the surface described by a patch (C45): tensor B-splines by the
    Cox-de Boor recursion, independent of the index expressions of the model. *)
From Verif Require Import Common TopoModel ReparamModel ReparamSpec.
Open Scope Q_scope.

(** B-spline of degree [deg] with knots k 0 <= ... <= k (deg+1); a quotient with zero
    denominator is zero (as in Q). *)
Fixpoint bspl (deg : nat) (k : nat -> Q) (t : Q) : Q :=
  match deg with
  | O => if Qle_bool (k 0%nat) t && negb (Qle_bool (k 1%nat) t) then 1 else 0
  | S d => (t - k 0%nat) / (k (S d) - k 0%nat) * bspl d k t
         + (k (S (S d)) - t) / (k (S (S d)) - k 1%nat) * bspl d (fun i => k (S i)) t
  end.

(** Basis function i of a component: degree = number of knots - number of functions - 1. *)
Definition knot (c : comp) (i : nat) : Q := nth i (cknots c) 0.
Definition cdegree (c : comp) : nat := (length (cknots c) - csize c - 1)%nat.
Definition bfun (c : comp) (i : nat) (t : Q) : Q := bspl (cdegree c) (fun k => knot c (i + k)) t.
Definition spline_comp (c : comp) : Prop := (csize c < length (cknots c))%nat.

(** One coordinate of the surface at the parameter (x,y). *)
Definition surface {A} (coord : A -> Q) (p : patch A) (xy : Q * Q) : Q :=
  sumQ (map (fun v => sumQ (map (fun u =>
    match at_ p u v with Some a => coord a | None => 0 end * bfun (pU p) u (fst xy) * bfun (pV p) v (snd xy))
    (seq 0 (csize (pU p))))) (seq 0 (csize (pV p)))).

(** first + last knot: reflection of the parameter interval is t -> span - t *)
Definition span (c : comp) : Q := hd 0 (cknots c) + last (cknots c) 0.

(** How the operations move a parameter of a domain with spans (sU, sV). *)
Definition move (o : op) (s : Q * Q) (xy : Q * Q) : Q * Q :=
  match o with
  | OSwap => (snd xy, fst xy)
  | OAnti => (snd xy, fst s - fst xy)
  | OClock => (snd s - snd xy, fst xy)
  | OTwice => (fst s - fst xy, snd s - snd xy)
  end.
Definition move_spans (o : op) (s : Q * Q) : Q * Q := match o with OTwice => s | _ => (snd s, fst s) end.
Fixpoint moves (h : list op) (s : Q * Q) (xy : Q * Q) : Q * Q :=
  match h with [] => xy | o :: h' => moves h' (move_spans o s) (move o s xy) end.

(** the parameter lies on no knot line (there the one-sided convention of [bspl] matters) *)
Definition off_knots (c : comp) (t : Q) : Prop := Forall (fun k => ~ k == t) (cknots c).
