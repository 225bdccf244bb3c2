(** Vocabulary of property C80. *)
From Verif Require Import Common.
From Verif Require Import SigmaModel.
Open Scope nat_scope.

(** Knots of degree q which begin with the elements [0,x] and [x,y] (y only if there are two). *)
Definition starts (q : nat) (x : Q) (d : sdir) : Prop := sdeg d = q /\ exists r, sknots d = repeat 0%Q (S q) ++ x :: r.
Definition starts2 (q : nat) (y : Q) (d : sdir) : Prop := sdeg d = q /\ exists x r, sknots d = repeat 0%Q (S q) ++ x :: y :: r.

(** The piece used for the i-th patch has degree q and its first elements are as long as x and y. *)
Definition piece_starts (a : spatch) (k q : nat) (e : Q * Q) : Prop :=
  exists b, nth_error (spPieces a) (k + 4) = Some b /\ starts q (fst e) (fst b) /\ starts q (snd e) (snd b).
Definition geo_starts2 (q : nat) (a : spatch) (e : Q * Q) : Prop := starts2 q (fst e) (fst (spGeo a)) /\ starts2 q (snd e) (snd (spGeo a)).

(** Both lengths of every element. *)
Definition lengths (es : list (Q * Q)) : list Q := flat_map (fun e => [fst e; snd e]) es.

(** m is the smallest / largest of l (up to Qeq). *)
Definition smallest (l : list Q) (m : Q) : Prop := (exists x, In x l /\ x == m)%Q /\ forall x, In x l -> (m <= x)%Q.
Definition largest (l : list Q) (m : Q) : Prop := (exists x, In x l /\ x == m)%Q /\ forall x, In x l -> (x <= m)%Q.

(** n is the largest absolute value of l. *)
Definition inf_norm (l : list Q) (n : Q) : Prop := (l = [] /\ n == 0 \/ exists x, In x l /\ (x == n \/ x == - n))%Q /\ forall x, In x l -> (- n <= x /\ x <= n)%Q.
Definition norms (aux : list spatch) (ns : list Q) : Prop := Forall2 (fun a n => inf_norm (spDeriv a) n) aux ns.

(** The same situation with the geometry magnified by the factor t. *)
Definition magnified (t : Q) (a a' : spatch) : Prop := spPieces a' = spPieces a /\ spGeo a' = spGeo a /\ Forall2 (fun x x' => (x' == t * x)%Q) (spDeriv a) (spDeriv a').

Definition ofN (n : nat) : Q := inject_Z (Z.of_nat n).
