(** The weights of functions that are coupled across an interface (gsMPBESMapTensor.h 390-430).

    Knot vectors are ascending lists of reals with a degree. Real arithmetic is exact. *)
From Verif Require Import Common SplineModel.
Open Scope R_scope.

(** every knot times the weight of the side, gsMPBESMapTensor.h 400-405 *)
Definition scaleK (w : R) (l : list R) : list R := map (fun v => v * w) l.
(** gsKnotVector::reverse (core): mirrors the knots inside their interval *)
Definition revK (l : list R) : list R := map (fun v => hd 0 l + last l 0 - v) (rev l).
(** gsKnotVector::addConstant (core) *)
Definition addK (c : R) (l : list R) : list R := map (fun v => v + c) l.
(** gsKnotVector::remove(knot, mult) (core): removes up to [m] copies of [v] *)
Fixpoint removeK (v : R) (m : nat) (l : list R) {struct l} : list R :=
  match l, m with
  | [], _ => []
  | _, O => l
  | x :: l', S m' => if Req_EM_T x v then removeK v m' l' else x :: removeK v m l'
  end.

(** gsBoehm (core), one insertion of [u] into the knots [T] with coefficients [c]. [Err] if [u] lies outside the domain or the
    coefficients do not fit. *)
Definition countLe (u : R) (T : list R) : nat := length (filter (fun v => if Rle_dec v u then true else false) T).
Definition boehmRow (p : nat) (u : R) (T c : list R) (k1 i : nat) : R :=
  if (i + p <? k1)%nat then nth i c 0
  else if (i <? k1)%nat then
    let a := (u - nth i T 0) / (nth (i + p) T 0 - nth i T 0) in a * nth i c 0 + (1 - a) * nth (i - 1) c 0
  else nth (i - 1) c 0.
Definition boehm1 (p : nat) (u : R) (Tc : list R * list R) : res (list R * list R) :=
  let '(T, c) := Tc in let k1 := countLe u T in
  if ((p <? k1) && (k1 + p <? length T) && (length c + p + 1 =? length T))%nat
  then Ok (firstn k1 T ++ u :: skipn k1 T, map (boehmRow p u T c k1) (seq 0 (S (length c)))) else Err.
(** [r] insertions *)
Fixpoint boehm (p : nat) (u : R) (r : nat) (Tc : list R * list R) : res (list R * list R) :=
  match r with O => Ok Tc | S r' => do Tc' <- boehm1 p u Tc; boehm p u r' Tc' end.

(** the vector with a 1 at place [i], gsMPBESMapTensor.h 418-420 *)
Definition unitV (n i : nat) : list R := map (fun j => if (j =? i)%nat then 1 else 0) (seq 0 n).

(** _getBoehmCoefs, gsMPBESMapTensor.h 390-430. [dir] is the parameter of the side in its direction; [degree] the number of
    functions on either side that are coupled; [knot_index] the distance of the function from the side. [Err] for negative
    indices and for reading outside the coefficients. *)
Definition getBoehmCoefs (kv0i : sbasis) (dir0 : bool) (weight0 : R) (kv1i : sbasis) (dir1 : bool) (weight1 : R) (degree knot_index : nat) : res (list R) :=
  if (degree =? 1)%nat then Ok [1; 1] else
  let temp0 := scaleK weight0 (sknots kv0i) in
  let temp1 := scaleK weight1 (sknots kv1i) in
  let l0 := length temp0 in
  let kv0 := if dir0 then temp0 else revK temp0 in
  let kv1 := if dir1 then revK temp1 else temp1 in
  let kv1 := addK (last kv0 0) kv1 in
  let inserted := last kv0 0 in
  let kv0 := removeK (last kv0 0) degree kv0 in
  let kv1 := removeK (hd 0 kv1) (sdeg kv1i + 1) kv1 in
  let kv0 := kv0 ++ kv1 in
  do _ <- ensure ((1 <=? degree) && (sdeg kv1i + 2 + knot_index <=? l0) && (sdeg kv0i + 2 + knot_index <=? l0) && (sdeg kv0i + 1 <=? length kv0))%nat;
  let n := (length kv0 - sdeg kv0i - 1)%nat in
  let one := (l0 - (sdeg kv1i + 2) - knot_index)%nat in
  do _ <- ensure (one <? n)%nat;
  do Tc <- boehm (sdeg kv0i) inserted (degree - 1) (kv0, unitV n one);
  do rows <- mapM (fun i => do v <- vget (snd Tc) (i + l0 - (sdeg kv0i + 2) - knot_index)%nat;
                            Ok (if (i =? knot_index)%nat then [v; v] else [v])) (seq 0 degree);
  Ok (concat rows).
