(** What the property C63 says. *)
From Coq Require Import Reals.
From Verif Require Import Common TopoModel TopoSpec MapModel MapSpec MapTravelSpec MapAllModel SplineModel BoehmModel BoehmSpec.
Open Scope Z_scope.

(** the corner between two adjacent sides, and the distance of the corner along the first of them *)
Definition cornerOf (s s2 : side) : corner :=
  match side_dir s with O => corner_of (side_par s) (side_par s2) | _ => corner_of (side_par s2) (side_par s) end.
Definition alongLen (c : pconf) (s s2 : side) : Z := match side_dir s with O => lv c (cornerOf s s2) | _ => lh c (cornerOf s s2) end.

(** A multi-patch basis with [n] functions to be coupled on either side of every interface. *)
Record mp_ok (M : mpbes) (n : Z) : Prop := {
  (* the topology *)
  mp_top : consistent (mtop M);
  mp_np : tnp (mtop M) = length (mbs M);
  (* what is read for a patch; distances as they are set up *)
  mp_conf : forall p b, nth_error (mbs M) p = Some b -> let c := mconf M p in
    pU c = mb_u b /\ pV c = mb_v b /\ pdu c = n /\ pdv c = n /\ pOne c = false /\ natural c /\ forall s, pInt c s = isInterface (mtop M) (p, s);
  (* every interface joins two different patches and is the same from both sides *)
  mp_glue : forall p b s s2, nth_error (mbs M) p = Some b -> isInterface (mtop M) (p, s) = true -> adjacent s s2 ->
    exists p' b' s' s2', p <> p' /\ glued (mbs M) (mtop M) p b s s2 p' b' s' s2' /\ glued (mbs M) (mtop M) p' b' s' s2' p b s s2;
  (* a vertex is special from both sides, at the same distance; at other vertices an interface goes on from both or from no side *)
  mp_spec : forall p b s s2 p' b' s' s2', glued (mbs M) (mtop M) p b s s2 p' b' s' s2' ->
    pSpec (mconf M p) (cornerOf s s2) = pSpec (mconf M p') (cornerOf s' s2') /\
    (pSpec (mconf M p) (cornerOf s s2) = true -> alongLen (mconf M p) s s2 = alongLen (mconf M p') s' s2') /\
    (pSpec (mconf M p) (cornerOf s s2) = false -> isInterface (mtop M) (p, s2) = isInterface (mtop M) (p', s2'));
  (* a vertex between interfaces that is not special has four different patches *)
  mp_square : forall p b s s2, nth_error (mbs M) p = Some b -> adjacent s s2 -> isInterface (mtop M) (p, s) = true -> isInterface (mtop M) (p, s2) = true ->
    pSpec (mconf M p) (cornerOf s s2) = false -> exists F1 F2 F3, square (mbs M) (mtop M) (mkF p b s s2) F1 F2 F3 /\ distinct4 (mkF p b s s2) F1 F2 F3;
  (* no patch meets a special vertex twice *)
  mp_once : forall p k l, (p < length (mbs M))%nat -> pSpec (mconf M p) k = true -> cornerList (mtop M) (p, k) = Ok l -> NoDup (map fst l);
  (* knots from 0 on, with full multiplicity at the ends; [n] at most the degree, which is the same on both sides *)
  mp_knots : forall p d, exists b inner, clamped (mkv M p d) 0%R b inner;
  mp_deg : forall p s p' s', getNeighbour (mtop M) (p, s) = Ok (p', s') -> sdeg (mkv M p' (side_dir s')) = sdeg (mkv M p (side_dir s)) /\ (Z.to_nat n <= sdeg (mkv M p (side_dir s)))%nat;
  mp_weights : forall ps, (0 < mwt M ps)%R }.

(** row sum of the matrix *)
Definition rowSum (cols : list column) (l : Z) : R := fold_right Rplus 0%R (map (fun c => entry c l) cols).

(** a column of the matrix: some rows, each once and existing, with positive weights *)
Definition col_ok (N : Z) (c : column) : Prop := c <> [] /\ NoDup (map fst c) /\ forall e, In e c -> 0 <= fst e < N /\ (0 < snd e)%R.
(** the columns are linearly independent *)
Definition independent (N : Z) (cols : list column) : Prop := forall a : nat -> R,
  (forall l, 0 <= l < N -> fold_right Rplus 0%R (map (fun i => (a i * entry (nth i cols []) l)%R) (seq 0 (length cols))) = 0%R) ->
  forall i, (i < length cols)%nat -> a i = 0%R.
