(** Proofs for C63: what happens with the functions in the strip along an interface. *)
From Verif Require Import Common ListLemmas TopoModel MapModel MapSpec MapProofs MapRegions MapTravelSpec MapTravel MapActions MapAllSpec.
From Coq Require Import ZifyBool.
Open Scope Z_scope.

Definition posAt (c : pconf) (s : side) (d : Z) (s2 : side) (e : Z) : Z * Z :=
  match side_dir s with
  | O => (coord (pU c) (side_par s) d, coord (pV c) (side_par s2) e)
  | _ => (coord (pU c) (side_par s2) e, coord (pV c) (side_par s) d)
  end.
Definition nN (c : pconf) (s : side) : Z := match s with West | East => pU c | _ => pV c end.
Definition nA (c : pconf) (s : side) : Z := match s with West | East => pV c | _ => pU c end.
Definition zoneAct (s s2 : side) (i2 : bool) (d e : Z) : act :=
  if (d =? 0) && (e =? 0) then Singular else if d =? 0 then Line s 1 0 else if i2 && (e =? 0) then Line s2 1 0 else Free.
Definition blk (s s2 : side) (n d e : Z) : act := match side_dir s with O => Block s2 s n n e d | _ => Block s s2 n n d e end.
Definition strip (c : pconf) (n : Z) (s s2 : side) (d e : Z) : act :=
  let e' := nA c s - 1 - e in
  if pSpec c (cornerOf s s2) && (e <? alongLen c s s2) then zoneAct s s2 (pInt c s2) d e
  else if pSpec c (cornerOf s (opp s2)) && (e' <? alongLen c s (opp s2)) then zoneAct s (opp s2) (pInt c (opp s2)) d e'
  else if pInt c s2 && (e <? n) then blk s s2 n d e
  else if pInt c (opp s2) && (e' <? n) then blk s (opp s2) n d e'
  else Line s n d.

Record bounds (c : pconf) : Prop := {
  bd_s : lh c SW + lh c SE <= pU c; bd_n : lh c NW + lh c NE <= pU c; bd_w : lv c SW + lv c NW <= pV c; bd_e : lv c SE + lv c NE <= pV c;
  bd_pos : forall k, 0 <= lh c k /\ 0 <= lv c k }.
Lemma natural_bounds c : natural c -> bounds c.
Proof.
  intros N. assert (P : forall x, 0 <= pH c x /\ 0 <= pW c x) by apply N. assert (0 <= pU c) by (destruct N; lia). assert (0 <= pV c) by (destruct N; lia).
  destruct (halves_pf c H H0 P) as (A & B & C & D). unfold shared in *. pose proof (P SW). pose proof (P SE). pose proof (P NW). pose proof (P NE).
  constructor; cbn [lh lv]; try lia. intros k. destruct k; cbn [lh lv]; lia.
Qed.

(** the corner at the other end of the side of [k] in direction [dir] *)
Definition flip (dir : nat) (k : corner) : corner := match dir with O => corner_of (negb (cpar0 k)) (cpar1 k) | _ => corner_of (cpar0 k) (negb (cpar1 k)) end.
Definition sideOf (dir : nat) (k : corner) : side := match dir with O => vside k | _ => hside k end.

Lemma zone_pf c n s s2 d e k : natural c -> pdu c = n -> pdv c = n -> pInt c s = true -> adjacent s s2 -> 0 <= d < n -> 0 <= e < nA c s ->
  special_zone c (posAt c s d s2 e) k = if side_eqb s (sideOf (side_dir s) k) then pSpec c k && ((if corner_eqb k (cornerOf s s2) then e else nA c s - 1 - e) <? (match side_dir s with O => lv c k | _ => lh c k end)) else false.
Proof.
  intros N DU DV I A D E. pose proof (natural_bounds c N) as [B1 B2 B3 B4 B5]. pose proof (nt_corner c N k) as K. pose proof (nt_corner c N (flip (side_dir s) k)) as K2. pose proof (nt_U c N) as U. pose proof (nt_V c N) as V. pose proof (nt_du c N) as D2.
  pose proof (B5 k) as B6. pose proof (B5 (flip (side_dir s) k)) as B7. clear N B5. unfold special_zone. destruct (pSpec c k) eqn:SK; [|cbn [andb]; destruct (side_eqb s (sideOf (side_dir s) k)); reflexivity]. cbn [andb].
  unfold natural_corner in *. rewrite SK in K. unfold adjacent in A.
  destruct s, s2; cbn [side_dir side_par] in *; try congruence; destruct k; unfold flip, sideOf in *; cbn [hside vside cpar0 cpar1 side_eqb negb corner_of] in *; rewrite ?I in *; unfold cdi, cdj, posAt, coord, cornerOf; cbn [side_dir side_par cpar0 cpar1 corner_of corner_eqb fst snd nA] in *;
  repeat match goal with
  | H : context [if pInt c ?x then _ else _] |- _ => let E := fresh in destruct (pInt c x) eqn:E
  | H : context [if pSpec c ?x then _ else _] |- _ => let E := fresh in destruct (pSpec c x) eqn:E
  end; try discriminate; clear - B1 B2 B3 B4 K K2 U V D2 B6 B7 D E DU DV; lia.
Qed.

Lemma strip_pf c n s s2 d e : natural c -> pdu c = n -> pdv c = n -> pInt c s = true -> adjacent s s2 -> 0 <= d < n -> 0 <= e < nA c s ->
  expected c (posAt c s d s2 e) = strip c n s s2 d e.
Proof.
  intros N DU DV I A D E. pose proof (fun k => zone_pf c n s s2 d e k N DU DV I A D E) as Z. pose proof (natural_bounds c N) as [B1 B2 B3 B4 _]. pose proof (nt_U c N) as U. pose proof (nt_V c N) as V. pose proof (nt_du c N) as D2. clear N.
  unfold expected, strip. cbn [find]. rewrite !Z. clear Z. unfold near_h, near_v, zoneAct, blk, alongLen, sideOf, cdi, cdj, posAt, coord, adjacent in *. rewrite DU, DV.
  destruct s, s2; cbn [side_dir side_par] in *; try congruence; unfold cornerOf, opp; cbn [hside vside cpar0 cpar1 side_eqb negb corner_of corner_eqb side_dir side_par fst snd nA] in *; rewrite ?I; cbn [andb] in *.
  all: repeat match goal with
  | |- context [match (if ?b then _ else _) with Some _ => _ | None => _ end] => let Q := fresh "Q" in destruct b eqn:Q
  end; cbn [cpar0 cpar1 hside vside] in *; rewrite ?I; cbn [andb].
  all: try (repeat match goal with
  | |- context [if ?b then _ else _] => let Q := fresh "Q" in destruct b eqn:Q
  end; try (exfalso; lia); try reflexivity; repeat f_equal; lia).
Qed.
