(** Concrete configurations for C64. *)
From Coq Require Import Reals Lra.
From Verif Require Import Common TopoModel TopoSpec BaseModel PiModel PiSpec EvModel EvSpec EvProofs3.
From Coq Require Import ZifyBool Permutation.
Open Scope nat_scope.

(** three patches around a vertex, four by four functions each; every patch has its south west corner there *)
Definition top3 : topo := mkT 3 [mkI (0, West) (1, South) false; mkI (1, West) (2, South) false; mkI (2, West) (0, South) false]
  [(0, East); (0, North); (1, East); (1, North); (2, East); (2, North)].
Definition l3 : list pcorner := [(0, SW); (1, SW); (2, SW)].
Definition cl3 (c : pcorner) (a b : nat) : nat := 16 * fst c + (a + 4 * b).
Definition rw3 (c : pcorner) (a b : nat) : nat := 3 * fst c + (match a, b with 1, 1 => 0 | 1, 2 => 1 | _, _ => 2 end).
Definition ix4 (k : nat) (c : pcorner) (s : side) (o : nat) : res nat := indexFromVert (4, 4) k (snd c) s o.
Definition I3 : evin := mkEV top3 ix4 ix4 (fun x p => Ok (16 * p + x)) (fun x p => match x with 5 => Ok (3 * p) | 9 => Ok (3 * p + 1) | 6 => Ok (3 * p + 2) | _ => Err end) 1 (1 / 2) 0.

Lemma top3_ok : consistent top3.
Proof.
  split.
  - unfold sides_partitioned, iface_sides, all_sides, top3. cbn.
    apply NoDup_Permutation; [repeat (constructor; [cbn; intuition congruence|]); constructor|repeat (constructor; [cbn; intuition congruence|]); constructor|intros x; cbn; intuition].
  - intros f [<-|[<-|[<-|[]]]]; left; discriminate.
Qed.

Ltac cornercases := match goal with H : In ?c l3 |- _ => destruct H as [<-|[<-|[<-|[]]]] end.
Lemma l3_vertices : vertices top3 [l3].
Proof.
  constructor.
  - exact top3_ok.
  - intros l [<-|[]]. exists (0, SW). split; [cbn; lia|]. split; reflexivity.
  - intros l [<-|[]]. cbn. repeat (constructor; [cbn; intuition congruence|]). constructor.
  - cbn. repeat (constructor; [cbn; intuition congruence|]). constructor.
Qed.

Lemma I3_numbering : numbering I3 [l3] cl3 rw3.
Proof.
  constructor.
  - intros l c s k o [<-|[]] Ic O K Oo. destruct k as [|[|[|[|k]]]]; [..|lia]; (destruct o as [|[|o]]; [..|lia]); cornercases; destruct s; try discriminate O; (eexists; split; [reflexivity|reflexivity]).
  - intros l c s k [<-|[]] Ic O K. destruct K as [-> | ->]; cornercases; destruct s; try discriminate O; (eexists; split; [reflexivity|reflexivity]).
  - intros c c' a b a' b' Ic Ic' NR NR' E. change (concat [l3]) with l3 in *. unfold near in *. unfold cl3 in E.
    cornercases; cornercases; cbn [fst] in E; (split; [f_equal; lia|lia]).
Qed.

(** knot insertion for cubic functions, knots at all midpoints *)
Definition tau3 (a a' : nat) : R :=
  match a, a' with
  | 0, 0 => 1 | 1, 0 => / 2 | 1, 1 => / 2 | 2, 1 => 3 / 4 | 2, 2 => / 4 | 3, 1 => 3 / 16 | 3, 2 => 11 / 16 | 3, 3 => / 8 | _, _ => 0
  end%R.
Definition T3 : matrix := fun x k => if x / 16 =? k / 16 then (tau3 (x mod 16 mod 4) (k mod 16 mod 4) * tau3 (x mod 16 / 4) (k mod 16 / 4))%R else 0%R.
(** nine functions *)
Definition A3 : matrix := fun r k => if r =? k mod 9 then 1%R else 0%R.

Lemma tau3_ok : insertion tau3.
Proof. constructor; [reflexivity|]. intros a L. destruct a as [|[|[|[|a]]]]; cbn; lra || lia. Qed.

Lemma T3_transfer : transfer 48 T3 [l3] cl3 cl3 tau3.
Proof.
  intros c a b Ic NR f. change (concat [l3]) with l3 in Ic. unfold near in NR. destruct a as [|[|[|[|a]]]]; [..|lia]; (destruct b as [|[|[|[|b]]]]; [..|lia]); try lia; cornercases; cbn; ring.
Qed.
Lemma A3_others : others_ok top3 cl3 rw3 l3 A3.
Proof.
  intros r NI. assert (Z : forall k, A3 r k = 0%R).
  { intros k. unfold A3. destruct (r =? k mod 9) eqn:E; [|reflexivity]. exfalso. apply NI. apply Nat.eqb_eq in E. pose proof (Nat.mod_upper_bound k 9 ltac:(lia)) as L. rewrite <- E in L. clear -L.
    assert (G : forall p, p < 3 -> r = 3 * p \/ r = 3 * p + 1 \/ r = 3 * p + 2 -> involved rw3 l3 r).
    { intros p P H. exists (p, SW). split; [destruct p as [|[|[|p]]]; [cbn; tauto..|lia]|]. unfold rw3. cbn [fst]. lia. }
    destruct r as [|[|[|[|[|[|[|[|[|r]]]]]]]]]; [apply (G 0)|apply (G 0)|apply (G 0)|apply (G 1)|apply (G 1)|apply (G 1)|apply (G 2)|apply (G 2)|apply (G 2)|]; lia. }
  split; [intros; apply Z|]. intros k K c s c' s' Ic X. rewrite !Z. lra.
Qed.
Lemma A3_sums k : k < 48 -> colSum 9 A3 k = 1%R.
Proof.
  intros _. unfold colSum, A3. pose proof (Nat.mod_upper_bound k 9 ltac:(lia)) as L. destruct (k mod 9) as [|[|[|[|[|[|[|[|[|r]]]]]]]]]; [..|lia]; cbn; ring.
Qed.
Lemma T3_sums c : c < 48 -> rsum 48 (T3 c) = 1%R.
Proof.
  intros L. do 48 (destruct c as [|c]; [cbn; lra|]). lia.
Qed.

Lemma nonvacuous_pf : exists A', computeEVs I3 48 A3 T3 [l3] = Ok A' /\ (forall c, c < 48 -> colSum 9 A' c = 1%R) /\
  (exists cs, ring top3 l3 cs /\ forall r, dpatch_at top3 cl3 (1 / 2) 0 cs A' r) /\
  refined 48 A3 T3 0 0 = 1%R /\ refined 48 A3 T3 0 16 = 0%R /\ A' 0 0 = A' 0 16.
Proof.
  assert (HK : forall l, In l [l3] -> others_ok top3 cl3 rw3 l (refined 48 A3 T3)).
  { apply (refined_pf top3 [l3] cl3 cl3 rw3 tau3 48 A3 T3 l3_vertices tau3_ok T3_transfer). intros l [<-|[]]. exact A3_others. }
  destruct (vertices_pf I3 [l3] cl3 rw3 48 A3 T3 l3_vertices I3_numbering ltac:(discriminate) (or_intror eq_refl) HK) as (A' & E & G & _).
  exists A'. split; [exact E|]. split.
  - apply (unity_pf I3 [l3] cl3 rw3 48 9 48 A3 T3 A' l3_vertices I3_numbering ltac:(discriminate) (or_intror eq_refl) HK); [|exact A3_sums|exact T3_sums|exact E].
    intros c a b Ic NR. change (concat [l3]) with l3 in Ic. unfold near in NR. unfold cl3. cornercases; cbn [fst]; lia.
  - destruct (G l3 (or_introl eq_refl)) as (cs & Pi & RG & _ & D & _). split; [exists cs; split; [exact RG|exact D]|]. split; [unfold refined; cbn; ring|]. split; [unfold refined; cbn; ring|].
    destruct RG as (P & R). destruct (D 0) as (m & a & d & H).
    assert (Q : forall c, In c l3 -> A' 0 (cl3 c 0 0) = m).
    { intros c Ic. assert (IM : In c (map fst cs)) by (eapply Permutation_in; [symmetry; exact P|exact Ic]). apply in_map_iff in IM. destruct IM as ([e s] & <- & IM). apply In_nth_error in IM. destruct IM as (i & Ei).
      destruct (R i (e, s) Ei) as (_ & y & s' & _ & X & _). destruct (H i e s (fst y) s' Ei X) as (Q & _). exact Q. }
    pose proof (Q (0, SW) ltac:(cbn; tauto)) as Q0. pose proof (Q (1, SW) ltac:(cbn; tauto)) as Q1. change (cl3 (0, SW) 0 0) with 0 in Q0. change (cl3 (1, SW) 0 0) with 16 in Q1. congruence.
Qed.

(** a vertex of valence five that one patch meets twice *)
Definition top5 : topo := mkT 4 [mkI (0, West) (1, South) false; mkI (1, West) (0, North) true; mkI (0, East) (2, South) true; mkI (2, West) (3, South) false; mkI (3, West) (0, South) false]
  [(1, East); (1, North); (2, East); (2, North); (3, East); (3, North)].
Definition l5 : list pcorner := match cornerList top5 (0, SW) with Ok l => l | Err => [] end.
Definition ix8 (k : nat) (c : pcorner) (s : side) (o : nat) : res nat := indexFromVert (8, 8) k (snd c) s o.
Definition cl5 (c : pcorner) (a b : nat) : nat := 64 * fst c + match snd c with NE => 7 - a + 8 * (7 - b) | _ => a + 8 * b end.
(** the function of the corner is not one of the functions in use *)
Definition I5 : evin := mkEV top5 ix8 ix8 (fun x p => Ok (64 * p + x)) (fun x p => match x with 0 => Err | _ => Ok (64 * p + x) end) 1 (1 / 2) 0.

Lemma twice_pf : exists (I : evin) (l : list pcorner) (cl rw : pcorner -> nat -> nat -> nat),
  consistent (ev_t I) /\ cornerList (ev_t I) (0, SW) = Ok l /\ length l = 5 /\ vertex_inner (ev_t I) l = true /\ NoDup l /\ In (0, SW) l /\ In (0, NE) l /\ numbering I [l] cl rw /\
  forall n A T, computeEVs I n A T [l] = Err.
Proof.
  exists I5, l5, cl5, cl5. assert (L : l5 = [(0, SW); (1, SW); (3, SW); (0, NE); (2, SW)]) by reflexivity. split.
  { split.
    - unfold sides_partitioned, iface_sides, all_sides, top5. cbn.
      apply NoDup_Permutation; [repeat (constructor; [cbn; intuition congruence|]); constructor|repeat (constructor; [cbn; intuition congruence|]); constructor|intros x; cbn; intuition].
    - intros f [<-|[<-|[<-|[<-|[<-|[]]]]]]; left; discriminate. }
  split; [reflexivity|]. split; [reflexivity|]. split; [reflexivity|]. rewrite L. split; [repeat (constructor; [cbn; intuition congruence|]); constructor|]. split; [cbn; tauto|]. split; [cbn; tauto|]. split.
  - constructor.
    + intros l c s k o [<-|[]] Ic O K Oo. destruct k as [|[|[|[|k]]]]; [..|lia]; (destruct o as [|[|o]]; [..|lia]); destruct Ic as [<-|[<-|[<-|[<-|[<-|[]]]]]]; destruct s; try discriminate O; (eexists; split; [reflexivity|reflexivity]).
    + intros l c s k [<-|[]] Ic O K. destruct K as [-> | ->]; destruct Ic as [<-|[<-|[<-|[<-|[<-|[]]]]]]; destruct s; try discriminate O; (eexists; split; [reflexivity|reflexivity]).
    + intros c c' a b a' b' Ic Ic' NR NR' E. change (concat [[(0, SW); (1, SW); (3, SW); (0, NE); (2, SW)]]) with [(0, SW); (1, SW); (3, SW); (0, NE); (2, SW)] in *. unfold near in *. unfold cl5 in E.
      destruct Ic as [<-|[<-|[<-|[<-|[<-|[]]]]]], Ic' as [<-|[<-|[<-|[<-|[<-|[]]]]]]; cbn [fst snd] in E; try (exfalso; lia); (split; [reflexivity|lia]).
  - intros n A T. unfold computeEVs. cbn [foldM]. unfold computeEV at 1. 
    assert (W : exists w, walk (ev_t I5) [(0, SW); (1, SW); (3, SW); (0, NE); (2, SW)] = Ok w /\ exists x y, cijs (ev_ix I5) w 5 = Ok x /\ cijs (ev_ix0 I5) w 5 = Ok y /\ numbered3 (ev_mm I5) w y = Err).
    { eexists. split; [vm_compute; reflexivity|]. eexists. eexists. split; [vm_compute; reflexivity|]. split; [vm_compute; reflexivity|]. vm_compute. reflexivity. }
    destruct W as (w & W1 & x & y & W2 & W3 & W4). cbn [length]. rewrite W1. cbn [bind]. rewrite W2. cbn [bind]. rewrite W3. cbn [bind]. rewrite W4. reflexivity.
Qed.
