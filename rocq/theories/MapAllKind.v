(** How the functions of a multi-patch basis are treated, patch by patch and across interfaces. *)
From Coq Require Import Reals.
From Verif Require Import Common ListLemmas TopoModel TopoSpec TopoProofs MapModel MapSpec MapProofs MapRegions MapTravelSpec MapTravel MapActions MapLines MapAllModel MapAllSpec MapAllLoc.
From Coq Require Import ZifyBool Permutation.
Open Scope Z_scope.

Lemma opp_opp s : opp (opp s) = s. Proof. now destruct s. Qed.
Lemma adj_opp2 s s2 : adjacent s s2 -> adjacent s (opp s2). Proof. unfold adjacent. now destruct s, s2. Qed.
Lemma adj_two s s2 s3 : adjacent s s2 -> adjacent s s3 -> s3 = s2 \/ s3 = opp s2.
Proof. unfold adjacent. destruct s, s2, s3; cbn; intros; (now left) || (now right) || congruence. Qed.
Lemma adj_neq s s2 : adjacent s s2 -> s <> s2. Proof. unfold adjacent. congruence. Qed.

Section K.
Context (M : mpbes) (n : Z) (OK : mp_ok M n).
Notation bs := (mbs M).
Notation t := (mtop M).

Lemma conf_facts p b : nth_error bs p = Some b -> pU (mconf M p) = mb_u b /\ pV (mconf M p) = mb_v b /\ pdu (mconf M p) = n /\ pdv (mconf M p) = n /\ pOne (mconf M p) = false /\ natural (mconf M p) /\ forall s, pInt (mconf M p) s = isInterface t (p, s).
Proof. apply (mp_conf _ _ OK). Qed.

Lemma n_ge p b : nth_error bs p = Some b -> 2 <= n.
Proof. intros E. destruct (conf_facts p b E) as (_ & _ & <- & _ & _ & N & _). apply N. Qed.

Lemma sizes p b s : nth_error bs p = Some b -> nsz b s = nN (mconf M p) s /\ asz b s = nA (mconf M p) s /\ 2 * n <= nsz b s /\ 2 * n <= asz b s.
Proof.
  intros E. destruct (conf_facts p b E) as (U & V & DU & DV & _ & N & _). pose proof (nt_U _ N). pose proof (nt_V _ N). rewrite DU in *. rewrite DV in *.
  destruct s; cbn [nsz asz nN nA]; lia.
Qed.

Lemma POS b : In b bs -> 0 <= mb_size b.
Proof.
  intros I. apply In_nth_error in I. destruct I as (p & E). pose proof (n_ge p b E). pose proof (sizes p b West E) as (_ & _ & A & B). cbn [nsz asz] in *. unfold mb_size. nia.
Qed.

Definition parOf (l : Z) (par : bool) : Z := match getPar bs l par with Ok x => x | Err => 0 end.
Definition kind (l : Z) : act := expected (mconf M (getPatch bs l)) (parOf l false, parOf l true).

Lemma kind_L p b u v : nth_error bs p = Some b -> 0 <= u < mb_u b -> 0 <= v < mb_v b -> kind (L bs p b u v) = expected (mconf M p) (u, v).
Proof.
  intros E U V. unfold kind, parOf. rewrite (getPatch_L bs POS p b u v E U V), !(getPar_L bs POS p b u v _ E U V). reflexivity.
Qed.

Definition valid (l : Z) : Prop := 0 <= l < nrOfLocals bs.

Lemma decode l : valid l -> exists p b u v, nth_error bs p = Some b /\ 0 <= u < mb_u b /\ 0 <= v < mb_v b /\ l = L bs p b u v.
Proof.
  intros V. destruct (numbering_pf bs POS) as (_ & X & _). destruct (X l V) as (b & k & f & E & PI & K & F & <-).
  exists (getPatch bs (f + k)), b, (k mod mb_u b), (k / mb_u b). split; [exact E|].
  pose proof (n_ge _ _ E). pose proof (sizes _ _ West E) as (_ & _ & A & B). cbn [nsz asz] in *. unfold mb_size in K.
  assert (D : 0 <= k / mb_u b < mb_v b) by (split; [apply Z.div_pos; lia|apply Z.div_lt_upper_bound; lia]).
  pose proof (Z.mod_pos_bound k (mb_u b)). split; [lia|]. split; [exact D|].
  unfold L. rewrite firstLocalIndex_ok in F by (assert (getPatch bs (f + k) < length bs)%nat by (apply nth_error_Some; congruence); lia). injection F as F. rewrite F.
  pose proof (Z.div_mod k (mb_u b)). lia.
Qed.

Lemma valid_L p b u v : nth_error bs p = Some b -> 0 <= u < mb_u b -> 0 <= v < mb_v b -> valid (L bs p b u v).
Proof.
  intros E U V. destruct (numbering_pf bs POS) as (X & _). destruct (X p b (u + mb_u b * v) E) as (l & f & F & -> & R & _).
  - now apply in_size.
  - rewrite firstLocalIndex_ok in F by (assert (p < length bs)%nat by (apply nth_error_Some; congruence); lia). injection F as <-. exact R.
Qed.

Lemma fun_posAt p b s d s2 e : nth_error bs p = Some b -> adjacent s s2 -> 0 <= d < nsz b s -> 0 <= e < asz b s ->
  let x := posAt (mconf M p) s d s2 e in fun_at bs p b s d s2 e = L bs p b (fst x) (snd x) /\ 0 <= fst x < mb_u b /\ 0 <= snd x < mb_v b.
Proof.
  intros E A D Ee. destruct (conf_facts p b E) as (U & V & _). unfold posAt, fun_at, L, coord. rewrite U, V. unfold adjacent in A. destruct s, s2; cbn [side_dir side_par nsz asz fst snd] in *; try congruence; (split; [ring|lia]).
Qed.

Lemma valid_fun p b s d s2 e : nth_error bs p = Some b -> adjacent s s2 -> 0 <= d < nsz b s -> 0 <= e < asz b s -> valid (fun_at bs p b s d s2 e).
Proof. intros E A D Ee. destruct (fun_posAt p b s d s2 e E A D Ee) as (-> & X & Y). now apply valid_L. Qed.

Lemma kind_fun p b s d s2 e : nth_error bs p = Some b -> adjacent s s2 -> 0 <= d < nsz b s -> 0 <= e < asz b s ->
  kind (fun_at bs p b s d s2 e) = expected (mconf M p) (posAt (mconf M p) s d s2 e).
Proof. intros E A D Ee. destruct (fun_posAt p b s d s2 e E A D Ee) as (-> & X & Y). rewrite (kind_L p b _ _ E X Y). now rewrite <- surjective_pairing. Qed.

Lemma kind_strip p b s d s2 e : nth_error bs p = Some b -> adjacent s s2 -> isInterface t (p, s) = true -> 0 <= d < n -> 0 <= e < asz b s ->
  kind (fun_at bs p b s d s2 e) = strip (mconf M p) n s s2 d e.
Proof.
  intros E A I D Ee. destruct (sizes p b s E) as (N1 & N2 & B1 & B2). destruct (conf_facts p b E) as (_ & _ & DU & DV & _ & N & PI).
  rewrite kind_fun by (assumption || lia). apply strip_pf; try assumption; [now rewrite PI|lia].
Qed.

(** *** Going to the other end of a side, and across it *)
Lemma fun_at_end p b s d s2 e : adjacent s s2 -> fun_at bs p b s d s2 e = fun_at bs p b s d (opp s2) (asz b s - 1 - e).
Proof. intros A. rewrite (fun_at_swap bs p b s d s2 e A), (fun_at_opp bs p b s2 e s d), <- (adj_asz b s s2 A). apply fun_at_swap. apply adj_sym. now apply adj_opp2. Qed.

Lemma glued_opp p b s s2 p' b' s' s2' : glued bs t p b s s2 p' b' s' s2' -> glued bs t p b s (opp s2) p' b' s' (opp s2').
Proof.
  intros [E E' (f & F & O & E2 & X) A S]. constructor; try assumption; [|now apply adj_opp2]. exists f. split; [exact F|]. split; [exact O|]. split; [|exact X].
  subst s2'. assert (P : side_par (opp s2) = negb (side_par s2)) by (destruct s2; reflexivity). rewrite P. destruct s', (ifflip f), (side_par s2); reflexivity.
Qed.

Lemma glued_det p b s s2 p1 b1 s1 s21 bx p2 b2 s2x s22 : glued bs t p b s s2 p1 b1 s1 s21 -> glued bs t p bx s s2 p2 b2 s2x s22 -> p1 = p2 /\ b1 = b2 /\ s1 = s2x /\ s21 = s22.
Proof.
  intros [E E' (f & F & O & E2 & X) A S] [E0 E0' (f0 & F0 & O0 & E20 & X0) A0 S0]. rewrite F in F0. injection F0 as <-. rewrite O in O0. injection O0 as <- <-. subst. split; [reflexivity|]. split; [congruence|]. split; reflexivity.
Qed.

Lemma glued_iface p b s s2 p' b' s' s2' : glued bs t p b s s2 p' b' s' s2' -> isInterface t (p, s) = true.
Proof.
  intros [_ _ (f & F & _) _ _]. destruct (isInterface t (p, s)) eqn:I; [reflexivity|]. apply getInterface_none in I. congruence.
Qed.

Lemma glued_nb p b s s2 p' b' s' s2' : glued bs t p b s s2 p' b' s' s2' -> getNeighbour t (p, s) = Ok (p', s').
Proof. intros [_ _ (f & F & O & _) _ _]. unfold getNeighbour. now rewrite F. Qed.

(** what decides about a function in the strip of an interface *)
Definition zone (p : nat) (s s2 : side) (e : Z) : bool := pSpec (mconf M p) (cornerOf s s2) && (e <? alongLen (mconf M p) s s2).
Definition second (p : nat) (s2 : side) (e : Z) : bool := pInt (mconf M p) s2 && (e <? n).

Lemma along_ge p b s s2 : nth_error bs p = Some b -> adjacent s s2 -> isInterface t (p, s) = true -> isInterface t (p, s2) = true -> pSpec (mconf M p) (cornerOf s s2) = true -> n <= alongLen (mconf M p) s s2.
Proof.
  intros E A I I2 SP. destruct (conf_facts p b E) as (_ & _ & DU & DV & _ & N & PI). pose proof (nt_corner _ N (cornerOf s s2)) as K. unfold natural_corner in K. rewrite SP in K. rewrite <- PI in I, I2.
  unfold adjacent in A. destruct s, s2; cbn [side_dir] in A; try congruence; unfold alongLen, cornerOf in *; cbn [side_dir side_par corner_of hside vside cpar0 cpar1] in *; rewrite I, I2 in K; cbv beta iota in K; lia.
Qed.
Lemma along_eq p b s s2 : nth_error bs p = Some b -> adjacent s s2 -> isInterface t (p, s) = true -> isInterface t (p, s2) = true -> pSpec (mconf M p) (cornerOf s s2) = false -> alongLen (mconf M p) s s2 = n.
Proof.
  intros E A I I2 SP. destruct (conf_facts p b E) as (_ & _ & DU & DV & _ & N & PI). pose proof (nt_corner _ N (cornerOf s s2)) as K. unfold natural_corner in K. rewrite SP in K. rewrite <- PI in I, I2.
  unfold adjacent in A. destruct s, s2; cbn [side_dir] in A; try congruence; unfold alongLen, cornerOf in *; cbn [side_dir side_par corner_of hside vside cpar0 cpar1] in *; rewrite I, I2 in K; cbv beta iota in K; lia.
Qed.
Lemma along_sum p b s s2 : nth_error bs p = Some b -> adjacent s s2 -> alongLen (mconf M p) s s2 + alongLen (mconf M p) s (opp s2) <= asz b s.
Proof.
  intros E A. destruct (conf_facts p b E) as (U & V & _ & _ & _ & N & _). destruct (sizes p b s E) as (_ & -> & _). destruct (natural_bounds _ N) as [B1 B2 B3 B4 _].
  unfold adjacent in A. destruct s, s2; cbn [side_dir] in A; try congruence; unfold alongLen, cornerOf, opp in *; cbn [side_dir side_par corner_of nA] in *; lia.
Qed.

Lemma zone_cross p b s s2 p' b' s' s2' e : glued bs t p b s s2 p' b' s' s2' -> zone p s s2 e = zone p' s' s2' e.
Proof.
  intros G. destruct (mp_spec _ _ OK _ _ _ _ _ _ _ _ G) as (E1 & E2 & _). unfold zone. rewrite <- E1. destruct (pSpec (mconf M p) (cornerOf s s2)); [|reflexivity]. now rewrite E2.
Qed.
Lemma second_cross p b s s2 p' b' s' s2' e : glued bs t p b s s2 p' b' s' s2' -> glued bs t p' b' s' s2' p b s s2 -> zone p s s2 e = false -> second p s2 e = second p' s2' e.
Proof.
  intros G G' Z. destruct (mp_spec _ _ OK _ _ _ _ _ _ _ _ G) as (E1 & E2 & E3). pose proof (gl_b _ _ _ _ _ _ _ _ _ _ G) as B. pose proof (gl_b' _ _ _ _ _ _ _ _ _ _ G) as B'.
  destruct (conf_facts p b B) as (_ & _ & _ & _ & _ & _ & PI). destruct (conf_facts p' b' B') as (_ & _ & _ & _ & _ & _ & PI').
  pose proof (glued_iface _ _ _ _ _ _ _ _ G) as I. pose proof (glued_iface _ _ _ _ _ _ _ _ G') as I'. pose proof (gl_adj _ _ _ _ _ _ _ _ _ _ G) as A. pose proof (gl_adj _ _ _ _ _ _ _ _ _ _ G') as A'.
  unfold second, zone in *. rewrite PI, PI'. destruct (pSpec (mconf M p) (cornerOf s s2)) eqn:SP; [|now rewrite (E3 eq_refl)].
  cbn [andb] in Z. specialize (E2 eq_refl). symmetry in E1.
  destruct (isInterface t (p, s2)) eqn:J.
  - pose proof (along_ge p b s s2 B A I J SP). destruct (isInterface t (p', s2')) eqn:J'; cbn [andb]; [reflexivity|]. lia.
  - destruct (isInterface t (p', s2')) eqn:J'; cbn [andb]; [|reflexivity]. pose proof (along_ge p' b' s' s2' B' A' I' J' E1). lia.
Qed.

Lemma strip_eq p b s s2 d e : nth_error bs p = Some b ->
  strip (mconf M p) n s s2 d e =
  let e' := asz b s - 1 - e in
  if zone p s s2 e then zoneAct s s2 (pInt (mconf M p) s2) d e
  else if zone p s (opp s2) e' then zoneAct s (opp s2) (pInt (mconf M p) (opp s2)) d e'
  else if second p s2 e then blk s s2 n d e
  else if second p (opp s2) e' then blk s (opp s2) n d e'
  else Line s n d.
Proof. intros E. destruct (sizes p b s E) as (_ & -> & _). reflexivity. Qed.

Lemma zoneAct_line s s2 i d e m d' s0 : adjacent s s2 -> zoneAct s s2 i d e = Line s0 m d' -> s0 = s -> m = 1 /\ d' = 0 /\ d = 0 /\ e <> 0.
Proof.
  intros A. unfold zoneAct. destruct ((d =? 0) && (e =? 0)) eqn:Q; [discriminate|]. destruct (d =? 0) eqn:Q1; [intros X; injection X as <- <- <-; lia|].
  destruct (i && (e =? 0)); [|discriminate]. intros X; injection X as <- <- <-. intros ->. now elim (adj_neq s s).
Qed.
Lemma blk_line s s2 d e s0 m d' : blk s s2 n d e <> Line s0 m d'.
Proof. unfold blk. destruct (side_dir s); discriminate. Qed.

(** the functions of a line are all treated alike, on both sides of the interface *)
Lemma line_same p b s s2 m d e d' : nth_error bs p = Some b -> adjacent s s2 -> isInterface t (p, s) = true -> 0 <= d < n -> 0 <= e < asz b s -> 0 <= d' < m ->
  kind (fun_at bs p b s d s2 e) = Line s m d -> (m = n \/ m = 1) /\ d < m /\ kind (fun_at bs p b s d' s2 e) = Line s m d'.
Proof.
  intros E A I D Ee D' K. pose proof (n_ge p b E) as N2.
  rewrite kind_strip in K by assumption. rewrite (strip_eq p b) in K by assumption. cbv zeta in K.
  assert (X : (m = n \/ m = 1) /\ d < m). 
  { destruct (zone p s s2 e). { apply zoneAct_line in K; [|assumption|reflexivity]. lia. }
    destruct (zone p s (opp s2) _). { apply zoneAct_line in K; [|now apply adj_opp2|reflexivity]. lia. }
    destruct (second p s2 e); [now apply blk_line in K|]. destruct (second p (opp s2) _); [now apply blk_line in K|]. injection K as <-. lia. }
  split; [apply X|]. split; [apply X|]. rewrite kind_strip by (assumption || lia). rewrite (strip_eq p b) by assumption. cbv zeta.
  destruct (zone p s s2 e). { apply zoneAct_line in K; [|assumption|reflexivity]. unfold zoneAct. replace (d' =? 0) with true by lia. replace (e =? 0) with false by lia. cbn [andb]. destruct K as (-> & _). f_equal. lia. }
  destruct (zone p s (opp s2) _). { apply zoneAct_line in K; [|now apply adj_opp2|reflexivity]. unfold zoneAct. replace (d' =? 0) with true by lia. replace (asz b s - 1 - e =? 0) with false by lia. cbn [andb]. destruct K as (-> & _). f_equal. lia. }
  destruct (second p s2 e); [now apply blk_line in K|]. destruct (second p (opp s2) _); [now apply blk_line in K|]. injection K as <-. reflexivity.
Qed.

Lemma line_cross p b s s2 p' b' s' s2' m d e : glued bs t p b s s2 p' b' s' s2' -> glued bs t p' b' s' s2' p b s s2 -> 0 <= d < n -> 0 <= e < asz b s ->
  kind (fun_at bs p b s d s2 e) = Line s m d -> kind (fun_at bs p' b' s' d s2' e) = Line s' m d.
Proof.
  intros G G' D Ee. pose proof (gl_b _ _ _ _ _ _ _ _ _ _ G) as B. pose proof (gl_b' _ _ _ _ _ _ _ _ _ _ G) as B'. pose proof (gl_size _ _ _ _ _ _ _ _ _ _ G) as SZ. pose proof (gl_adj _ _ _ _ _ _ _ _ _ _ G) as A. pose proof (gl_adj _ _ _ _ _ _ _ _ _ _ G') as A'.
  pose proof (glued_opp _ _ _ _ _ _ _ _ G) as H. pose proof (glued_opp _ _ _ _ _ _ _ _ G') as H'.
  rewrite !kind_strip by (eauto using glued_iface || lia). rewrite (strip_eq p b), (strip_eq p' b') by assumption. cbv zeta. rewrite <- SZ.
  rewrite <- (zone_cross _ _ _ _ _ _ _ _ e G), <- (zone_cross _ _ _ _ _ _ _ _ (asz b s - 1 - e) H).
  destruct (zone p s s2 e) eqn:Z. { intros K. apply zoneAct_line in K; [|assumption|reflexivity]. destruct K as (-> & _ & -> & Ne). unfold zoneAct. replace (e =? 0) with false by lia. reflexivity. }
  destruct (zone p s (opp s2) (asz b s - 1 - e)) eqn:Z2. { intros K. apply zoneAct_line in K; [|now apply adj_opp2|reflexivity]. destruct K as (-> & _ & -> & Ne). unfold zoneAct. replace (asz b s - 1 - e =? 0) with false by lia. reflexivity. }
  rewrite <- (second_cross _ _ _ _ _ _ _ _ e G G' Z), <- (second_cross _ _ _ _ _ _ _ _ _ H H' Z2).
  destruct (second p s2 e). { intros K. now apply blk_line in K. }
  destruct (second p (opp s2) _). { intros K. now apply blk_line in K. }
  intros K. injection K as <-. reflexivity.
Qed.

(** so are those of a block *)
Lemma block_kind p b s s2 d e : nth_error bs p = Some b -> adjacent s s2 -> isInterface t (p, s) = true -> isInterface t (p, s2) = true -> pSpec (mconf M p) (cornerOf s s2) = false ->
  0 <= d < n -> 0 <= e < n -> kind (fun_at bs p b s d s2 e) = blk s s2 n d e.
Proof.
  intros E A I I2 SP D Ee. destruct (sizes p b s E) as (_ & _ & _ & B). rewrite kind_strip by (assumption || lia). rewrite (strip_eq p b) by assumption. cbv zeta.
  pose proof (along_eq p b s s2 E A I I2 SP) as AE. pose proof (along_sum p b s s2 E A) as AS.
  unfold zone at 1. rewrite SP. cbn [andb]. replace (zone p s (opp s2) (asz b s - 1 - e)) with false by (unfold zone; lia).
  unfold second at 1. destruct (conf_facts p b E) as (_ & _ & _ & _ & _ & _ & PI). rewrite PI, I2. replace (e <? n) with true by lia. reflexivity.
Qed.

Lemma singular_cross p b s s2 p' b' s' s2' : glued bs t p b s s2 p' b' s' s2' -> glued bs t p' b' s' s2' p b s s2 ->
  kind (fun_at bs p b s 0 s2 0) = Singular -> kind (fun_at bs p' b' s' 0 s2' 0) = Singular.
Proof.
  intros G G'. pose proof (gl_b _ _ _ _ _ _ _ _ _ _ G) as B. pose proof (gl_b' _ _ _ _ _ _ _ _ _ _ G) as B'. pose proof (gl_size _ _ _ _ _ _ _ _ _ _ G) as SZ. pose proof (gl_adj _ _ _ _ _ _ _ _ _ _ G) as A. pose proof (gl_adj _ _ _ _ _ _ _ _ _ _ G') as A'.
  pose proof (n_ge p b B) as N2. destruct (sizes p b s B) as (_ & _ & _ & B3).
  rewrite !kind_strip by (eauto using glued_iface || lia). rewrite (strip_eq p b), (strip_eq p' b') by assumption. cbv zeta. rewrite <- SZ.
  rewrite <- (zone_cross _ _ _ _ _ _ _ _ 0 G). destruct (zone p s s2 0); [reflexivity|].
  destruct (zone p s (opp s2) _). { unfold zoneAct. replace (asz b s - 1 - 0 =? 0) with false by lia. cbn. discriminate. }
  destruct (second p s2 0). { unfold blk. destruct (side_dir s); discriminate. }
  destruct (second p (opp s2) _). { unfold blk. destruct (side_dir s); discriminate. }
  discriminate.
Qed.

(** *** What is known about a function from the way it is treated *)
Lemma fun_of_L p b s s2 u v : nth_error bs p = Some b -> adjacent s s2 -> 0 <= u < mb_u b -> 0 <= v < mb_v b ->
  exists d e, 0 <= d < nsz b s /\ 0 <= e < asz b s /\ L bs p b u v = fun_at bs p b s d s2 e /\ d = coord (nsz b s) (side_par s) (if Nat.eqb (side_dir s) 1 then v else u) /\ e = coord (asz b s) (side_par s2) (if Nat.eqb (side_dir s) 1 then u else v).
Proof.
  intros E A U V. eexists _, _. split; [|split; [|split; [|split; reflexivity]]].
  - destruct s; cbn [nsz side_par side_dir Nat.eqb coord]; lia.
  - unfold adjacent in A. destruct s, s2; cbn [asz side_par side_dir Nat.eqb coord] in *; congruence || lia.
  - unfold adjacent in A. unfold L, fun_at. destruct s, s2; cbn [nsz asz side_par side_dir Nat.eqb coord] in *; congruence || ring.
Qed.

Lemma line_inv l s m d : valid l -> kind l = Line s m d -> exists p b, getPatch bs l = p /\ nth_error bs p = Some b /\ isInterface t (p, s) = true /\ 0 <= d < n /\
  forall s2, adjacent s s2 -> exists e, 0 <= e < asz b s /\ l = fun_at bs p b s d s2 e.
Proof.
  intros V K. destruct (decode l V) as (p & b & u & v & E & U & W & ->). exists p, b. split; [now apply getPatch_L; [apply POS|..]|]. split; [exact E|].
  rewrite (kind_L p b u v E U W) in K. destruct (conf_facts p b E) as (CU & CV & DU & DV & _ & N & PI). pose proof (n_ge p b E) as N2.
  assert (X : pInt (mconf M p) s = true /\ 0 <= d < n /\ d = coord (nsz b s) (side_par s) (if Nat.eqb (side_dir s) 1 then v else u)).
  { unfold expected in K. destruct (find _ _) as [k|].
    - destruct ((cdi (mconf M p) k (u, v) =? 0) && (cdj (mconf M p) k (u, v) =? 0)); [discriminate|].
      destruct (pInt (mconf M p) (vside k) && (cdi (mconf M p) k (u, v) =? 0)) eqn:Q1.
      + injection K as <- <- <-. split; [lia|]. split; [lia|]. unfold cdi in Q1. unfold vside. destruct (cpar0 k); cbn [side_par side_dir nsz Nat.eqb coord fst] in *; lia.
      + destruct (pInt (mconf M p) (hside k) && (cdj (mconf M p) k (u, v) =? 0)) eqn:Q2; [|discriminate]. injection K as <- <- <-. split; [lia|]. split; [lia|]. unfold cdj in Q2. unfold hside. destruct (cpar1 k); cbn [side_par side_dir nsz Nat.eqb coord snd] in *; lia.
    - unfold near_h, near_v in K. cbn [fst snd] in K.
      repeat match type of K with context [if ?c then _ else _] => let Q := fresh "Q" in destruct c eqn:Q end; try discriminate; injection K as <- <- <-; cbn [side_par side_dir nsz Nat.eqb coord]; lia. }
  destruct X as (I & D & Dd). rewrite PI in I. split; [exact I|]. split; [exact D|].
  intros s2 A. destruct (fun_of_L p b s s2 u v E A U W) as (d1 & e & D1 & Ee & -> & Q & _). exists e. split; [exact Ee|]. now rewrite Dd, <- Q.
Qed.

Lemma block_inv l s1 s2 n1 n2 d1 d2 : valid l -> kind l = Block s1 s2 n1 n2 d1 d2 -> exists p b, getPatch bs l = p /\ nth_error bs p = Some b /\ side_dir s1 = 1%nat /\ side_dir s2 = O /\
  isInterface t (p, s1) = true /\ isInterface t (p, s2) = true /\ n1 = n /\ n2 = n /\ 0 <= d1 < n /\ 0 <= d2 < n /\ l = fun_at bs p b s1 d1 s2 d2 /\ pSpec (mconf M p) (cornerOf s1 s2) = false.
Proof.
  intros V K. destruct (decode l V) as (p & b & u & v & E & U & W & ->). exists p, b. split; [now apply getPatch_L; [apply POS|..]|]. split; [exact E|].
  pose proof K as K0. rewrite (kind_L p b u v E U W) in K. destruct (conf_facts p b E) as (CU & CV & DU & DV & _ & N & PI). pose proof (n_ge p b E) as N2.
  assert (X : side_dir s1 = 1%nat /\ side_dir s2 = O /\ pInt (mconf M p) s1 = true /\ pInt (mconf M p) s2 = true /\ n1 = n /\ n2 = n /\ 0 <= d1 < n /\ 0 <= d2 < n /\ L bs p b u v = fun_at bs p b s1 d1 s2 d2).
  { unfold expected in K. destruct (find _ _) as [k|].
    - repeat match type of K with context [if ?c then _ else _] => destruct c end; discriminate.
    - unfold near_h, near_v in K. cbn [fst snd] in K.
      repeat match type of K with context [if ?c then _ else _] => let Q := fresh "Q" in destruct c eqn:Q end; try discriminate; injection K as <- <- <- <- <- <-;
      (split; [reflexivity|]; split; [reflexivity|]; split; [lia|]; split; [lia|]; split; [lia|]; split; [lia|]; split; [lia|]; split; [lia|]; unfold L, fun_at, coord; cbn [side_dir side_par]; rewrite ?CU, ?CV; ring). }
  destruct X as (S1 & S2 & I1 & I2 & -> & -> & D1 & D2 & EL). rewrite PI in I1, I2.
  split; [exact S1|]. split; [exact S2|]. split; [exact I1|]. split; [exact I2|]. split; [reflexivity|]. split; [reflexivity|]. split; [exact D1|]. split; [exact D2|]. split; [exact EL|].
  assert (A : adjacent s1 s2) by (unfold adjacent; congruence).
  destruct (pSpec (mconf M p) (cornerOf s1 s2)) eqn:SP; [|reflexivity]. exfalso. rewrite EL in K0. destruct (sizes p b s1 E) as (_ & _ & _ & B).
  rewrite kind_strip in K0 by (assumption || lia). rewrite (strip_eq p b) in K0 by assumption. cbv zeta in K0. pose proof (along_ge p b s1 s2 E A I1 I2 SP).
  replace (zone p s1 s2 d2) with true in K0 by (unfold zone; rewrite SP; lia). unfold zoneAct in K0.
  repeat match type of K0 with context [if ?c then _ else _] => destruct c end; discriminate.
Qed.

(** the function in a corner of a patch *)
Definition cornerFun (p : nat) (b : mbase) (k : corner) : Z := fun_at bs p b (cside k 0) 0 (cside k 1) 0.

Lemma cside_adj k : adjacent (cside k 0) (cside k 1). Proof. destruct k; cbn; unfold adjacent; cbn; congruence. Qed.

Lemma cornerFun_sides p b s s2 : adjacent s s2 -> cornerFun p b (cornerOf s s2) = fun_at bs p b s 0 s2 0.
Proof. unfold adjacent, cornerFun, cornerOf, fun_at. destruct s, s2; cbn; congruence. Qed.

Lemma singular_inv l : valid l -> kind l = Singular -> exists p b k, getPatch bs l = p /\ nth_error bs p = Some b /\ l = cornerFun p b k /\ pSpec (mconf M p) k = true.
Proof.
  intros V K. destruct (decode l V) as (p & b & u & v & E & U & W & ->).
  rewrite (kind_L p b u v E U W) in K. destruct (conf_facts p b E) as (CU & CV & DU & DV & _ & N & PI).
  unfold expected in K. destruct (find (special_zone (mconf M p) (u, v)) [SW; SE; NW; NE]) as [k|] eqn:F.
  - exists p, b, k. split; [now apply getPatch_L; [apply POS|..]|]. split; [exact E|]. apply find_some in F. destruct F as (_ & F).
    split; [|unfold special_zone in F; lia]. destruct ((cdi (mconf M p) k (u, v) =? 0) && (cdj (mconf M p) k (u, v) =? 0)) eqn:Q.
    + unfold cornerFun, L, fun_at, cdi, cdj, coord in *. cbn [fst snd] in Q. destruct k; cbn [cside cpar0 cpar1 side_dir side_par] in *; nia.
    + repeat match type of K with context [if ?c then _ else _] => destruct c end; discriminate.
  - unfold near_h, near_v in K. repeat match type of K with context [if ?c then _ else _] => destruct c end; discriminate.
Qed.

End K.
