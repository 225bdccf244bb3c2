(** The columns that the functions of a multi-patch basis start. *)
From Coq Require Import Reals Lra.
From Verif Require Import Common ListLemmas TopoModel TopoSpec TopoProofs MapModel MapSpec MapProofs MapRegions MapTravelSpec MapTravel MapActions MapLines MapAllModel MapAllSpec MapAllLoc MapAllKind SplineModel BoehmModel BoehmSpec BoehmProofs2.
From Coq Require Import ZifyBool Permutation.
Open Scope Z_scope.

(** *** Sums over lists *)
Definition rs {A} (f : A -> R) (l : list A) : R := fold_right Rplus 0%R (map f l).

Lemma rs_cons {A} (f : A -> R) x l : rs f (x :: l) = (f x + rs f l)%R. Proof. reflexivity. Qed.
Lemma rs_app {A} (f : A -> R) l l' : rs f (l ++ l') = (rs f l + rs f l')%R.
Proof. induction l as [|x l IH]; cbn [app]; [unfold rs at 2; cbn; ring|]. rewrite !rs_cons, IH. ring. Qed.
Lemma rs_ext {A} (f g : A -> R) l : (forall x, In x l -> f x = g x) -> rs f l = rs g l.
Proof. intros H. unfold rs. f_equal. now apply map_ext_in. Qed.
Lemma rs_map {A B} (h : A -> B) (f : B -> R) l : rs f (map h l) = rs (fun x => f (h x)) l.
Proof. unfold rs. now rewrite map_map. Qed.
Lemma rs_zero {A} (f : A -> R) l : (forall x, In x l -> f x = 0%R) -> rs f l = 0%R.
Proof. induction l as [|x l IH]; intros H; [reflexivity|]. rewrite rs_cons, IH, H; [ring|now left|intros; apply H; now right]. Qed.
Lemma rs_flat {A B} (g : A -> list B) (f : B -> R) l : rs f (flat_map g l) = rs (fun x => rs f (g x)) l.
Proof. induction l as [|x l IH]; [reflexivity|]. cbn [flat_map]. rewrite rs_app, rs_cons, IH. reflexivity. Qed.
Lemma rs_scal {A} (c : R) (f : A -> R) l : rs (fun x => (c * f x)%R) l = (c * rs f l)%R.
Proof. induction l as [|x l IH]; [unfold rs; cbn; ring|]. rewrite !rs_cons, IH. ring. Qed.
Lemma rs_perm {A} (f : A -> R) l l' : Permutation l l' -> rs f l = rs f l'.
Proof. induction 1; rewrite ?rs_cons; try lra; reflexivity. Qed.

(** a sum that only has terms in [g] *)
Lemma rs_support {A} (f : A -> R) (g l : list A) : NoDup l -> NoDup g -> incl g l -> (forall x, In x l -> f x <> 0%R -> In x g) -> rs f l = rs f g.
Proof.
  revert l. induction g as [|x g IH]; intros l NL NG IN S.
  - apply rs_zero. intros x I. destruct (Req_dec (f x) 0) as [E|E]; [exact E|]. elim (S x I E).
  - destruct (in_split x l) as (la & lb & EL); [apply IN; now left|]. assert (P : Permutation l (x :: la ++ lb)) by (rewrite EL; symmetry; apply Permutation_middle). set (l' := la ++ lb) in *. clearbody l'. clear EL. rewrite (rs_perm f _ _ P), !rs_cons. f_equal. inversion NG as [|? ? NX NG']; subst.
    pose proof (Permutation_NoDup P NL) as NL'. inversion NL' as [|? ? NX' NL'']; subst. apply IH; try assumption.
    + intros y Y. assert (J : In y (x :: l')) by (eapply Permutation_in; [exact P|]; apply IN; now right). destruct J as [->|J]; [contradiction|exact J].
    + intros y Y E. destruct (S y) as [->|J]; [eapply Permutation_in; [symmetry; exact P|]; now right|exact E|contradiction|exact J].
Qed.

Lemma rsum_rs n (f : nat -> R) : rsum n f = rs f (seq 0 n).
Proof. induction n as [|n IH]; [reflexivity|]. rewrite seq_S, rs_app, <- IH. cbn [rsum]. unfold rs at 1. cbn. ring. Qed.
Lemma rsum_zrange n (f : Z -> R) : rsum (Z.to_nat n) (fun k => f (Z.of_nat k)) = rs f (zrange 0 n).
Proof. rewrite rsum_rs. unfold zrange. rewrite rs_map. rewrite Z.sub_0_r. apply rs_ext. intros k _. f_equal. Qed.

(** *** Entries of a column *)
Lemma entry_fold c l a : fold_left (fun a e => if fst e =? l then snd e else a) c a = if existsb (fun e : Z * R => fst e =? l) c then entry c l else a.
Proof.
  unfold entry. revert a. induction c as [|(x, v) c IH]; intros a; [reflexivity|]. cbn [fold_left existsb fst snd]. destruct (x =? l) eqn:E; cbn [orb].
  - rewrite IH. symmetry. rewrite IH. reflexivity.
  - rewrite IH. symmetry. destruct (existsb _ c); reflexivity.
Qed.
Lemma entry_cons x v c l : entry ((x, v) :: c) l = if existsb (fun e => fst e =? l) c then entry c l else if x =? l then v else 0%R.
Proof. unfold entry at 1. cbn [fold_left fst snd]. apply entry_fold. Qed.

Lemma entry_in {A} (f : A -> Z) (g : A -> R) l x L : In x l -> f x = L -> (forall y, In y l -> f y = L -> y = x) -> entry (map (fun y => (f y, g y)) l) L = g x.
Proof.
  induction l as [|y l IH]; intros I F U; [destruct I|]. cbn [map]. rewrite entry_cons. destruct (existsb _ _) eqn:X.
  - apply existsb_exists in X. destruct X as (e & E & EL). apply in_map_iff in E. destruct E as (z & <- & Z). cbn [fst] in EL. apply Z.eqb_eq in EL.
    assert (z = x) by (apply U; [now right|exact EL]). subst z. apply IH; [exact Z|exact F|]. intros w W; apply U; now right.
  - destruct I as [->|I].
    + rewrite F, Z.eqb_refl. reflexivity.
    + exfalso. assert (existsb (fun e : Z * R => fst e =? L) (map (fun y => (f y, g y)) l) = true); [|congruence]. apply existsb_exists. exists (f x, g x). split; [now apply (in_map (fun y => (f y, g y)))|]. cbn. lia.
Qed.
Lemma entry_out (c : column) L : (forall e, In e c -> fst e <> L) -> entry c L = 0%R.
Proof.
  induction c as [|(x, v) c IH]; intros H; [reflexivity|]. rewrite entry_cons, IH by (intros; apply H; now right). destruct (existsb _ _); [reflexivity|].
  pose proof (H (x, v) (or_introl eq_refl)). cbn in H0. replace (x =? L) with false by lia. reflexivity.
Qed.

Definition addK (M : mpbes) (l : Z) (a : act) : res (list column) :=
  match a with
  | Free => Ok [[(l, 1%R)]]
  | Singular => addSingularCorner M l
  | Line s len dist => addBlockToMap M l [s] [len] [dist]
  | Block s1 s2 len1 len2 dist1 dist2 => addBlockToMap M l [s1; s2] [len1; len2] [dist1; dist2]
  end.

Section C.
Context (M : mpbes) (n : Z) (OK : mp_ok M n).
Notation bs := (mbs M).
Notation t := (mtop M).
Notation kind := (kind M).
Notation valid := (valid M).
Notation POS := (POS M n OK).

(** *** Weights *)
Definition Wt (p : nat) (s : side) (m d : Z) : list R := match weights1 M p s m d with Ok w => w | Err => [] end.
Definition wt (p : nat) (s : side) (m d k : Z) : R := nth (Z.to_nat k) (Wt p s m d) 0%R.

Lemma weights_pf p s m pn : getNeighbour t (p, s) = Ok pn -> 1 <= m <= n ->
  (forall d, 0 <= d < m -> weights1 M p s m d = Ok (Wt p s m d) /\ length (Wt p s m d) = S (Z.to_nat m) /\ forall k, 0 <= k <= m -> (0 < wt p s m d k)%R) /\
  (forall d, 0 <= d < m -> rs (fun k => if d <=? k then wt p s m k (k - d) else 0%R) (zrange 0 m) = 1%R /\ rs (fun k => wt p s m k (k + 1 + d)) (zrange 0 m) = 1%R).
Proof.
  destruct pn as (p', s'). intros G N. destruct (mp_deg _ _ OK _ _ _ _ G) as (DE & DN).
  destruct (mp_knots _ _ OK p (side_dir s)) as (b0 & in0 & C0). destruct (mp_knots _ _ OK p' (side_dir s')) as (b1 & in1 & C1).
  pose proof (mp_weights _ _ OK (p, s)) as W0. pose proof (mp_weights _ _ OK (p', s')) as W1.
  assert (DD : (1 <= Z.to_nat m <= sdeg (mkv M p (side_dir s)))%nat) by lia.
  assert (E : forall d, weights1 M p s m d = getBoehmCoefs (mkv M p (side_dir s)) (side_par s) (mwt M (p, s)) (mkv M p' (side_dir s')) (side_par s') (mwt M (p', s')) (Z.to_nat m) (Z.to_nat d)) by (intros d; unfold weights1; rewrite G; reflexivity).
  split.
  - intros d D. destruct (coupled_pf _ _ 0%R b0 b1 in0 in1 (side_par s) (side_par s') _ _ (Z.to_nat m) C0 C1 W0 W1 DE DD (Z.to_nat d)) as (ws & _ & E1 & LE & PS & _); [lia|].
    unfold wt, Wt. rewrite E, E1. split; [reflexivity|]. split; [exact LE|]. intros k K. apply (PS (Z.to_nat k)). lia.
  - destruct (partition_pf _ _ 0%R b0 b1 in0 in1 (side_par s) (side_par s') _ _ (Z.to_nat m) C0 C1 W0 W1 DE DD) as (ws & E1 & SU).
    intros d D. destruct (SU (Z.to_nat d)) as (S1 & S2); [lia|].
    assert (EW : forall k, (k < Z.to_nat m)%nat -> Wt p s m (Z.of_nat k) = ws k) by (intros k K; unfold Wt; rewrite E, Nat2Z.id, E1 by exact K; reflexivity).
    split; rewrite <- rsum_zrange, rsum_rs.
    + rewrite <- S1, rsum_rs. apply rs_ext. intros k K. apply in_seq in K. unfold wt. rewrite EW by lia. replace (d <=? Z.of_nat k) with (Z.to_nat d <=? k)%nat by lia. destruct (Z.to_nat d <=? k)%nat; [|reflexivity]. f_equal. lia.
    + rewrite <- S2, rsum_rs. apply rs_ext. intros k K. apply in_seq in K. unfold wt. rewrite EW by lia. f_equal. lia.
Qed.

(** *** Columns of lines *)
Lemma mapM_ext {A B} (f g : A -> res B) l : (forall x, In x l -> f x = g x) -> mapM f l = mapM g l.
Proof. induction l as [|x l IH]; intros H; [reflexivity|]. cbn [mapM]. rewrite (H x) by now left. rewrite IH by (intros; apply H; now right). reflexivity. Qed.
Lemma enum1 m : enum [m] = map (fun k => [k]) (zrange 0 (m + 1)).
Proof. cbn [enum flat_map]. now rewrite app_nil_r. Qed.
Lemma vget_nth (w : list R) k : (k < length w)%nat -> vget w k = Ok (nth k w 0%R).
Proof. intros K. unfold vget. rewrite (nth_error_nth' w 0%R K). reflexivity. Qed.

Definition lineCol p b s s2 p' b' s' s2' d e m : column := map (fun k => (line_fun bs p b s s2 p' b' s' s2' d e k, wt p s m d k)) (zrange 0 (m + 1)).

Lemma cols_line p b s s2 p' b' s' s2' m d e : glued bs t p b s s2 p' b' s' s2' -> glued bs t p' b' s' s2' p b s s2 -> p <> p' -> 1 <= m <= n -> 0 <= d < m -> 0 <= e < asz b s ->
  addBlockToMap M (fun_at bs p b s d s2 e) [s] [m] [d] = Ok (if (p <? p')%nat then [lineCol p b s s2 p' b' s' s2' d e m] else []).
Proof.
  intros G G' NE Mm D Ee. pose proof (gl_b _ _ _ _ _ _ _ _ _ _ G) as B. pose proof (gl_b' _ _ _ _ _ _ _ _ _ _ G) as B'. pose proof (gl_adj _ _ _ _ _ _ _ _ _ _ G) as A.
  destruct (sizes M n OK p b s B) as (_ & _ & SN & _). destruct (sizes M n OK p' b' s' B') as (_ & _ & SN' & _).
  assert (GP : getPatch bs (fun_at bs p b s d s2 e) = p) by (apply getPatch_fun; try assumption; [apply POS|lia]).
  destruct (weights_pf p s m (p', s') (glued_nb M _ _ _ _ _ _ _ _ G) Mm) as (WO & _). destruct (WO d D) as (W1 & WL & _). clear WO.
  destruct (lines_pf bs t POS p b s s2 p' b' s' s2' d e m G G' D Ee) as (ls & BL & _ & _ & _ & _ & AB); [lia..|]. specialize (AB NE).
  unfold addBlock in AB. rewrite BL in AB. cbn [bind] in AB. rewrite GP in AB.
  unfold addBlockToMap. cbn [combine mapM fst snd]. rewrite GP, W1. cbn [bind].
  unfold blockLocals in BL. rewrite blockPoints_enum in * by (intros l [<-|[]]; lia). cbn [bind] in *.
  assert (T : forall k, 0 <= k <= m -> travelUVSteps (travelFuel [m]) bs t (fun_at bs p b s d s2 e) [towards s k] = Ok (line_fun bs p b s s2 p' b' s' s2' d e k)).
  { intros k K. destruct (fuel_ge 2 (travelFuel [m])) as (f & ->); [unfold travelFuel; cbn [sumZ fold_right length]; lia|]. apply line_travel; try assumption; [apply POS|lia..]. }
  rewrite (mapM_ok _ (fun pt => (line_fun bs p b s s2 p' b' s' s2' d e (hd 0 pt), wt p s m d (hd 0 pt)))).
  2:{ intros pt Hp. rewrite enum1 in Hp. apply in_map_iff in Hp. destruct Hp as (k & <- & K). apply zrange_in in K. cbn [combine mapM fst snd map hd]. rewrite vget_nth by lia. cbn [bind]. rewrite T by lia. cbn [bind fold_left]. unfold wt. now rewrite Rmult_1_l. }
  cbn [bind]. rewrite (mapM_ok _ (fun pt => line_fun bs p b s s2 p' b' s' s2' d e (hd 0 pt))) in BL.
  2:{ intros pt Hp. rewrite enum1 in Hp. apply in_map_iff in Hp. destruct Hp as (k & <- & K). apply zrange_in in K. cbn [combine fst snd map hd]. apply T. lia. }
  assert (BL2 : map (fun pt => line_fun bs p b s s2 p' b' s' s2' d e (hd 0 pt)) (enum [m]) = ls) by congruence. rewrite map_map. cbn [fst]. rewrite BL2. rewrite enum1, map_map. cbn [hd].
  change (map (fun x => (line_fun bs p b s s2 p' b' s' s2' d e x, wt p s m d x)) (zrange 0 (m + 1))) with (lineCol p b s s2 p' b' s' s2' d e m).
  destruct (alreadyHandled bs ls p), (p <? p')%nat; try discriminate; reflexivity.
Qed.

Definition blockCol F F1 F2 F3 x y : column :=
  map (fun pt => (block_fun bs F F1 F2 F3 x y (nth 0 pt 0) (nth 1 pt 0), (wt (fp F) (fs1 F) n x (nth 0 pt 0%Z) * wt (fp F) (fs2 F) n y (nth 1 pt 0%Z))%R)) (enum [n; n]).

Lemma square_room F F1 F2 F3 : square bs t F F1 F2 F3 -> room n n F /\ room n n F1 /\ room n n F2 /\ room n n F3.
Proof.
  intros SQ. destruct (square_frames bs t F F1 F2 F3 SQ) as ((A & _) & (B & _) & (C & _) & (D & _)).
  assert (R : forall G, nth_error bs (fp G) = Some (fb G) -> room n n G).
  { intros G E. pose proof (n_ge M n OK _ _ E). destruct (sizes M n OK _ _ (fs1 G) E) as (_ & _ & X & _). destruct (sizes M n OK _ _ (fs2 G) E) as (_ & _ & Y & _). unfold room. lia. }
  auto.
Qed.

Lemma cols_block F F1 F2 F3 x y : square bs t F F1 F2 F3 -> 0 <= x < n -> 0 <= y < n ->
  addBlockToMap M (fun_at bs (fp F) (fb F) (fs1 F) x (fs2 F) y) [fs1 F; fs2 F] [n; n] [x; y] =
  Ok (if (fp F <=? fp F1)%nat && (fp F <=? fp F2)%nat && (fp F <=? fp F3)%nat then [blockCol F F1 F2 F3 x y] else []).
Proof.
  intros SQ X Y. destruct (square_room _ _ _ _ SQ) as (R0 & R1 & R2 & R3). destruct (square_frames bs t F F1 F2 F3 SQ) as ((E & A) & _).
  destruct (sizes M n OK _ _ (fs1 F) E) as (_ & _ & SN & SN2).
  set (S := fun_at bs (fp F) (fb F) (fs1 F) x (fs2 F) y).
  assert (GP : getPatch bs S = fp F) by (apply getPatch_fun; try assumption; [apply POS|lia..]).
  destruct (sq_01 _ _ _ _ _ _ SQ) as (G1 & _). destruct (sq_02 _ _ _ _ _ _ SQ) as (G2 & _).
  destruct (weights_pf _ _ n _ (glued_nb M _ _ _ _ _ _ _ _ G1)) as (WO & _); [lia|]. destruct (WO x X) as (W1 & WL & _). clear WO.
  destruct (weights_pf _ _ n _ (glued_nb M _ _ _ _ _ _ _ _ G2)) as (WO & _); [lia|]. destruct (WO y Y) as (W2 & WL2 & _). clear WO.
  destruct (block_pf bs t POS F F1 F2 F3 n n x y SQ R0 R1 R2 R3 X Y) as (ls & BL & _ & _ & _ & AB). fold S in BL, AB.
  unfold addBlock in AB. rewrite BL in AB. cbn [bind] in AB. rewrite GP in AB.
  pose proof (block_locals bs t POS F F1 F2 F3 n n x y SQ R0 R1 R2 R3 X Y) as BL2. fold S in BL2. rewrite BL in BL2. injection BL2 as ->.
  unfold addBlockToMap. cbn [combine mapM fst snd]. rewrite GP, W1. cbn [bind]. rewrite W2. cbn [bind].
  rewrite blockPoints_enum by (intros l [<-|[<-|[]]]; lia). cbn [bind].
  rewrite (mapM_ok _ (fun pt => (block_fun bs F F1 F2 F3 x y (nth 0 pt 0) (nth 1 pt 0), (wt (fp F) (fs1 F) n x (nth 0 pt 0%Z) * wt (fp F) (fs2 F) n y (nth 1 pt 0%Z))%R))).
  2:{ intros pt Hp. apply enum_in, in_box2 in Hp. destruct Hp as (k1 & k2 & -> & K1 & K2). cbn [combine mapM fst snd map nth]. rewrite !vget_nth by lia. cbn [bind].
      destruct (fuel_ge 4 (travelFuel [n; n])) as (f & ->); [unfold travelFuel; cbn [sumZ fold_right length]; lia|].
      pose proof (block_travel bs t POS F F1 F2 F3 n n x y k1 k2 f SQ R0 R1 R2 R3 X Y K1 K2) as BT. cbn [Nat.add]. fold S in BT. rewrite BT. cbn [bind fold_left]. unfold wt. now rewrite Rmult_1_l. }
  cbn [bind]. rewrite map_map. cbn [fst].
  change (map (fun x0 => block_fun bs F F1 F2 F3 x y (nth 0 x0 0) (nth 1 x0 0)) (enum [n; n])) with (block_list bs F F1 F2 F3 n n x y).
  fold (blockCol F F1 F2 F3 x y).
  destruct (alreadyHandled bs _ (fp F)), ((fp F <=? fp F1)%nat && (fp F <=? fp F2)%nat && (fp F <=? fp F3)%nat); try discriminate; reflexivity.
Qed.

End C.
