(** Row sums over functions that are combined in blocks. *)
From Coq Require Import Reals Lra.
From Verif Require Import Common ListLemmas TopoModel TopoSpec TopoProofs MapModel MapSpec MapProofs MapRegions MapTravelSpec MapTravel MapActions MapLines MapAllModel MapAllSpec MapAllLoc MapAllKind MapAllCols MapAllLines.
From Coq Require Import ZifyBool Permutation.
Open Scope Z_scope.

Definition sw (G : frame) : frame := mkF (fp G) (fb G) (fs2 G) (fs1 G).
(** the same corner with the south or north side first *)
Definition nf (G : frame) : frame := match side_dir (fs1 G) with O => sw G | _ => G end.
Lemma nf_fp G : fp (nf G) = fp G. Proof. unfold nf. destruct (side_dir (fs1 G)); reflexivity. Qed.
Lemma nf_fb G : fb (nf G) = fb G. Proof. unfold nf. destruct (side_dir (fs1 G)); reflexivity. Qed.
Lemma nf_of F : side_dir (fs1 F) = 1%nat -> nf F = F. Proof. unfold nf. now intros ->. Qed.
Lemma nf_sw F : side_dir (fs1 F) = 1%nat -> nf (sw F) = F \/ side_dir (fs2 F) = 1%nat.
Proof. unfold nf. cbn [sw fs1]. destruct (side_dir (fs2 F)) as [|k] eqn:E; [destruct F; now left|]. right. destruct (fs2 F); cbn in *; congruence. Qed.

Lemma NoDup_prod {A B} (l : list A) (l' : list B) : NoDup l -> NoDup l' -> NoDup (list_prod l l').
Proof.
  intros Q N'. induction l as [|a l IH]; [constructor|]. inversion Q; subst. cbn [list_prod]. apply NoDup_app_iff. split; [|split].
  - apply NoDup_map_inj; [intros ? ? _ _ J; now injection J|assumption].
  - now apply IH.
  - intros (u, w) I1 I2. apply in_map_iff in I1. destruct I1 as (? & J & _). injection J as <- _. apply in_prod_iff in I2. tauto.
Qed.
Lemma rs_prod {A B} (f : A -> R) (g : B -> R) l l' : rs (fun xy => (f (fst xy) * g (snd xy))%R) (list_prod l l') = (rs f l * rs g l')%R.
Proof. induction l as [|a l IH]; [unfold rs; cbn; ring|]. cbn [list_prod]. rewrite rs_app, rs_map, rs_cons, IH. cbn [fst snd]. rewrite rs_scal. ring. Qed.

Section B.
Context (M : mpbes) (n : Z) (OK : mp_ok M n).
Notation bs := (mbs M).
Notation t := (mtop M).
Notation kind := (kind M).
Notation valid := (valid M).
Notation POS := (POS M n OK).
Notation contrib := (contrib M).

Definition cf (G : frame) (d e : Z) : Z := fun_at bs (fp G) (fb G) (fs1 G) d (fs2 G) e.
Definition spec (G : frame) : bool := pSpec (mconf M (fp G)) (cornerOf (fs1 G) (fs2 G)).

Lemma cornerOf_sym s s2 : adjacent s s2 -> cornerOf s s2 = cornerOf s2 s.
Proof. unfold adjacent, cornerOf. destruct s, s2; cbn; congruence. Qed.
Lemma cf_sw G d e : adjacent (fs1 G) (fs2 G) -> cf (sw G) e d = cf G d e.
Proof. intros A. unfold cf. cbn [sw fp fb fs1 fs2]. symmetry. now apply fun_at_swap. Qed.
Lemma spec_sw G : adjacent (fs1 G) (fs2 G) -> spec (sw G) = spec G.
Proof. intros A. unfold spec. cbn [sw fp fb fs1 fs2]. now rewrite cornerOf_sym by now apply adj_sym. Qed.
Lemma cross1_spec F G : cross1 bs t F G -> spec F = spec G.
Proof. intros (A & _). now apply (mp_spec _ _ OK) in A. Qed.
Lemma cross2_spec F G : cross2 bs t F G -> spec F = spec G.
Proof. intros (A & B). pose proof (gl_adj _ _ _ _ _ _ _ _ _ _ A). pose proof (gl_adj _ _ _ _ _ _ _ _ _ _ B). apply (mp_spec _ _ OK) in A. unfold spec. rewrite (cornerOf_sym (fs1 F)), (cornerOf_sym (fs1 G)) by now apply adj_sym. tauto. Qed.

(** the four patches at a vertex that is not special, seen from the one with the smallest number, south or north side first *)
Record blockAt (F F1 F2 F3 : frame) : Prop := {
  ba_sq : square bs t F F1 F2 F3;
  ba_dist : distinct4 F F1 F2 F3;
  ba_first : side_dir (fs1 F) = 1%nat;
  ba_min : (fp F < fp F1)%nat /\ (fp F < fp F2)%nat /\ (fp F < fp F3)%nat;
  ba_spec : spec F = false }.

(** both sides of a frame in a square are interfaces, and the vertex is as special as from the other patches *)
Lemma square_iface F F1 F2 F3 G : square bs t F F1 F2 F3 -> In G [F; F1; F2; F3] ->
  nth_error bs (fp G) = Some (fb G) /\ adjacent (fs1 G) (fs2 G) /\ isInterface t (fp G, fs1 G) = true /\ isInterface t (fp G, fs2 G) = true /\ spec G = spec F.
Proof.
  intros SQ I. destruct (square_frames bs t F F1 F2 F3 SQ) as (A0 & A1 & A2 & A3). destruct SQ as [(X1 & Y1) (X2 & Y2) (X3 & Y3) (X4 & Y4)].
  pose proof (cross1_spec F F1 (conj X1 Y1)) as E1. pose proof (cross2_spec F F2 (conj X3 Y3)) as E2. pose proof (cross2_spec F1 F3 (conj X4 Y4)) as E3.
  destruct I as [<-|[<-|[<-|[<-|[]]]]]; (split; [apply A0 || apply A1 || apply A2 || apply A3|]; split; [apply A0 || apply A1 || apply A2 || apply A3|]; split; [eapply glued_iface; eassumption|]; split; [eapply glued_iface; eassumption|congruence]).
Qed.

Lemma square_kind F F1 F2 F3 G d e : square bs t F F1 F2 F3 -> spec F = false -> In G [F; F1; F2; F3] -> 0 <= d < n -> 0 <= e < n ->
  exists d' e', 0 <= d' < n /\ 0 <= e' < n /\ cf G d e = cf (nf G) d' e' /\ kind (cf G d e) = Block (fs1 (nf G)) (fs2 (nf G)) n n d' e' /\ valid (cf G d e) /\ getPatch bs (cf G d e) = fp G.
Proof.
  intros SQ SP I D E. destruct (square_iface F F1 F2 F3 G SQ I) as (EN & A & I1 & I2 & SG). destruct (sizes M n OK _ _ (fs1 G) EN) as (_ & _ & S1 & S2).
  assert (VG : valid (cf G d e)) by (unfold cf; apply valid_fun with (n := n); try assumption; lia).
  assert (GP : getPatch bs (cf G d e) = fp G) by (unfold cf; apply getPatch_fun; try assumption; [apply POS|lia|lia]).
  assert (K : kind (cf G d e) = blk (fs1 G) (fs2 G) n d e) by (unfold cf; apply (block_kind M n OK); try assumption; unfold spec in *; congruence).
  unfold nf, blk in *. destruct (side_dir (fs1 G)).
  - exists e, d. rewrite cf_sw by exact A. auto 6.
  - exists d, e. auto 6.
Qed.

(** any of the four frames as the first one *)
Lemma square_view F F1 F2 F3 G : square bs t F F1 F2 F3 -> In G [F; F1; F2; F3] -> exists A1 A2 A3, square bs t (nf G) A1 A2 A3 /\
  Permutation [fp F; fp F1; fp F2; fp F3] (map fp [nf G; A1; A2; A3]) /\ (exists X, In X [nf G; A1; A2; A3] /\ nf F = nf X) /\
  (forall H, In H [F; F1; F2; F3] -> exists X, In X [nf G; A1; A2; A3] /\ (H = X \/ H = sw X)).
Proof.
  intros SQ I.
  assert (W : exists A1 A2 A3, square bs t G A1 A2 A3 /\ Permutation [F; F1; F2; F3] [G; A1; A2; A3]).
  { destruct I as [<-|[<-|[<-|[<-|[]]]]].
    - exists F1, F2, F3. split; [exact SQ|reflexivity].
    - exists F, F3, F2. split; [now apply square_flip1|]. etransitivity; [apply perm_swap|]. do 2 constructor. apply perm_swap.
    - exists F3, F, F1. split; [now apply square_flip2|]. etransitivity; [apply (Permutation_app_comm [F; F1] [F2; F3])|reflexivity].
    - exists F2, F1, F. split; [apply square_flip1, square_flip2; exact SQ|]. change [F3; F2; F1; F] with (rev [F; F1; F2; F3]). apply Permutation_rev. }
  destruct W as (A1 & A2 & A3 & SA & P).
  assert (FI : In F [G; A1; A2; A3]) by (eapply Permutation_in; [exact P|now left]).
  destruct (side_dir (fs1 G)) eqn:E.
  - assert (NG : nf G = sw G) by (unfold nf; now rewrite E). exists (sw A2), (sw A1), (sw A3). rewrite NG. split; [now apply square_swap|]. split.
    + change [fp F; fp F1; fp F2; fp F3] with (map fp [F; F1; F2; F3]). rewrite (Permutation_map fp P). cbn [map sw fp]. do 1 constructor. apply perm_swap.
    + assert (T : forall H, In H [F; F1; F2; F3] -> In (sw H) [sw G; sw A2; sw A1; sw A3]).
      { intros H HI. assert (J : In H [G; A1; A2; A3]) by (eapply Permutation_in; [exact P|exact HI]). destruct J as [<-|[<-|[<-|[<-|[]]]]]; cbn; tauto. }
      split.
      * exists (sw F). split; [apply T; now left|]. destruct (square_frames bs t F F1 F2 F3 SQ) as ((_ & AF) & _). unfold nf, sw. cbn [fs1]. unfold adjacent in AF. destruct F as [p b s1 s2]; cbn [fs1 fs2 fp fb] in *. destruct s1, s2; cbn in *; congruence.
      * intros H HI. exists (sw H). split; [now apply T|]. right. now destruct H.
  - assert (NG : nf G = G) by (unfold nf; now rewrite E). exists A1, A2, A3. rewrite NG. split; [exact SA|]. split.
    + change [fp F; fp F1; fp F2; fp F3] with (map fp [F; F1; F2; F3]). rewrite (Permutation_map fp P). reflexivity.
    + split; [exists F; now split|]. intros H HI. exists H. split; [eapply Permutation_in; eassumption|now left].
Qed.

Lemma frame_eq F G : fp F = fp G -> fb F = fb G -> fs1 F = fs1 G -> fs2 F = fs2 G -> F = G.
Proof. destruct F, G; cbn. now intros -> -> -> ->. Qed.
Lemma cross1_det F G H : cross1 bs t F G -> cross1 bs t F H -> G = H.
Proof. intros (A & _) (B & _). destruct (glued_det M _ _ _ _ _ _ _ _ _ _ _ _ _ A B) as (? & ? & ? & ?). now apply frame_eq. Qed.
Lemma cross2_det F G H : cross2 bs t F G -> cross2 bs t F H -> G = H.
Proof. intros (A & _) (B & _). destruct (glued_det M _ _ _ _ _ _ _ _ _ _ _ _ _ A B) as (? & ? & ? & ?). now apply frame_eq. Qed.
Lemma square_det F A1 A2 A3 B1 B2 B3 : square bs t F A1 A2 A3 -> square bs t F B1 B2 B3 -> A1 = B1 /\ A2 = B2 /\ A3 = B3.
Proof.
  intros [X1 X2 X3 X4] [Y1 Y2 Y3 Y4]. pose proof (cross1_det _ _ _ X1 Y1). pose proof (cross2_det _ _ _ X3 Y3). subst. split; [reflexivity|]. split; [reflexivity|]. exact (cross2_det _ _ _ X4 Y4).
Qed.

Definition onB (F F1 F2 F3 : frame) (L : Z) : Prop := exists G d e, In G [F; F1; F2; F3] /\ 0 <= d < n /\ 0 <= e < n /\ L = cf G d e.

Lemma block_rep L s1 s2 n1 n2 d1 d2 : valid L -> kind L = Block s1 s2 n1 n2 d1 d2 -> exists F F1 F2 F3, blockAt F F1 F2 F3 /\ onB F F1 F2 F3 L.
Proof.
  intros V K. destruct (block_inv M n OK L s1 s2 n1 n2 d1 d2 V K) as (p & b & GP & E & SD1 & SD2 & I1 & I2 & -> & -> & D1 & D2 & EL & SP).
  assert (A : adjacent s1 s2) by (unfold adjacent; congruence).
  destruct (mp_square _ _ OK p b s1 s2 E A I1 I2 SP) as (G1 & G2 & G3 & SQ & DI). set (G := mkF p b s1 s2) in *.
  assert (SG : spec G = false) by exact SP.
  (* the frame with the smallest patch *)
  assert (MIN : exists F, In F [G; G1; G2; G3] /\ forall H, In H [G; G1; G2; G3] -> (fp F <= fp H)%nat).
  { clear. assert (X : forall l : list frame, l <> [] -> exists F, In F l /\ forall H, In H l -> (fp F <= fp H)%nat).
    { induction l as [|x l IH]; [congruence|]. intros _. destruct l as [|y l]. { exists x. split; [now left|]. intros H [->|[]]. lia. }
      destruct IH as (F & I & H); [discriminate|]. destruct (Nat.le_gt_cases (fp x) (fp F)).
      - exists x. split; [now left|]. intros H1 [<-|J]; [lia|]. specialize (H H1 J). lia.
      - exists F. split; [now right|]. intros H1 [<-|J]; [lia|]. now apply H. }
    apply X. discriminate. }
  destruct MIN as (F & FI & MI). destruct (square_view G G1 G2 G3 F SQ FI) as (A1 & A2 & A3 & SA & PM & _ & TR).
  destruct (square_iface _ _ _ _ F SQ FI) as (_ & AF & _ & _ & SF).
  exists (nf F), A1, A2, A3. split.
  - constructor.
    + exact SA.
    + unfold distinct4 in *. change [fp (nf F); fp A1; fp A2; fp A3] with (map fp [nf F; A1; A2; A3]). eapply Permutation_NoDup; [exact PM|exact DI].
    + unfold nf. destruct (side_dir (fs1 F)) eqn:Q; [|pose proof (side_dir_lt (fs1 F)); lia]. cbn [sw fs1]. unfold adjacent in AF. pose proof (side_dir_lt (fs2 F)). lia.
    + assert (ND : NoDup (map fp [nf F; A1; A2; A3])) by (eapply Permutation_NoDup; [exact PM|exact DI]). cbn [map] in ND. rewrite nf_fp in *.
      assert (LE : forall x, In x (map fp [nf F; A1; A2; A3]) -> (fp F <= x)%nat).
      { intros x X. assert (J : In x (map fp [G; G1; G2; G3])) by (eapply Permutation_in; [symmetry; exact PM|exact X]). apply in_map_iff in J. destruct J as (H & <- & J). now apply MI. }
      cbn [map] in LE. inversion ND as [|? ? N1 _]; subst. cbn [In] in N1, LE. pose proof (LE (fp A1)). pose proof (LE (fp A2)). pose proof (LE (fp A3)). lia.
    + unfold nf. destruct (side_dir (fs1 F)); [rewrite spec_sw by exact AF|]; congruence.
  - destruct (TR G (or_introl eq_refl)) as (X & XI & [EX|EX]).
    + exists X, d1, d2. split; [exact XI|]. split; [exact D1|]. split; [exact D2|]. rewrite EL. subst X. reflexivity.
    + exists X, d2, d1. split; [exact XI|]. split; [exact D2|]. split; [exact D1|]. rewrite EL.
      change (fun_at bs p b s1 d1 s2 d2) with (cf G d1 d2). rewrite EX. apply cf_sw.
      assert (AX : adjacent (fs1 (sw X)) (fs2 (sw X))) by (rewrite <- EX; exact A). apply adj_sym. exact AX.
Qed.

Lemma NoDup_map_eq {A B} (f : A -> B) l x y : NoDup (map f l) -> In x l -> In y l -> f x = f y -> x = y.
Proof.
  induction l as [|z l IH]; intros ND X Y E; [destruct X|]. cbn in ND. inversion ND as [|? ? N1 N2]; subst. destruct X as [->|X], Y as [->|Y].
  - reflexivity. - elim N1. rewrite E. now apply in_map. - elim N1. rewrite <- E. now apply in_map. - now apply IH.
Qed.

Lemma block_unique F F1 F2 F3 G G1 G2 G3 L : blockAt F F1 F2 F3 -> blockAt G G1 G2 G3 -> onB F F1 F2 F3 L -> onB G G1 G2 G3 L -> F = G /\ F1 = G1 /\ F2 = G2 /\ F3 = G3.
Proof.
  intros X Y (H & d & e & HI & D & E & EL) (K & d' & e' & KI & D' & E' & EL').
  destruct (square_kind F F1 F2 F3 H d e (ba_sq _ _ _ _ X) (ba_spec _ _ _ _ X) HI D E) as (dx & ex & _ & _ & _ & KH & _ & GH).
  destruct (square_kind G G1 G2 G3 K d' e' (ba_sq _ _ _ _ Y) (ba_spec _ _ _ _ Y) KI D' E') as (dy & ey & _ & _ & _ & KK & _ & GK).
  destruct (square_iface _ _ _ _ H (ba_sq _ _ _ _ X) HI) as (NH & _). destruct (square_iface _ _ _ _ K (ba_sq _ _ _ _ Y) KI) as (NK & _).
  rewrite <- EL in *. rewrite <- EL' in *. assert (PE : fp H = fp K) by congruence. rewrite KH in KK. injection KK as S1 S2 _ _.
  assert (NE : nf H = nf K). { apply frame_eq; rewrite ?nf_fp, ?nf_fb; try assumption. rewrite PE in NH. congruence. }
  destruct (square_view F F1 F2 F3 H (ba_sq _ _ _ _ X) HI) as (A1 & A2 & A3 & SA & PA & (Z & ZI & EZ) & _).
  destruct (square_view G G1 G2 G3 K (ba_sq _ _ _ _ Y) KI) as (B1 & B2 & B3 & SB & PB & (W & WI & EW) & _).
  rewrite <- NE in *. destruct (square_det _ _ _ _ _ _ _ SA SB) as (<- & <- & <-).
  rewrite (nf_of F (ba_first _ _ _ _ X)) in EZ. rewrite (nf_of G (ba_first _ _ _ _ Y)) in EW.
  assert (ND : NoDup (map fp [nf H; A1; A2; A3])) by (eapply Permutation_NoDup; [exact PA|exact (ba_dist _ _ _ _ X)]).
  assert (fp Z = fp W).
  { assert (J1 : In (fp W) [fp F; fp F1; fp F2; fp F3]) by (eapply Permutation_in; [symmetry; exact PA|now apply in_map]).
    assert (J2 : In (fp Z) [fp G; fp G1; fp G2; fp G3]) by (eapply Permutation_in; [symmetry; exact PB|now apply in_map]).
    assert (fp F = fp Z) by (rewrite EZ; apply nf_fp). assert (fp G = fp W) by (rewrite EW; apply nf_fp).
    destruct (ba_min _ _ _ _ X) as (? & ? & ?), (ba_min _ _ _ _ Y) as (? & ? & ?). cbn [In] in J1, J2. lia. }
  assert (Z = W) by (eapply NoDup_map_eq; eassumption). assert (FG : F = G) by congruence. split; [exact FG|]. destruct X as [SX _ _ _ _], Y as [SY _ _ _ _]. rewrite FG in SX. now apply (square_det G).
Qed.

(** *** The columns *)
Lemma addK_block F F1 F2 F3 x y : blockAt F F1 F2 F3 -> 0 <= x < n -> 0 <= y < n -> addK M (cf F x y) (kind (cf F x y)) = Ok [blockCol M n F F1 F2 F3 x y].
Proof.
  intros X Dx Dy. destruct X as [SQ DI FI (M1 & M2 & M3) SP]. destruct (square_iface _ _ _ _ F SQ (or_introl eq_refl)) as (EN & A & I1 & I2 & _).
  assert (K : kind (cf F x y) = Block (fs1 F) (fs2 F) n n x y). { unfold cf. rewrite (block_kind M n OK) by assumption. unfold blk. now rewrite FI. }
  rewrite K. cbn [addK]. unfold cf. rewrite (cols_block M n OK F F1 F2 F3 x y SQ Dx Dy). replace ((fp F <=? fp F1)%nat && (fp F <=? fp F2)%nat && (fp F <=? fp F3)%nat) with true by lia. reflexivity.
Qed.
Lemma addK_block2 F F1 F2 F3 G d e : blockAt F F1 F2 F3 -> In G [F1; F2; F3] -> 0 <= d < n -> 0 <= e < n -> addK M (cf G d e) (kind (cf G d e)) = Ok [].
Proof.
  intros X I D E. assert (GI : In G [F; F1; F2; F3]) by now right.
  destruct (square_kind F F1 F2 F3 G d e (ba_sq _ _ _ _ X) (ba_spec _ _ _ _ X) GI D E) as (d' & e' & D' & E' & EC & K & _).
  destruct (square_view F F1 F2 F3 G (ba_sq _ _ _ _ X) GI) as (A1 & A2 & A3 & SA & PA & _).
  rewrite K. cbn [addK]. rewrite EC. unfold cf. rewrite (cols_block M n OK (nf G) A1 A2 A3 d' e' SA D' E').
  assert (LT : (fp F < fp (nf G))%nat). { rewrite nf_fp. destruct (ba_min _ _ _ _ X) as (? & ? & ?). destruct I as [<-|[<-|[<-|[]]]]; assumption. }
  assert (J : In (fp F) (map fp [nf G; A1; A2; A3])) by (eapply Permutation_in; [exact PA|now left]). cbn [map In] in J.
  destruct ((fp (nf G) <=? fp A1)%nat && (fp (nf G) <=? fp A2)%nat && (fp (nf G) <=? fp A3)%nat) eqn:Q; [|reflexivity]. exfalso. lia.
Qed.

Definition fr (F F1 F2 F3 : frame) (i1 i2 : bool) : frame := match i1, i2 with true, true => F | false, true => F1 | true, false => F2 | false, false => F3 end.
Definition dep (i : bool) (x k : Z) : Z := if i then x - k else k - x - 1.
Definition pos (i : bool) (x d : Z) : Z := if i then x - d else x + 1 + d.
Lemma fr_in F F1 F2 F3 i1 i2 : In (fr F F1 F2 F3 i1 i2) [F; F1; F2; F3]. Proof. destruct i1, i2; cbn; tauto. Qed.

Lemma block_fun_cf F F1 F2 F3 x y k1 k2 : block_fun bs F F1 F2 F3 x y k1 k2 = cf (fr F F1 F2 F3 (k1 <=? x) (k2 <=? y)) (dep (k1 <=? x) x k1) (dep (k2 <=? y) y k2).
Proof. unfold block_fun, cf, fr, dep. destruct (k1 <=? x), (k2 <=? y); reflexivity. Qed.

Lemma cf_inj F F1 F2 F3 i1 i2 d e j1 j2 d' e' : blockAt F F1 F2 F3 -> 0 <= d < n -> 0 <= e < n -> 0 <= d' < n -> 0 <= e' < n ->
  cf (fr F F1 F2 F3 i1 i2) d e = cf (fr F F1 F2 F3 j1 j2) d' e' -> i1 = j1 /\ i2 = j2 /\ d = d' /\ e = e'.
Proof.
  intros X D E D' E' Q.
  destruct (square_kind F F1 F2 F3 _ d e (ba_sq _ _ _ _ X) (ba_spec _ _ _ _ X) (fr_in F F1 F2 F3 i1 i2) D E) as (_ & _ & _ & _ & _ & _ & _ & G1).
  destruct (square_kind F F1 F2 F3 _ d' e' (ba_sq _ _ _ _ X) (ba_spec _ _ _ _ X) (fr_in F F1 F2 F3 j1 j2) D' E') as (_ & _ & _ & _ & _ & _ & _ & G2).
  rewrite Q in G1. rewrite G1 in G2. pose proof (ba_dist _ _ _ _ X) as DI. unfold distinct4 in DI.
  assert (i1 = j1 /\ i2 = j2) as (<- & <-). { inversion DI as [|? ? N1 DI1]; subst. inversion DI1 as [|? ? N2 DI2]; subst. inversion DI2 as [|? ? N3 _]; subst. cbn [In] in N1, N2, N3. clear -N1 N2 N3 G2. destruct i1, i2, j1, j2; cbn [fr] in G2; auto; exfalso; intuition congruence. }
  split; [reflexivity|]. split; [reflexivity|]. destruct (square_iface _ _ _ _ _ (ba_sq _ _ _ _ X) (fr_in F F1 F2 F3 i1 i2)) as (EN & A & _).
  destruct (sizes M n OK _ _ (fs1 (fr F F1 F2 F3 i1 i2)) EN) as (_ & _ & S1 & S2). unfold cf in Q. apply fun_at_inj in Q; try assumption; [apply POS|lia..].
Qed.

(** weight with which depth [d] on this ([i] = true) or the other side takes part in the start at depth [x] *)
Definition part (p : nat) (s : side) (i : bool) (d x : Z) : R := if i then if d <=? x then wt M p s n x (x - d) else 0%R else wt M p s n x (x + 1 + d).

Lemma part_sum p s i d pn : getNeighbour t (p, s) = Ok pn -> 1 <= n -> 0 <= d < n -> rs (part p s i d) (zrange 0 n) = 1%R.
Proof. intros G N D. destruct (weights_pf M n OK p s n pn G) as (_ & WS); [lia|]. destruct (WS d D) as (W1 & W2). unfold part. destruct i; assumption. Qed.

Lemma part_out p s i d x pn : getNeighbour t (p, s) = Ok pn -> 1 <= n -> 0 <= d < n -> 0 <= x < n -> ~ (0 <= pos i x d <= n) -> part p s i d x = 0%R.
Proof.
  intros G N D X P. unfold part, pos in *. destruct i.
  - destruct (Z.leb_spec d x); [lia|reflexivity].
  - destruct (weights_pf M n OK p s n pn G) as (WO & _); [lia|]. destruct (WO x X) as (_ & WL & _). unfold wt. apply nth_overflow. rewrite WL. lia.
Qed.
Lemma part_in p s i d x : 0 <= d -> 0 <= pos i x d <= n -> part p s i d x = wt M p s n x (pos i x d).
Proof. intros D P. unfold part, pos in *. destruct i; [|reflexivity]. replace (d <=? x) with true by lia. reflexivity. Qed.

Lemma block_contrib F F1 F2 F3 i1 i2 d e x y : blockAt F F1 F2 F3 -> 0 <= d < n -> 0 <= e < n -> 0 <= x < n -> 0 <= y < n ->
  contrib (cf F x y) (cf (fr F F1 F2 F3 i1 i2) d e) = (part (fp F) (fs1 F) i1 d x * part (fp F) (fs2 F) i2 e y)%R.
Proof.
  intros X D E Dx Dy. unfold contrib. rewrite (addK_block F F1 F2 F3 x y X Dx Dy). unfold rowSum. cbn [map fold_right]. rewrite Rplus_0_r.
  pose proof (ba_sq _ _ _ _ X) as SQ. destruct (sq_01 _ _ _ _ _ _ SQ) as (G1 & _). destruct (sq_02 _ _ _ _ _ _ SQ) as (G2 & _).
  pose proof (glued_nb M _ _ _ _ _ _ _ _ G1) as N1. pose proof (glued_nb M _ _ _ _ _ _ _ _ G2) as N2.
  assert (DEC : {0 <= pos i1 x d <= n} + {~ (0 <= pos i1 x d <= n)}) by (destruct (Z_le_gt_dec 0 (pos i1 x d)), (Z_le_gt_dec (pos i1 x d) n); try (left; lia); right; lia).
  assert (DEC2 : {0 <= pos i2 y e <= n} + {~ (0 <= pos i2 y e <= n)}) by (destruct (Z_le_gt_dec 0 (pos i2 y e)), (Z_le_gt_dec (pos i2 y e) n); try (left; lia); right; lia).
  assert (INV : forall k1 k2, 0 <= k1 <= n -> 0 <= k2 <= n -> block_fun bs F F1 F2 F3 x y k1 k2 = cf (fr F F1 F2 F3 i1 i2) d e -> k1 = pos i1 x d /\ k2 = pos i2 y e).
  { intros k1 k2 K1 K2 Q. rewrite block_fun_cf in Q. apply cf_inj in Q; try assumption; [|unfold dep; destruct (Z.leb_spec k1 x); lia|unfold dep; destruct (Z.leb_spec k2 y); lia].
    unfold dep, pos in *. destruct Q as (<- & <- & <- & <-). destruct (Z.leb_spec k1 x), (Z.leb_spec k2 y); lia. }
  destruct DEC as [P1|P1], DEC2 as [P2|P2].
  - rewrite !part_in by (assumption || lia).
    unfold blockCol. rewrite (entry_in (fun pt => block_fun bs F F1 F2 F3 x y (nth 0 pt 0) (nth 1 pt 0)) (fun pt => (wt M (fp F) (fs1 F) n x (nth 0 pt 0%Z) * wt M (fp F) (fs2 F) n y (nth 1 pt 0%Z))%R) _ [pos i1 x d; pos i2 y e]).
    + reflexivity.
    + apply enum_in, in_box2. exists (pos i1 x d), (pos i2 y e). auto.
    + cbn [nth]. rewrite block_fun_cf.
      assert (Q1 : (pos i1 x d <=? x) = i1) by (unfold pos in *; destruct i1; lia). assert (Q2 : (pos i2 y e <=? y) = i2) by (unfold pos in *; destruct i2; lia).
      rewrite Q1, Q2. f_equal; unfold dep, pos; [destruct i1; lia|destruct i2; lia].
    + intros pt Hp Q. apply enum_in, in_box2 in Hp. destruct Hp as (k1 & k2 & -> & K1 & K2). cbn [nth] in Q. destruct (INV k1 k2 K1 K2 Q) as (-> & ->). reflexivity.
  - rewrite (part_out _ _ i2 e y _ N2) by (assumption || lia). rewrite Rmult_0_r. apply entry_out. intros z Z Q. apply in_map_iff in Z. destruct Z as (pt & <- & Hp). apply enum_in, in_box2 in Hp. destruct Hp as (k1 & k2 & -> & K1 & K2). cbn [fst nth] in Q. destruct (INV k1 k2 K1 K2 Q). lia.
  - rewrite (part_out _ _ i1 d x _ N1) by (assumption || lia). rewrite Rmult_0_l. apply entry_out. intros z Z Q. apply in_map_iff in Z. destruct Z as (pt & <- & Hp). apply enum_in, in_box2 in Hp. destruct Hp as (k1 & k2 & -> & K1 & K2). cbn [fst nth] in Q. destruct (INV k1 k2 K1 K2 Q). lia.
  - rewrite (part_out _ _ i1 d x _ N1) by (assumption || lia). rewrite Rmult_0_l. apply entry_out. intros z Z Q. apply in_map_iff in Z. destruct Z as (pt & <- & Hp). apply enum_in, in_box2 in Hp. destruct Hp as (k1 & k2 & -> & K1 & K2). cbn [fst nth] in Q. destruct (INV k1 k2 K1 K2 Q). lia.
Qed.

Lemma blockCol_on F F1 F2 F3 x y z : blockAt F F1 F2 F3 -> 0 <= x < n -> 0 <= y < n -> In z (blockCol M n F F1 F2 F3 x y) -> onB F F1 F2 F3 (fst z).
Proof.
  intros X Dx Dy Z. apply in_map_iff in Z. destruct Z as (pt & <- & Hp). apply enum_in, in_box2 in Hp. destruct Hp as (k1 & k2 & -> & K1 & K2). cbn [fst nth]. rewrite block_fun_cf.
  exists (fr F F1 F2 F3 (k1 <=? x) (k2 <=? y)), (dep (k1 <=? x) x k1), (dep (k2 <=? y) y k2). split; [apply fr_in|]. unfold dep. destruct (Z.leb_spec k1 x), (Z.leb_spec k2 y); (split; [lia|split; [lia|reflexivity]]).
Qed.

Lemma block_member S L cs c v s1 s2 n1 n2 d1 d2 : valid S -> kind S = Block s1 s2 n1 n2 d1 d2 -> addK M S (kind S) = Ok cs -> In c cs -> In (L, v) c ->
  exists F F1 F2 F3 x y, blockAt F F1 F2 F3 /\ 0 <= x < n /\ 0 <= y < n /\ S = cf F x y /\ onB F F1 F2 F3 L.
Proof.
  intros V K AK Ic Iv. destruct (block_rep S s1 s2 n1 n2 d1 d2 V K) as (F & F1 & F2 & F3 & X & (G & d & e & [<-|GI] & D & E & ->)).
  - rewrite (addK_block F F1 F2 F3 d e X D E) in AK. injection AK as <-. destruct Ic as [<-|[]]. exists F, F1, F2, F3, d, e. split; [exact X|]. split; [exact D|]. split; [exact E|]. split; [reflexivity|]. exact (blockCol_on F F1 F2 F3 d e (L, v) X D E Iv).
  - rewrite (addK_block2 F F1 F2 F3 G d e X GI D E) in AK. injection AK as <-. destruct Ic.
Qed.

Lemma onB_kind F F1 F2 F3 L : blockAt F F1 F2 F3 -> onB F F1 F2 F3 L -> exists s1 s2 d1 d2, kind L = Block s1 s2 n n d1 d2.
Proof.
  intros X (G & d & e & GI & D & E & ->). destruct (square_kind F F1 F2 F3 G d e (ba_sq _ _ _ _ X) (ba_spec _ _ _ _ X) GI D E) as (d' & e' & _ & _ & _ & K & _). eauto 6.
Qed.

Lemma block_row L s1 s2 n1 n2 d1 d2 : valid L -> kind L = Block s1 s2 n1 n2 d1 d2 -> exists G, NoDup G /\ (forall S, In S G -> valid S) /\
  (forall S, valid S -> contrib S L <> 0%R -> (exists a b c d e f, kind S = Block a b c d e f) -> In S G) /\ rs (fun S => contrib S L) G = 1%R.
Proof.
  intros V K. destruct (block_rep L s1 s2 n1 n2 d1 d2 V K) as (F & F1 & F2 & F3 & X & ON). pose proof ON as (H & d & e & HI & D & E & EL).
  exists (map (fun xy => cf F (fst xy) (snd xy)) (list_prod (zrange 0 n) (zrange 0 n))).
  assert (IN : forall x y, 0 <= x < n -> 0 <= y < n -> In (cf F x y) (map (fun xy => cf F (fst xy) (snd xy)) (list_prod (zrange 0 n) (zrange 0 n)))).
  { intros x y Dx Dy. apply in_map_iff. exists (x, y). split; [reflexivity|]. apply in_prod; apply zrange_in; assumption. }
  split.
  - apply NoDup_map_inj.
    + intros (x, y) (x', y') I I' Q. apply in_prod_iff in I, I'. rewrite !zrange_in in *. cbn [fst snd] in Q. change F with (fr F F1 F2 F3 true true) in Q. apply cf_inj in Q; try assumption; try lia. destruct Q as (_ & _ & -> & ->). reflexivity.
    + apply NoDup_prod; apply zrange_nodup.
  - split; [|split].
    + intros S I. apply in_map_iff in I. destruct I as ((x, y) & <- & I). apply in_prod_iff in I. rewrite !zrange_in in I. cbn [fst snd].
      destruct (square_kind F F1 F2 F3 F x y (ba_sq _ _ _ _ X) (ba_spec _ _ _ _ X) (or_introl eq_refl)) as (_ & _ & _ & _ & _ & _ & VV & _); [lia|lia|exact VV].
    + intros S VS C (a & b & c0 & dd & e0 & f & KS). destruct (contrib_member M S L C) as (cs & c & v & AK & Ic & Iv).
      destruct (block_member S L cs c v _ _ _ _ _ _ VS KS AK Ic Iv) as (G & G1 & G2 & G3 & x & y & Y & Dx & Dy & -> & ON'). destruct (block_unique _ _ _ _ _ _ _ _ L X Y ON ON') as (<- & _). now apply IN.
    + assert (FR : exists i1 i2, H = fr F F1 F2 F3 i1 i2).
      { destruct HI as [<-|[<-|[<-|[<-|[]]]]]; [exists true, true|exists false, true|exists true, false|exists false, false]; reflexivity. }
      destruct FR as (i1 & i2 & ->). rewrite rs_map.
      rewrite (rs_ext _ (fun xy => (part (fp F) (fs1 F) i1 d (fst xy) * part (fp F) (fs2 F) i2 e (snd xy))%R)).
      2:{ intros (x, y) I. apply in_prod_iff in I. rewrite !zrange_in in I. cbn [fst snd]. rewrite EL. apply block_contrib; assumption || lia. }
      pose proof (ba_sq _ _ _ _ X) as SQ. destruct (sq_01 _ _ _ _ _ _ SQ) as (G1 & _). destruct (sq_02 _ _ _ _ _ _ SQ) as (G2 & _).
      pose proof (part_sum _ _ i1 d _ (glued_nb M _ _ _ _ _ _ _ _ G1)) as P1. pose proof (part_sum _ _ i2 e _ (glued_nb M _ _ _ _ _ _ _ _ G2)) as P2. specialize (P1 ltac:(lia) D). specialize (P2 ltac:(lia) E).
      rewrite rs_prod, P1, P2. ring.
Qed.

End B.
