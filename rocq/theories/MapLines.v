(** Proofs for C49, C50: the functions combined along lines and in blocks. *)
From Verif Require Import Common ListLemmas TopoModel MapModel MapSpec MapProofs MapTravelSpec MapTravel.
From Coq Require Import ZifyBool Permutation.
Open Scope Z_scope.

Lemma blockFuel_size lengths : (forall l, In l lengths -> 0 <= l) -> blockFuel lengths = box_size lengths.
Proof.
  unfold blockFuel. intros P.
  assert (G : fold_right (fun l r => (l + 1) * r) 1 lengths = Z.of_nat (box_size lengths)).
  { induction lengths as [|l ls IH]; [reflexivity|]. cbn [fold_right box_size]. rewrite IH by (intros; apply P; now right).
    specialize (P l (or_introl eq_refl)). nia. }
  rewrite G. apply Nat2Z.id.
Qed.

Lemma blockPoints_enum lengths : (forall l, In l lengths -> 0 <= l) ->
  blockPoints (blockFuel lengths) lengths (map (fun _ => 0) lengths) = Ok (enum lengths).
Proof.
  intros P. rewrite blockFuel_size by exact P. destruct (enum_zero lengths P) as (E & B).
  rewrite blockPoints_rest; [now rewrite E|exact B|]. rewrite <- E, enum_length. lia.
Qed.

Lemma zrange_map_shift a b k : zrange (a + k) (b + k) = map (fun x => x + k) (zrange a b).
Proof. unfold zrange. rewrite map_map. replace (b + k - (a + k)) with (b - a) by lia. apply map_ext. intros; lia. Qed.

Lemma zrange_split a b c : a <= b <= c -> zrange a c = zrange a b ++ zrange b c.
Proof.
  intros H. remember (Z.to_nat (b - a)) as n eqn:N. revert a H N. induction n as [|n IH]; intros a H N.
  - rewrite (zrange_nil a b) by lia. now replace b with a by lia.
  - rewrite (zrange_cons a b), (zrange_cons a c) by lia. cbn. f_equal. apply IH; lia.
Qed.

Lemma zrange_snoc a b : a < b -> zrange a b = zrange a (b - 1) ++ [b - 1].
Proof. intros H. rewrite (zrange_split a (b - 1) b) by lia. f_equal. rewrite zrange_cons, zrange_nil by lia. reflexivity. Qed.

Lemma zrange_rev n : rev (zrange 0 n) = map (fun k => n - 1 - k) (zrange 0 n).
Proof.
  destruct (Z_le_gt_dec n 0); [now rewrite zrange_nil by lia|]. replace n with (Z.of_nat (Z.to_nat n)) by lia. generalize (Z.to_nat n) as m. clear.
  induction m as [|m IH]; [reflexivity|].
  rewrite (zrange_snoc 0) at 1 by lia. rewrite rev_app_distr. cbn [rev app].
  replace (Z.of_nat (S m) - 1) with (Z.of_nat m) by lia. rewrite IH.
  rewrite (zrange_cons 0 (Z.of_nat (S m))) by lia. cbn [map]. f_equal; [lia|].
  replace (Z.of_nat (S m)) with (Z.of_nat m + 1) by lia. change 1 with (0 + 1) at 2. rewrite zrange_map_shift, map_map. apply map_ext. intros; lia.
Qed.

Section T.
Context (bs : list mbase) (t : topo).
Hypothesis POS : forall b, In b bs -> 0 <= mb_size b.

Lemma fun_at_L p b s s2 d e : adjacent s s2 -> 0 <= d < nsz b s -> 0 <= e < asz b s ->
  exists u v, fun_at bs p b s d s2 e = L bs p b u v /\ 0 <= u < mb_u b /\ 0 <= v < mb_v b /\
    d = coord (nsz b s) (side_par s) (if Nat.eqb (side_dir s) 1 then v else u) /\
    e = coord (asz b s) (side_par s2) (if Nat.eqb (side_dir s) 1 then u else v).
Proof.
  intros A D Ee. destruct (adj_par s s2 A) as (h & ->).
  destruct s, h; unfold fun_at, coord in *; cbn [side_at_end side_dir side_par nsz asz Nat.eqb] in *;
    (eexists _, _; split; [reflexivity|]; lia).
Qed.

Lemma getPatch_fun p b s s2 d e : nth_error bs p = Some b -> adjacent s s2 -> 0 <= d < nsz b s -> 0 <= e < asz b s ->
  getPatch bs (fun_at bs p b s d s2 e) = p.
Proof. intros E A D Ee. destruct (fun_at_L p b s s2 d e A D Ee) as (u & v & -> & U & V & _). now apply getPatch_L. Qed.

Lemma fun_at_inj p b s s2 d e d' e' : nth_error bs p = Some b -> adjacent s s2 -> 0 <= d < nsz b s -> 0 <= e < asz b s ->
  0 <= d' < nsz b s -> 0 <= e' < asz b s -> fun_at bs p b s d s2 e = fun_at bs p b s d' s2 e' -> d = d' /\ e = e'.
Proof.
  intros E A D Ee D' Ee'. destruct (fun_at_L p b s s2 d e A D Ee) as (u & v & -> & U & V & -> & ->).
  destruct (fun_at_L p b s s2 d' e' A D' Ee') as (u' & v' & -> & U' & V' & -> & ->). intros Q.
  assert (Qu : Ok u = Ok u') by (rewrite <- (getPar_L bs POS p b u v false E U V), <- (getPar_L bs POS p b u' v' false E U' V'); now rewrite Q).
  assert (Qv : Ok v = Ok v') by (rewrite <- (getPar_L bs POS p b u v true E U V), <- (getPar_L bs POS p b u' v' true E U' V'); now rewrite Q).
  injection Qu as <-. injection Qv as <-. now split.
Qed.

Lemma fuel_ge k n : (k <= n)%nat -> exists f, n = (k + f)%nat.
Proof. intros H. exists (n - k)%nat. lia. Qed.

(** ** Lines *)
Definition line_list (p : nat) (b : mbase) (s s2 : side) (p' : nat) (b' : mbase) (s' s2' : side) (d e n : Z) : list Z :=
  map (fun k => fun_at bs p b s (d - k) s2 e) (zrange 0 (d + 1)) ++ map (fun k => fun_at bs p' b' s' k s2' e) (zrange 0 (n - d)).

Lemma line_locals p b s s2 p' b' s' s2' d e n :
  glued bs t p b s s2 p' b' s' s2' -> 0 <= d < n -> d < nsz b s -> 0 <= e < asz b s -> n - d <= nsz b' s' ->
  blockLocals bs t (fun_at bs p b s d s2 e) [s] [n] = Ok (line_list p b s s2 p' b' s' s2' d e n).
Proof.
  intros G D Db Ee N. unfold blockLocals. rewrite blockPoints_enum by (intros l [<-|[]]; lia). cbn [bind].
  rewrite (mapM_ok _ (fun pt => line_fun bs p b s s2 p' b' s' s2' d e (hd 0 pt))).
  - f_equal. cbn [enum flat_map]. rewrite app_nil_r, map_map. cbn [hd]. unfold line_list.
    rewrite (zrange_split 0 (d + 1) (n + 1)) by lia. rewrite map_app. f_equal.
    + apply map_ext_in. intros k K. apply zrange_in in K. unfold line_fun. destruct (Z.leb_spec k d); [reflexivity|lia].
    + replace (n + 1) with (n - d + (d + 1)) by lia. replace (d + 1) with (0 + (d + 1)) at 1 by lia. rewrite zrange_map_shift, map_map.
      apply map_ext_in. intros k K. apply zrange_in in K. unfold line_fun. destruct (Z.leb_spec (k + (d + 1)) d); [lia|]. f_equal. lia.
  - intros pt Hp. apply enum_in in Hp. inversion Hp as [|? k ? ? K T]; subst. inversion T; subst. cbn [hd combine map fst snd].
    destruct (fuel_ge 2 (travelFuel [n])) as (f & ->); [unfold travelFuel; cbn [sumZ fold_right length]; lia|].
    apply line_travel; try assumption; lia.
Qed.

Lemma line_rev p b s s2 p' b' s' s2' d e n : 0 <= d < n ->
  rev (line_list p b s s2 p' b' s' s2' d e n) = line_list p' b' s' s2' p b s s2 (n - 1 - d) e n.
Proof.
  intros D. unfold line_list. rewrite rev_app_distr, <- !map_rev, !zrange_rev, !map_map. f_equal.
  - replace (n - 1 - d + 1) with (n - d) by lia. apply map_ext. intros; f_equal; lia.
  - replace (n - (n - 1 - d)) with (d + 1) by lia. apply map_ext. intros; f_equal; lia.
Qed.

Theorem lines_pf p b s s2 p' b' s' s2' d e n :
  glued bs t p b s s2 p' b' s' s2' -> glued bs t p' b' s' s2' p b s s2 ->
  0 <= d < n -> 0 <= e < asz b s -> n <= nsz b s -> n <= nsz b' s' ->
  exists ls, blockLocals bs t (fun_at bs p b s d s2 e) [s] [n] = Ok ls /\
    blockLocals bs t (fun_at bs p' b' s' (n - 1 - d) s2' e) [s'] [n] = Ok (rev ls) /\
    (forall l, In l ls <-> (exists k, 0 <= k <= d /\ l = fun_at bs p b s k s2 e) \/
                          (exists k, 0 <= k <= n - 1 - d /\ l = fun_at bs p' b' s' k s2' e)) /\
    length ls = Z.to_nat (n + 1) /\
    (p <> p' -> NoDup ls) /\
    (p <> p' -> addBlock bs t (fun_at bs p b s d s2 e) [s] [n] = Ok (if (p <? p')%nat then Some ls else None)).
Proof.
  intros G G' D Ee N N'. pose proof (gl_size _ _ _ _ _ _ _ _ _ _ G) as SZ.
  pose proof (gl_b _ _ _ _ _ _ _ _ _ _ G) as E. pose proof (gl_b' _ _ _ _ _ _ _ _ _ _ G) as E'.
  pose proof (gl_adj _ _ _ _ _ _ _ _ _ _ G) as A. pose proof (gl_adj _ _ _ _ _ _ _ _ _ _ G') as A'.
  assert (LL := line_locals p b s s2 p' b' s' s2' d e n G D ltac:(lia) Ee ltac:(lia)).
  exists (line_list p b s s2 p' b' s' s2' d e n).
  assert (IN : forall l, In l (line_list p b s s2 p' b' s' s2' d e n) <-> (exists k, 0 <= k <= d /\ l = fun_at bs p b s k s2 e) \/
                          (exists k, 0 <= k <= n - 1 - d /\ l = fun_at bs p' b' s' k s2' e)).
  { intros l. unfold line_list. rewrite in_app_iff, !in_map_iff. split; intros [(k & X)|(k & X)].
    - destruct X as (<- & K). apply zrange_in in K. left. exists (d - k). split; [lia|reflexivity].
    - destruct X as (<- & K). apply zrange_in in K. right. exists k. split; [lia|reflexivity].
    - destruct X as (K & ->). left. exists (d - k). split; [f_equal; lia|apply zrange_in; lia].
    - destruct X as (K & ->). right. exists k. split; [reflexivity|apply zrange_in; lia]. }
  split; [exact LL|]. split; [|split; [exact IN|split; [|split]]].
  - rewrite line_rev by lia. apply line_locals; try assumption; try lia.
  - unfold line_list. rewrite app_length, !map_length, !zrange_length. lia.
  - intros P. unfold line_list. apply NoDup_app_iff. split; [|split].
    + apply NoDup_map_inj; [|apply zrange_nodup]. intros x y X Y Q. apply zrange_in in X, Y.
      apply (fun_at_inj p b s s2) in Q; try assumption; try lia.
    + apply NoDup_map_inj; [|apply zrange_nodup]. intros x y X Y Q. apply zrange_in in X, Y.
      apply (fun_at_inj p' b' s' s2') in Q; try assumption; try lia.
    + intros x X Y. apply in_map_iff in X, Y. destruct X as (k & <- & X), Y as (k' & Q & Y). apply zrange_in in X, Y.
      apply (f_equal (getPatch bs)) in Q. rewrite !getPatch_fun in Q; try assumption; try lia.
  - intros P. unfold addBlock. rewrite LL. cbn [bind]. rewrite (getPatch_fun p b) by (assumption || lia). f_equal.
    destruct (Nat.ltb_spec p p') as [Lt|Ge].
    + replace (alreadyHandled bs (line_list p b s s2 p' b' s' s2' d e n) p) with false; [reflexivity|]. symmetry.
      unfold alreadyHandled. apply existsb_false. intros l Hl. apply IN in Hl. destruct Hl as [(k & K & ->)|(k & K & ->)];
        rewrite getPatch_fun by (assumption || lia); apply Nat.ltb_ge; lia.
    + replace (alreadyHandled bs (line_list p b s s2 p' b' s' s2' d e n) p) with true; [reflexivity|]. symmetry.
      unfold alreadyHandled. apply existsb_exists. exists (fun_at bs p' b' s' 0 s2' e). split.
      * apply IN. right. exists 0. split; [lia|reflexivity].
      * rewrite getPatch_fun by (assumption || lia). apply Nat.ltb_lt. lia.
Qed.

(** ** Blocks *)
Lemma square_swap F F1 F2 F3 :
  let sw G := mkF (fp G) (fb G) (fs2 G) (fs1 G) in
  square bs t F F1 F2 F3 -> square bs t (sw F) (sw F2) (sw F1) (sw F3).
Proof. intros sw [A B C D]. constructor; assumption. Qed.

Lemma cross1_sym F G : cross1 bs t F G -> cross1 bs t G F.
Proof. intros (A & B). now split. Qed.
Lemma cross2_sym F G : cross2 bs t F G -> cross2 bs t G F.
Proof. intros (A & B). now split. Qed.

Lemma square_flip1 F F1 F2 F3 : square bs t F F1 F2 F3 -> square bs t F1 F F3 F2.
Proof. intros [A B C D]. constructor; auto using cross1_sym, cross2_sym. Qed.
Lemma square_flip2 F F1 F2 F3 : square bs t F F1 F2 F3 -> square bs t F2 F3 F F1.
Proof. intros [A B C D]. constructor; auto using cross1_sym, cross2_sym. Qed.

Lemma cross1_facts F G : cross1 bs t F G ->
  nth_error bs (fp F) = Some (fb F) /\ nth_error bs (fp G) = Some (fb G) /\ adjacent (fs1 F) (fs2 F) /\ adjacent (fs1 G) (fs2 G).
Proof. intros (A & B). split; [apply A|]. split; [apply A|]. split; [apply A|apply B]. Qed.

Definition frame_ok (F : frame) := nth_error bs (fp F) = Some (fb F) /\ adjacent (fs1 F) (fs2 F).

Lemma square_frames F F1 F2 F3 : square bs t F F1 F2 F3 -> frame_ok F /\ frame_ok F1 /\ frame_ok F2 /\ frame_ok F3.
Proof. intros [A B _ _]. apply cross1_facts in A, B. unfold frame_ok. tauto. Qed.

Lemma in_corner_patch F x y l n1 n2 : frame_ok F -> room n1 n2 F -> x < n1 -> y < n2 -> in_corner bs F x y l -> getPatch bs l = fp F.
Proof.
  intros (E & A) (R1 & R2) X Y (d & e & D & Ee & ->). apply getPatch_fun; [assumption..|lia|rewrite (adj_asz _ _ _ A); lia].
Qed.

Definition block_list (F F1 F2 F3 : frame) (n1 n2 x y : Z) : list Z :=
  map (fun pt => block_fun bs F F1 F2 F3 x y (nth 0 pt 0) (nth 1 pt 0)) (enum [n1; n2]).

Lemma block_locals F F1 F2 F3 n1 n2 x y : square bs t F F1 F2 F3 ->
  room n1 n2 F -> room n1 n2 F1 -> room n1 n2 F2 -> room n1 n2 F3 -> 0 <= x < n1 -> 0 <= y < n2 ->
  blockLocals bs t (fun_at bs (fp F) (fb F) (fs1 F) x (fs2 F) y) [fs1 F; fs2 F] [n1; n2] = Ok (block_list F F1 F2 F3 n1 n2 x y).
Proof.
  intros SQ R R1 R2 R3 X Y. unfold blockLocals. rewrite blockPoints_enum by (intros l [<-|[<-|[]]]; lia). cbn [bind].
  apply mapM_ok. intros pt Hp. apply enum_in in Hp. inversion Hp as [|? k ? ? K T]; subst. inversion T as [|? k2 ? ? K2 T2]; subst. inversion T2; subst.
  cbn [nth combine map fst snd].
  destruct (fuel_ge 4 (travelFuel [n1; n2])) as (f & ->); [unfold travelFuel; cbn [sumZ fold_right length]; lia|].
  apply (block_travel bs t POS F F1 F2 F3 n1 n2); assumption || lia.
Qed.

Lemma in_box2 n1 n2 pt : in_box [n1; n2] pt <-> exists k1 k2, pt = [k1; k2] /\ 0 <= k1 <= n1 /\ 0 <= k2 <= n2.
Proof.
  unfold in_box. split.
  - intros H. inversion H as [|? k ? ? K T]; subst. inversion T as [|? k2 ? ? K2 T2]; subst. inversion T2; subst. now exists k, k2.
  - intros (k1 & k2 & -> & K1 & K2). repeat constructor; lia.
Qed.

Lemma block_list_in F F1 F2 F3 n1 n2 x y l : 0 <= x < n1 -> 0 <= y < n2 ->
  In l (block_list F F1 F2 F3 n1 n2 x y) <-> in_block bs F F1 F2 F3 n1 n2 x y l.
Proof.
  intros X Y. unfold block_list. rewrite in_map_iff. unfold in_block, in_corner. split.
  - intros (pt & <- & Hp). apply enum_in, in_box2 in Hp. destruct Hp as (k1 & k2 & -> & K1 & K2). cbn [nth]. unfold block_fun.
    destruct (Z.leb_spec k1 x), (Z.leb_spec k2 y).
    + left. exists (x - k1), (y - k2). repeat split; lia.
    + right. right. left. exists (x - k1), (k2 - y - 1). repeat split; lia.
    + right. left. exists (k1 - x - 1), (y - k2). repeat split; lia.
    + right. right. right. exists (k1 - x - 1), (k2 - y - 1). repeat split; lia.
  - assert (G : forall k1 k2, 0 <= k1 <= n1 -> 0 <= k2 <= n2 -> l = block_fun bs F F1 F2 F3 x y k1 k2 ->
                exists pt, block_fun bs F F1 F2 F3 x y (nth 0 pt 0) (nth 1 pt 0) = l /\ In pt (enum [n1; n2])).
    { intros k1 k2 K1 K2 ->. exists [k1; k2]. split; [reflexivity|]. apply enum_in, in_box2. now exists k1, k2. }
    intros [H|[H|[H|H]]]; destruct H as (d & e & D & Ee & ->).
    + apply (G (x - d) (y - e)); [lia|lia|]. unfold block_fun. destruct (Z.leb_spec (x - d) x), (Z.leb_spec (y - e) y); try lia. f_equal; lia.
    + apply (G (x + d + 1) (y - e)); [lia|lia|]. unfold block_fun. destruct (Z.leb_spec (x + d + 1) x), (Z.leb_spec (y - e) y); try lia. f_equal; lia.
    + apply (G (x - d) (y + e + 1)); [lia|lia|]. unfold block_fun. destruct (Z.leb_spec (x - d) x), (Z.leb_spec (y + e + 1) y); try lia. f_equal; lia.
    + apply (G (x + d + 1) (y + e + 1)); [lia|lia|]. unfold block_fun. destruct (Z.leb_spec (x + d + 1) x), (Z.leb_spec (y + e + 1) y); try lia. f_equal; lia.
Qed.

Lemma block_fun_inj F F1 F2 F3 n1 n2 x y k1 k2 k1' k2' : square bs t F F1 F2 F3 -> distinct4 F F1 F2 F3 ->
  room n1 n2 F -> room n1 n2 F1 -> room n1 n2 F2 -> room n1 n2 F3 -> 0 <= x < n1 -> 0 <= y < n2 ->
  0 <= k1 <= n1 -> 0 <= k2 <= n2 -> 0 <= k1' <= n1 -> 0 <= k2' <= n2 ->
  block_fun bs F F1 F2 F3 x y k1 k2 = block_fun bs F F1 F2 F3 x y k1' k2' -> k1 = k1' /\ k2 = k2'.
Proof.
  intros SQ DI (R1 & R2) (R11 & R12) (R21 & R22) (R31 & R32) X Y K1 K2 K1' K2' Q.
  destruct (square_frames _ _ _ _ SQ) as ((E & A) & (E1 & A1) & (E2 & A2) & (E3 & A3)).
  unfold distinct4 in DI. repeat rewrite NoDup_cons_iff in DI. cbn [In] in DI.
  unfold block_fun in Q.
  destruct (Z.leb_spec k1 x), (Z.leb_spec k2 y), (Z.leb_spec k1' x), (Z.leb_spec k2' y);
    pose proof (f_equal (getPatch bs) Q) as Qp;
    rewrite !getPatch_fun in Qp by (assumption || lia || (erewrite adj_asz by eassumption; lia));
    try (exfalso; intuition congruence);
    (apply fun_at_inj in Q; [|assumption|assumption|lia|erewrite adj_asz by eassumption; lia|lia|erewrite adj_asz by eassumption; lia]; lia).
Qed.

Lemma block_list_nodup F F1 F2 F3 n1 n2 x y : square bs t F F1 F2 F3 -> distinct4 F F1 F2 F3 ->
  room n1 n2 F -> room n1 n2 F1 -> room n1 n2 F2 -> room n1 n2 F3 -> 0 <= x < n1 -> 0 <= y < n2 ->
  NoDup (block_list F F1 F2 F3 n1 n2 x y).
Proof.
  intros SQ DI R R1 R2 R3 X Y. unfold block_list. apply NoDup_map_inj; [|apply enum_nodup].
  intros p q Hp Hq Q. apply enum_in, in_box2 in Hp, Hq. destruct Hp as (a & b & -> & Ha & Hb), Hq as (a' & b' & -> & Ha' & Hb'). cbn [nth] in Q.
  destruct (block_fun_inj F F1 F2 F3 n1 n2 x y a b a' b' SQ DI R R1 R2 R3 X Y Ha Hb Ha' Hb' Q) as (-> & ->). reflexivity.
Qed.

Theorem block_pf F F1 F2 F3 n1 n2 x y : square bs t F F1 F2 F3 ->
  room n1 n2 F -> room n1 n2 F1 -> room n1 n2 F2 -> room n1 n2 F3 -> 0 <= x < n1 -> 0 <= y < n2 ->
  let start := fun_at bs (fp F) (fb F) (fs1 F) x (fs2 F) y in
  exists ls, blockLocals bs t start [fs1 F; fs2 F] [n1; n2] = Ok ls /\
    (forall l, In l ls <-> in_block bs F F1 F2 F3 n1 n2 x y l) /\
    length ls = (Z.to_nat (n1 + 1) * Z.to_nat (n2 + 1))%nat /\
    (distinct4 F F1 F2 F3 -> NoDup ls) /\
    addBlock bs t start [fs1 F; fs2 F] [n1; n2] =
      Ok (if (fp F <=? fp F1)%nat && (fp F <=? fp F2)%nat && (fp F <=? fp F3)%nat then Some ls else None).
Proof.
  intros SQ R R1 R2 R3 X Y start. exists (block_list F F1 F2 F3 n1 n2 x y).
  assert (LL := block_locals F F1 F2 F3 n1 n2 x y SQ R R1 R2 R3 X Y).
  destruct (square_frames _ _ _ _ SQ) as (O & O1 & O2 & O3).
  split; [exact LL|]. split; [intros; now apply block_list_in|]. split; [|split].
  - unfold block_list. rewrite map_length, enum_length. cbn [box_size]. lia.
  - intros DI. now apply block_list_nodup.
  - unfold addBlock. unfold start. rewrite LL. cbn [bind]. f_equal.
    assert (SP : getPatch bs (fun_at bs (fp F) (fb F) (fs1 F) x (fs2 F) y) = fp F).
    { apply (in_corner_patch F x y _ n1 n2 O R); [lia|lia|]. exists x, y. repeat split; lia. }
    rewrite SP.
    assert (AH : alreadyHandled bs (block_list F F1 F2 F3 n1 n2 x y) (fp F) = negb ((fp F <=? fp F1)%nat && (fp F <=? fp F2)%nat && (fp F <=? fp F3)%nat)).
    { apply Bool.eq_true_iff_eq. unfold alreadyHandled. rewrite existsb_exists. split.
      - intros (l & Hl & Lt). apply Nat.ltb_lt in Lt. apply block_list_in in Hl; [|assumption..].
        destruct Hl as [H|[H|[H|H]]]; apply (in_corner_patch _ _ _ _ n1 n2) in H; try assumption; try lia.
      - intros H. assert (C : (fp F1 < fp F \/ fp F2 < fp F \/ fp F3 < fp F)%nat) by lia.
        destruct C as [C|[C|C]].
        + exists (fun_at bs (fp F1) (fb F1) (fs1 F1) 0 (fs2 F1) 0).
          assert (IC : in_corner bs F1 (n1 - 1 - x) y (fun_at bs (fp F1) (fb F1) (fs1 F1) 0 (fs2 F1) 0)) by (exists 0, 0; repeat split; lia).
          split; [apply block_list_in; [assumption..|]; right; left; exact IC|].
          apply (in_corner_patch _ _ _ _ n1 n2) in IC; try assumption; try lia.
        + exists (fun_at bs (fp F2) (fb F2) (fs1 F2) 0 (fs2 F2) 0).
          assert (IC : in_corner bs F2 x (n2 - 1 - y) (fun_at bs (fp F2) (fb F2) (fs1 F2) 0 (fs2 F2) 0)) by (exists 0, 0; repeat split; lia).
          split; [apply block_list_in; [assumption..|]; right; right; left; exact IC|].
          apply (in_corner_patch _ _ _ _ n1 n2) in IC; try assumption; try lia.
        + exists (fun_at bs (fp F3) (fb F3) (fs1 F3) 0 (fs2 F3) 0).
          assert (IC : in_corner bs F3 (n1 - 1 - x) (n2 - 1 - y) (fun_at bs (fp F3) (fb F3) (fs1 F3) 0 (fs2 F3) 0)) by (exists 0, 0; repeat split; lia).
          split; [apply block_list_in; [assumption..|]; right; right; right; exact IC|].
          apply (in_corner_patch _ _ _ _ n1 n2) in IC; try assumption; try lia. }
    rewrite AH. now destruct ((fp F <=? fp F1)%nat && (fp F <=? fp F2)%nat && (fp F <=? fp F3)%nat).
Qed.

(** the same functions from the neighbour across the first side *)
Theorem block_flip1_pf F F1 F2 F3 n1 n2 x y : square bs t F F1 F2 F3 -> distinct4 F F1 F2 F3 ->
  room n1 n2 F -> room n1 n2 F1 -> room n1 n2 F2 -> room n1 n2 F3 -> 0 <= x < n1 -> 0 <= y < n2 ->
  exists ls ls1 ls2 ls3,
    blockLocals bs t (fun_at bs (fp F) (fb F) (fs1 F) x (fs2 F) y) [fs1 F; fs2 F] [n1; n2] = Ok ls /\
    blockLocals bs t (fun_at bs (fp F1) (fb F1) (fs1 F1) (n1 - 1 - x) (fs2 F1) y) [fs1 F1; fs2 F1] [n1; n2] = Ok ls1 /\
    blockLocals bs t (fun_at bs (fp F2) (fb F2) (fs1 F2) x (fs2 F2) (n2 - 1 - y)) [fs1 F2; fs2 F2] [n1; n2] = Ok ls2 /\
    blockLocals bs t (fun_at bs (fp F) (fb F) (fs1 F) x (fs2 F) y) [fs2 F; fs1 F] [n2; n1] = Ok ls3 /\
    Permutation ls1 ls /\ Permutation ls2 ls /\ Permutation ls3 ls.
Proof.
  intros SQ DI R R1 R2 R3 X Y.
  pose proof (square_flip1 _ _ _ _ SQ) as SQ1. pose proof (square_flip2 _ _ _ _ SQ) as SQ2. pose proof (square_swap _ _ _ _ SQ) as SQ3. cbv zeta in SQ3.
  assert (DI1 : distinct4 F1 F F3 F2). { unfold distinct4 in *. repeat rewrite NoDup_cons_iff in *. cbn [In] in *. intuition congruence. }
  assert (DI2 : distinct4 F2 F3 F F1). { unfold distinct4 in *. repeat rewrite NoDup_cons_iff in *. cbn [In] in *. intuition congruence. }
  assert (X1 : 0 <= n1 - 1 - x < n1) by lia. assert (Y1 : 0 <= n2 - 1 - y < n2) by lia.
  destruct (square_frames _ _ _ _ SQ) as ((E & A) & _).
  exists (block_list F F1 F2 F3 n1 n2 x y), (block_list F1 F F3 F2 n1 n2 (n1 - 1 - x) y), (block_list F2 F3 F F1 n1 n2 x (n2 - 1 - y)).
  set (sw := fun G => mkF (fp G) (fb G) (fs2 G) (fs1 G)) in *.
  exists (block_list (sw F) (sw F2) (sw F1) (sw F3) n2 n1 y x).
  split; [now apply block_locals|]. split; [now apply block_locals|]. split; [now apply block_locals|]. split.
  { rewrite fun_at_swap by exact A. apply (block_locals (sw F) (sw F2) (sw F1) (sw F3)); try assumption; unfold room in *; cbn; lia. }
  assert (G : forall l l', NoDup l -> NoDup l' -> (forall k : Z, In k l <-> In k l') -> Permutation l l') by (intros; now apply NoDup_Permutation).
  split; [|split]; apply G; try (now apply block_list_nodup).
  - intros k. rewrite !block_list_in by assumption. unfold in_block. replace (n1 - 1 - (n1 - 1 - x)) with x by lia. tauto.
  - intros k. rewrite !block_list_in by assumption. unfold in_block. replace (n2 - 1 - (n2 - 1 - y)) with y by lia. tauto.
  - apply block_list_nodup; try assumption; try (unfold room in *; cbn; lia).
    unfold distinct4 in *. cbn [sw fp]. repeat rewrite NoDup_cons_iff in *. cbn [In] in *. intuition congruence.
  - intros k. rewrite !block_list_in by assumption. unfold in_block.
    assert (CS : forall G a b, frame_ok G -> in_corner bs (sw G) b a k <-> in_corner bs G a b k).
    { intros G0 a b (_ & AG). unfold in_corner. cbn [sw fp fb fs1 fs2]. split; intros (d & e & D & Ee & ->); exists e, d; repeat split; try lia.
      - symmetry. now apply fun_at_swap.
      - now apply fun_at_swap. }
    destruct (square_frames _ _ _ _ SQ) as (O & O1 & O2 & O3). rewrite !CS by assumption. tauto.
Qed.
End T.
