(** The map as a whole: row sums are one, columns are independent. *)
From Coq Require Import Reals Lra.
From Verif Require Import Common ListLemmas TopoModel TopoSpec TopoProofs MapModel MapSpec MapProofs MapRegions MapTravelSpec MapTravel MapActions MapLines MapAllModel MapAllSpec MapAllLoc MapAllKind MapAllCols MapAllLines MapAllBlocks MapAllCorners.
From Coq Require Import ZifyBool Permutation.
Open Scope Z_scope.

Lemma entry_val (c : column) l v : NoDup (map fst c) -> In (l, v) c -> entry c l = v.
Proof.
  intros ND I. replace c with (map (fun y : Z * R => (fst y, snd y)) c) by (rewrite <- (map_id c) at 2; apply map_ext; intros; now rewrite <- surjective_pairing).
  apply (entry_in fst snd c (l, v) l I eq_refl). intros (l', v') I' Q. apply (NoDup_map_eq fst c); assumption.
Qed.

Section P.
Context (M : mpbes) (n : Z) (OK : mp_ok M n).
Notation bs := (mbs M).
Notation t := (mtop M).
Notation kind := (kind M).
Notation valid := (valid M).
Notation POS := (POS M n OK).
Notation contrib := (contrib M).
Notation N := (nrOfLocals bs).

Definition colsOf (S : Z) : list column := match addK M S (kind S) with Ok cs => cs | Err => [] end.

Lemma contrib_colsOf S L : contrib S L = rs (fun c => entry c L) (colsOf S).
Proof. unfold contrib, colsOf. destruct (addK M S (kind S)); reflexivity. Qed.

(** *** What a start adds *)
Lemma good S : valid S -> addK M S (kind S) = Ok (colsOf S) /\ (colsOf S = [] \/ exists c, colsOf S = [c] /\ col_ok N c /\ In S (map fst c)).
Proof.
  intros V. unfold colsOf. destruct (kind S) as [| |s m d|s1 s2 n1 n2 d1 d2] eqn:K. all: swap 2 3. all: swap 3 4.
  - cbn [addK]. split; [reflexivity|]. right. exists [(S, 1%R)]. split; [reflexivity|]. split; [|now left]. split; [discriminate|]. split; [cbn; constructor; [intros []|constructor]|]. intros e [<-|[]]. cbn [fst snd]. split; [exact V|lra].
  - destruct (line_rep M n OK S s m d V K) as (q & b & sq & q' & b' & s' & s2' & e & X & D & [ES|ES]).
    + pose proof (addK_line M n OK _ _ _ _ _ _ _ _ _ d X D) as AK. cbv zeta in AK. rewrite <- ES, K in AK. rewrite AK. split; [reflexivity|]. right. eexists. split; [reflexivity|].
      pose proof (la_bound M n OK _ _ _ _ _ _ _ _ _ X) as (N2 & M1 & S1 & S1' & E1'). pose proof X as [G G' LT E Mm _].
      pose proof (gl_b _ _ _ _ _ _ _ _ _ _ G) as B. pose proof (gl_b' _ _ _ _ _ _ _ _ _ _ G) as B'. pose proof (gl_adj _ _ _ _ _ _ _ _ _ _ G') as A'.
      destruct (weights_pf M n OK q sq m (q', s') (glued_nb M _ _ _ _ _ _ _ _ G) M1) as (WO & _). destruct (WO d D) as (_ & _ & WP).
      split.
      * split; [unfold lineCol; rewrite (zrange_cons 0) by lia; discriminate|]. split.
        -- unfold lineCol. rewrite map_map. cbn [fst]. apply NoDup_map_inj; [|apply zrange_nodup]. intros x y Hx Hy Q. apply zrange_in in Hx, Hy. apply (line_fun_inj M n OK _ _ _ _ _ _ _ _ _ _ _ _ X D) in Q; lia.
        -- intros z Z. apply in_map_iff in Z. destruct Z as (k & <- & Kk). apply zrange_in in Kk. cbn [fst snd]. split; [|apply WP; lia].
           unfold line_fun. destruct (Z.leb_spec k d); apply valid_fun with (n := n); try assumption; try lia. apply adj_low.
      * unfold lineCol. rewrite map_map. cbn [fst]. apply in_map_iff. exists 0. split; [|apply zrange_in; lia]. unfold line_fun. replace (0 <=? d) with true by lia. rewrite Z.sub_0_r. now symmetry.
    + pose proof (addK_line2 M n OK _ _ _ _ _ _ _ _ _ d X D) as AK. cbv zeta in AK. rewrite <- ES, K in AK. rewrite AK. split; [reflexivity|now left].
  - destruct (block_rep M n OK S s1 s2 n1 n2 d1 d2 V K) as (F & F1 & F2 & F3 & X & (G & d & e & [<-|GI] & D & E & ES)).
    + pose proof (addK_block M n OK F F1 F2 F3 d e X D E) as AK. rewrite <- ES, K in AK. rewrite AK. split; [reflexivity|]. right. eexists. split; [reflexivity|].
      pose proof (ba_sq _ _ _ _ _ X) as SQ. destruct (sq_01 _ _ _ _ _ _ SQ) as (G1 & _). destruct (sq_02 _ _ _ _ _ _ SQ) as (G2 & _).
      destruct (weights_pf M n OK _ _ n _ (glued_nb M _ _ _ _ _ _ _ _ G1)) as (WO & _); [lia|]. destruct (WO d D) as (_ & _ & WP1). clear WO.
      destruct (weights_pf M n OK _ _ n _ (glued_nb M _ _ _ _ _ _ _ _ G2)) as (WO & _); [lia|]. destruct (WO e E) as (_ & _ & WP2). clear WO.
      destruct (square_room M n OK _ _ _ _ SQ) as (R0 & R1 & R2 & R3).
      assert (Z0 : In [0; 0] (enum [n; n])) by (apply enum_in, in_box2; exists 0, 0; split; [reflexivity|lia]).
      split.
      * split; [unfold blockCol; intros Q; apply map_eq_nil in Q; rewrite Q in Z0; destruct Z0|]. split.
        -- unfold blockCol. rewrite map_map. cbn [fst]. exact (block_list_nodup bs t POS F F1 F2 F3 n n d e SQ (ba_dist _ _ _ _ _ X) R0 R1 R2 R3 D E).
        -- intros z Z. split.
           ++ destruct (blockCol_on M n F F1 F2 F3 d e z X D E Z) as (H & dd & ee & HI & DD & EE & ->). destruct (square_kind M n OK F F1 F2 F3 H dd ee SQ (ba_spec _ _ _ _ _ X) HI DD EE) as (_ & _ & _ & _ & _ & _ & VV & _). exact VV.
           ++ apply in_map_iff in Z. destruct Z as (pt & <- & Hp). apply enum_in, in_box2 in Hp. destruct Hp as (k1 & k2 & -> & K1 & K2). cbn [snd nth]. apply Rmult_lt_0_compat; [now apply WP1|now apply WP2].
      * unfold blockCol. rewrite map_map. cbn [fst]. apply in_map_iff. exists [0; 0]. split; [|exact Z0]. cbn [nth]. rewrite (block_fun_cf M). replace (0 <=? d) with true by lia. replace (0 <=? e) with true by lia. cbn [fr dep]. rewrite !Z.sub_0_r. now symmetry.
    + pose proof (addK_block2 M n OK F F1 F2 F3 G d e X GI D E) as AK. rewrite <- ES, K in AK. rewrite AK. split; [reflexivity|now left].
  - destruct (corner_rep M n OK S V K) as (pc & VC & ES & ND). pose proof (addK_corner M n OK pc VC) as AK. rewrite <- ES, K in AK. specialize (AK eq_refl). rewrite AK. split; [reflexivity|].
    destruct (existsb (fun x => (fst x <? fst pc)%nat) (cls t pc)); [now left|right]. eexists. split; [reflexivity|]. pose proof (cls_self t (CON M n OK) pc VC) as SE.
    split.
    * split; [unfold cornerCol; intros Q; apply map_eq_nil in Q; rewrite Q in SE; destruct SE|]. split.
      -- unfold cornerCol. rewrite map_map. cbn [fst]. apply NoDup_map_inj; [|apply cls_nodup; [apply (CON M n OK)|exact VC]]. intros x y X Y Q. apply (cl_inj M n OK); [eapply cls_valid; [apply (CON M n OK)|exact VC|exact X]|eapply cls_valid; [apply (CON M n OK)|exact VC|exact Y]|exact Q].
      -- intros z Z. apply in_map_iff in Z. destruct Z as (x & <- & X). cbn [fst snd]. split; [|lra]. apply (cl_patch M n OK). eapply cls_valid; [apply (CON M n OK)|exact VC|exact X].
    * unfold cornerCol. rewrite map_map. cbn [fst]. apply in_map_iff. exists pc. split; [now symmetry|exact SE].
Qed.

(** *** All starts *)
Definition localL (p : nat) (x : Z * Z) : Z := match nth_error bs p with Some b => L bs p b (fst x) (snd x) | None => 0 end.
Definition startsOf (p : nat) : list Z := map (fun xa => localL p (fst xa)) (patchActions (mconf M p)).
Definition starts : list Z := flat_map startsOf (seq 0 (length bs)).

Lemma acts p b : nth_error bs p = Some b -> NoDup (map fst (patchActions (mconf M p))) /\ (forall x, in_patch (mconf M p) x -> In x (map fst (patchActions (mconf M p)))) /\
  (forall x a, In (x, a) (patchActions (mconf M p)) -> in_patch (mconf M p) x /\ a = expected (mconf M p) x).
Proof.
  intros E. destruct (conf_facts M n OK p b E) as (_ & _ & DU & DV & ONE & NA & _). destruct (actions_pf _ NA) as (A & B & C); [congruence|]. auto.
Qed.
Lemma in_seq_b p : In p (seq 0 (length bs)) -> exists b, nth_error bs p = Some b.
Proof. intros I. apply in_seq in I. destruct (nth_error bs p) as [b|] eqn:E; [eauto|]. apply nth_error_None in E. lia. Qed.

Lemma startsOf_in p b S : nth_error bs p = Some b -> In S (startsOf p) <-> exists u v, 0 <= u < mb_u b /\ 0 <= v < mb_v b /\ S = L bs p b u v.
Proof.
  intros E. destruct (acts p b E) as (_ & CO & IN). destruct (conf_facts M n OK p b E) as (CU & CV & _). unfold startsOf. rewrite in_map_iff. split.
  - intros (((u, v), a) & <- & I). destruct (IN _ _ I) as ((U & V) & _). cbn [fst snd] in *. exists u, v. unfold localL. rewrite E. cbn [fst snd]. split; [lia|]. split; [lia|reflexivity].
  - intros (u & v & U & V & ->). assert (IP : in_patch (mconf M p) (u, v)) by (split; cbn [fst snd]; lia). specialize (CO _ IP). apply in_map_iff in CO. destruct CO as (((u', v'), a) & Q & I). cbn [fst] in Q. injection Q as -> ->. exists (u, v, a). split; [|exact I]. unfold localL. rewrite E. reflexivity.
Qed.
Lemma starts_in S : In S starts <-> valid S.
Proof.
  unfold starts. rewrite in_flat_map. split.
  - intros (p & I & J). destruct (in_seq_b p I) as (b & E). apply (startsOf_in p b S E) in J. destruct J as (u & v & U & V & ->). now apply valid_L with (n := n).
  - intros V. destruct (decode M n OK S V) as (p & b & u & v & E & U & W & ->). exists p. split; [apply in_seq; assert (p < length bs)%nat by (apply nth_error_Some; congruence); lia|]. apply (startsOf_in p b _ E). eauto 6.
Qed.
Lemma starts_nodup : NoDup starts.
Proof.
  unfold starts. apply NoDup_flat_map_disj; [apply seq_NoDup| |].
  - intros p I. destruct (in_seq_b p I) as (b & E). destruct (acts p b E) as (ND & _ & IN). destruct (conf_facts M n OK p b E) as (CU & CV & _). unfold startsOf.
    rewrite <- (map_map fst (localL p)). apply NoDup_map_inj; [|exact ND]. intros x y X Y Q.
    apply in_map_iff in X, Y. destruct X as ((x', a) & X1 & X), Y as ((y', a') & Y1 & Y). cbn [fst] in X1, Y1. subst x' y'. destruct (IN _ _ X) as ((U & V) & _), (IN _ _ Y) as ((U' & V') & _). unfold localL in Q. rewrite E in Q. unfold L in Q. destruct x as (u, v), y as (u', v'). cbn [fst snd] in *.
    assert (v = v') by nia. assert (u = u') by nia. congruence.
  - intros p p' S I I' J J'. destruct (in_seq_b p I) as (b & E). destruct (in_seq_b p' I') as (b' & E'). apply (startsOf_in p b S E) in J. apply (startsOf_in p' b' S E') in J'. destruct J as (u & v & U & V & ->). destruct J' as (u' & v' & U' & V' & Q).
    rewrite <- (getPatch_L bs POS p b u v E U V), Q. now apply getPatch_L; [apply POS|..].
Qed.

Lemma makeMapper_ok : makeMapper M = Ok (flat_map colsOf starts).
Proof.
  unfold makeMapper. rewrite (mapM_ok _ (fun p => flat_map colsOf (startsOf p))).
  - cbn [bind]. f_equal. unfold starts. rewrite <- flat_map_concat_map. induction (seq 0 (length bs)) as [|p l IH]; [reflexivity|]. cbn [flat_map]. now rewrite flat_map_app, IH.
  - intros p I. destruct (in_seq_b p I) as (b & E). destruct (acts p b E) as (_ & _ & IN). destruct (conf_facts M n OK p b E) as (CU & CV & _).
    rewrite (mapM_ok _ (fun xa => colsOf (localL p (fst xa)))).
    + cbn [bind]. f_equal. unfold startsOf. rewrite <- flat_map_concat_map. clear IN. induction (patchActions (mconf M p)) as [|x l IH]; [reflexivity|]. cbn [flat_map map]. now rewrite IH.
    + intros (x, a) J. destruct (IN x a J) as ((U & V) & ->). unfold addAction. cbn [fst snd]. rewrite (localIndexOf_ok bs p b) by exact E. cbn [bind]. unfold localL. rewrite E.
      assert (KE : expected (mconf M p) x = kind (L bs p b (fst x) (snd x))) by (rewrite (kind_L M n OK p b) by (assumption || lia); now destruct x).
      rewrite KE. assert (VL : valid (L bs p b (fst x) (snd x))) by (apply valid_L with (n := n); assumption || lia). exact (proj1 (good _ VL)).
Qed.

(** *** Row sums *)
Definition sameSort (S L : Z) : Prop := match kind L with
  | Free => S = L | Line _ _ _ => exists s m d, kind S = Line s m d | Block _ _ _ _ _ _ => exists a b c d e f, kind S = Block a b c d e f | Singular => kind S = Singular end.
Lemma same_sort S L : valid S -> contrib S L <> 0%R -> sameSort S L.
Proof.
  intros V C. destruct (contrib_member M S L C) as (cs & c & v & AK & Ic & Iv). unfold sameSort. destruct (kind S) as [| |s m d|s1 s2 n1 n2 d1 d2] eqn:K. all: swap 2 3. all: swap 3 4.
  - cbn [addK] in AK. injection AK as <-. destruct Ic as [<-|[]]. destruct Iv as [Q|[]]. injection Q as <- _. now rewrite K.
  - rewrite <- K in AK. destruct (line_member_kind M n OK S L cs c v s m d V K AK Ic Iv) as (s' & d' & ->). eauto.
  - rewrite <- K in AK. destruct (block_member M n OK S L cs c v _ _ _ _ _ _ V K AK Ic Iv) as (F & F1 & F2 & F3 & x & y & X & _ & _ & _ & ON). destruct (onB_kind M n OK F F1 F2 F3 L X ON) as (? & ? & ? & ? & ->). eauto 8.
  - rewrite <- K in AK. now rewrite (corner_member_kind M n OK S L cs c v V K AK Ic Iv).
Qed.

Lemma row L : valid L -> rs (fun S => contrib S L) starts = 1%R.
Proof.
  intros V.
  assert (X : exists G, NoDup G /\ (forall S, In S G -> valid S) /\ (forall S, valid S -> contrib S L <> 0%R -> In S G) /\ rs (fun S => contrib S L) G = 1%R).
  { pose proof (same_sort) as SS. destruct (kind L) as [| |s m d|s1 s2 n1 n2 d1 d2] eqn:K. all: swap 2 3. all: swap 3 4.
    - exists [L]. split; [constructor; [intros []|constructor]|]. split; [intros S [<-|[]]; exact V|]. split.
      + intros S VS C. specialize (SS S L VS C). unfold sameSort in SS. rewrite K in SS. now left.
      + unfold rs, MapAllLines.contrib. cbn [map fold_right]. rewrite K. cbn [addK]. unfold rowSum, entry. cbn [map fold_right fold_left fst snd]. rewrite Z.eqb_refl. lra.
    - destruct (line_row M n OK L s m d V K) as (G & A & B & C & D). exists G. split; [exact A|]. split; [exact B|]. split; [|exact D]. intros S VS CS. apply C; try assumption. specialize (SS S L VS CS). unfold sameSort in SS. now rewrite K in SS.
    - destruct (block_row M n OK L s1 s2 n1 n2 d1 d2 V K) as (G & A & B & C & D). exists G. split; [exact A|]. split; [exact B|]. split; [|exact D]. intros S VS CS. apply C; try assumption. specialize (SS S L VS CS). unfold sameSort in SS. now rewrite K in SS.
    - destruct (corner_row M n OK L V K) as (G & A & B & C & D). exists G. split; [exact A|]. split; [exact B|]. split; [|exact D]. intros S VS CS. apply C; try assumption. specialize (SS S L VS CS). unfold sameSort in SS. now rewrite K in SS. }
  destruct X as (G & ND & VG & SUP & <-). apply rs_support; [apply starts_nodup|exact ND| |].
  - intros S I. apply starts_in. now apply VG.
  - intros S I C. apply SUP; [now apply starts_in|exact C].
Qed.

(** *** Independence *)
Definition depth (S : Z) : Z := match kind S with Line _ _ d => d | Block _ _ _ _ d1 d2 => d1 + d2 | _ => 0 end.

Lemma triangular S S' : valid S -> valid S' -> colsOf S <> [] -> contrib S' S <> 0%R -> S' = S \/ depth S < depth S'.
Proof.
  intros V V' ACT C. pose proof (same_sort S' S V' C) as SS. unfold sameSort in SS. unfold depth. destruct (kind S) as [| |s m d|s1 s2 n1 n2 d1 d2] eqn:K. all: swap 2 3. all: swap 3 4.
  - now left.
  - destruct SS as (s0 & m0 & d0 & K'). rewrite K'. destruct (line_rep M n OK S s m d V K) as (q & b & sq & q' & b' & s' & s2' & e & X & D & [ES|ES]).
    + destruct (contrib_member M S' S C) as (cs & c & v & AK & Ic & Iv). destruct (line_member M n OK S' S cs c v s0 m0 d0 V' K' AK Ic Iv) as (q0 & b0 & sq0 & q0' & b0' & s0' & s20' & e0 & k & X0 & D0 & Kk & ES' & EL0).
      destruct (line_unique M n OK _ _ _ _ _ _ _ _ _ d _ _ _ _ _ _ _ _ _ k S X X0 D Kk (or_introl ES) EL0) as (<- & <- & <- & <- & <- & <- & <- & <- & <- & <-).
      rewrite ES, ES', (line_contrib1 M n OK _ _ _ _ _ _ _ _ _ d d0 X D D0) in C. destruct (Z.leb_spec d d0); [|congruence]. destruct (Z.eq_dec d d0) as [->|]; [left; congruence|right; lia].
    + elim ACT. unfold colsOf. pose proof (addK_line2 M n OK _ _ _ _ _ _ _ _ _ d X D) as AK. cbv zeta in AK. rewrite <- ES in AK. now rewrite AK.
  - destruct SS as (? & ? & ? & ? & ? & ? & K'). destruct (block_rep M n OK S s1 s2 n1 n2 d1 d2 V K) as (F & F1 & F2 & F3 & X & (G & d & e & [<-|GI] & D & E & ES)).
    + destruct (contrib_member M S' S C) as (cs & c & v & AK & Ic & Iv). destruct (block_member M n OK S' S cs c v _ _ _ _ _ _ V' K' AK Ic Iv) as (F' & F1' & F2' & F3' & x' & y' & X' & Dx & Dy & ES' & ON').
      destruct (block_unique M n OK _ _ _ _ _ _ _ _ S X X') as (<- & <- & <- & <-); [exists F, d, e; split; [now left|auto]|exact ON'|].
      pose proof (block_contrib M n OK F F1 F2 F3 true true d e x' y' X D E Dx Dy) as BC. cbn [fr] in BC. rewrite <- ES, <- ES' in BC. rewrite BC in C. unfold part in C.
      destruct (Z.leb_spec d x'); [|rewrite Rmult_0_l in C; congruence]. destruct (Z.leb_spec e y'); [|rewrite Rmult_0_r in C; congruence].
      pose proof (square_kind M n OK F F1 F2 F3 F d e (ba_sq _ _ _ _ _ X) (ba_spec _ _ _ _ _ X) (or_introl eq_refl) D E) as (dd & ee & Dd & De & EC & KF & _).
      pose proof (square_kind M n OK F F1 F2 F3 F x' y' (ba_sq _ _ _ _ _ X) (ba_spec _ _ _ _ _ X) (or_introl eq_refl) Dx Dy) as (dd' & ee' & Dd' & De' & EC' & KF' & _).
      rewrite (nf_of F (ba_first _ _ _ _ _ X)) in EC, EC'.
      assert (d = dd /\ e = ee) as (<- & <-) by (change F with (fr F F1 F2 F3 true true) in EC; apply (cf_inj M n OK F F1 F2 F3 true true) in EC; tauto).
      assert (x' = dd' /\ y' = ee') as (<- & <-) by (change F with (fr F F1 F2 F3 true true) in EC'; apply (cf_inj M n OK F F1 F2 F3 true true) in EC'; tauto).
      rewrite <- ES, K in KF. rewrite <- ES', K' in KF'. rewrite K'. injection KF as _ _ _ _ -> ->. injection KF' as _ _ _ _ -> ->.
      destruct (Z.eq_dec d x') as [->|]; [destruct (Z.eq_dec e y') as [->|]; [left; congruence|right; lia]|right; lia].
    + elim ACT. unfold colsOf. pose proof (addK_block2 M n OK F F1 F2 F3 G d e X GI D E) as AK. rewrite <- ES in AK. now rewrite AK.
  - left. destruct (contrib_member M S' S C) as (cs & c & v & AK & Ic & Iv). destruct (corner_member M n OK S' S cs c v V' SS AK Ic Iv) as (pc & x & VC & -> & ND & X & -> & _ & MN).
    assert (VX : validc t x) by (eapply cls_valid; [apply (CON M n OK)|exact VC|exact X]).
    f_equal. apply (NoDup_map_eq fst (cls t pc)); [exact ND|now apply cls_self; [apply (CON M n OK)|]|exact X|].
    unfold colsOf in ACT. rewrite (addK_corner M n OK x VX K) in ACT. destruct (existsb (fun y => (fst y <? fst x)%nat) (cls t x)) eqn:Q; [congruence|]. rewrite existsb_false in Q.
    specialize (Q pc (in_cls_sym t (CON M n OK) pc x VC X)). cbv beta in Q. specialize (MN x X). lia.
Qed.

Lemma diag S c : valid S -> colsOf S = [c] -> (0 < entry c S)%R.
Proof.
  intros V E. destruct (good S V) as (_ & [Q|(c' & Q & (_ & ND & PW) & I)]); [congruence|]. assert (c' = c) by congruence. subst c'. apply in_map_iff in I. destruct I as ((l, v) & EL & I). cbn [fst] in EL. subst l.
  rewrite (entry_val c S v ND I). exact (proj2 (PW _ I)).
Qed.

Definition active : list Z := filter (fun S => match colsOf S with [] => false | _ => true end) starts.
Definition colOf (S : Z) : column := hd [] (colsOf S).
Lemma active_in S : In S active -> valid S /\ colsOf S = [colOf S].
Proof.
  intros I. apply filter_In in I. destruct I as (I & Q). apply starts_in in I. split; [exact I|]. destruct (good S I) as (_ & [E|(c & E & _)]); [rewrite E in Q; discriminate|]. unfold colOf. now rewrite E.
Qed.
Lemma cols_active : flat_map colsOf starts = map colOf active.
Proof.
  unfold active. assert (H : forall S, In S starts -> valid S) by (intros S; apply starts_in). induction starts as [|S l IH]; [reflexivity|]. cbn [flat_map filter]. rewrite IH by (intros; apply H; now right).
  destruct (good S (H S (or_introl eq_refl))) as (_ & [E|(c & E & _)]); rewrite E; [reflexivity|]. cbn [map app]. unfold colOf at 2. now rewrite E.
Qed.

Lemma independent_pf : independent N (map colOf active).
Proof.
  intros a EQ.
  assert (B : forall S, valid S -> 0 <= depth S <= 2 * n + 2).
  { intros S V. unfold depth. destruct (decode M n OK S V) as (p & b & _ & _ & E & _). pose proof (n_ge M n OK p b E). destruct (kind S) as [| |s m d|s1 s2 n1 n2 d1 d2] eqn:K; try lia.
    - destruct (line_inv M n OK S s m d V K) as (? & ? & _ & _ & _ & D & _). lia.
    - destruct (block_inv M n OK S _ _ _ _ _ _ V K) as (? & ? & _ & _ & _ & _ & _ & _ & _ & _ & D1 & D2 & _). lia. }
  rewrite map_length in *.
  assert (X : forall k, 0 <= k -> forall i, (i < length active)%nat -> 2 * n + 2 - depth (nth i active 0) < k -> a i = 0%R).
  { intros k Hk. pattern k. apply natlike_ind; [| |exact Hk]; clear k Hk.
    - intros i I Q. destruct (active_in (nth i active 0) (nth_In _ _ I)) as (V & _). pose proof (B _ V). lia.
    - intros k Hk IH i I Q. destruct (active_in (nth i active 0) (nth_In _ _ I)) as (V & E). set (S := nth i active 0) in *.
      specialize (EQ S V). change (rs (fun j => (a j * entry (nth j (map colOf active) []) S)%R) (seq 0 (length active)) = 0%R) in EQ.
      rewrite (rs_support _ [i]) in EQ.
      + rewrite rs_cons in EQ. unfold rs in EQ. cbn [map fold_right] in EQ. rewrite Rplus_0_r in EQ.
        assert (NE : nth i (map colOf active) [] = colOf S). { rewrite (nth_indep _ [] (colOf 0)) by (now rewrite map_length). now rewrite map_nth. }
        rewrite NE in EQ. pose proof (diag S (colOf S) V E). apply Rmult_integral in EQ. destruct EQ as [EQ|EQ]; [exact EQ|lra].
      + apply seq_NoDup.
      + constructor; [intros []|constructor].
      + intros x [<-|[]]. apply in_seq. lia.
      + intros j J C. apply in_seq in J. assert (Jl : (j < length active)%nat) by lia. destruct (active_in (nth j active 0) (nth_In _ _ Jl)) as (Vj & Ej).
        assert (NE : nth j (map colOf active) [] = colOf (nth j active 0)). { rewrite (nth_indep _ [] (colOf 0)) by (now rewrite map_length). now rewrite map_nth. }
        rewrite NE in C. assert (CJ : contrib (nth j active 0) S <> 0%R). { rewrite contrib_colsOf, Ej. unfold rs. cbn [map fold_right]. intros Z. rewrite Rplus_0_r in Z. rewrite Z, Rmult_0_r in C. congruence. }
        assert (ACT : colsOf S <> []) by (rewrite E; discriminate).
        destruct (triangular S (nth j active 0) V Vj ACT CJ) as [TE|TL].
        * left. assert (NDA : NoDup active) by (apply NoDup_filter, starts_nodup). symmetry. now apply (proj1 (NoDup_nth active 0) NDA).
        * exfalso. apply C. rewrite (IH j Jl) by lia. apply Rmult_0_l. }
  intros i I. destruct (active_in (nth i active 0) (nth_In _ _ I)) as (V & _). pose proof (B _ V). apply (X (2 * n + 3)); [|exact I|]; lia.
Qed.

Theorem mapper_pf : exists cols, makeMapper M = Ok cols /\ (Z.of_nat (length cols) <= N) /\ (forall c, In c cols -> col_ok N c) /\ (forall l, 0 <= l < N -> rowSum cols l = 1%R) /\ independent N cols.
Proof.
  exists (flat_map colsOf starts). split; [exact makeMapper_ok|]. split; [|split; [|split]].
  - rewrite cols_active, map_length. unfold active. 
    assert (LE : (length (filter (fun S => match colsOf S with [] => false | _ => true end) starts) <= length (zrange 0 N))%nat).
    { apply NoDup_incl_length; [apply NoDup_filter, starts_nodup|]. intros S I. apply filter_In in I. destruct I as (I & _). apply starts_in in I. now apply zrange_in. }
    rewrite zrange_length in LE. assert (P : 0 <= N \/ starts = []). { destruct starts as [|S l] eqn:Q; [now right|left]. assert (V : valid S) by (apply starts_in; rewrite Q; now left). unfold MapAllKind.valid in V. lia. }
    destruct P as [P|P]; [lia|]. rewrite P. cbn [filter length].
    assert (0 <= N); [|lia]. rewrite nrOfLocals_before. pose proof POS as PO. clear -PO. revert PO. generalize bs. induction l as [|b l IH]; intros PO; [cbn; lia|]. cbn [length before]. pose proof (PO b (or_introl eq_refl)). unfold mb_size in *. specialize (IH (fun x X => PO x (or_intror X))). lia.
  - intros c I. rewrite cols_active in I. apply in_map_iff in I. destruct I as (S & <- & I). destruct (active_in S I) as (V & E). destruct (good S V) as (_ & [Q|(c & Q & CO & _)]); [congruence|]. assert (c = colOf S) by congruence. now subst c.
  - intros l V. rewrite <- (row l V). unfold rowSum. change (rs (fun c => entry c l) (flat_map colsOf starts) = rs (fun S => contrib S l) starts). rewrite rs_flat. apply rs_ext. intros S _. symmetry. apply contrib_colsOf.
  - rewrite cols_active. exact independent_pf.
Qed.

End P.
