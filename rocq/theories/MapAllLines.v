(** Row sums over functions that are combined along lines. *)
From Coq Require Import Reals Lra.
From Verif Require Import Common ListLemmas TopoModel TopoSpec TopoProofs MapModel MapSpec MapProofs MapRegions MapTravelSpec MapTravel MapActions MapLines MapAllModel MapAllSpec MapAllLoc MapAllKind MapAllCols.
From Coq Require Import ZifyBool Permutation.
Open Scope Z_scope.

Section L.
Context (M : mpbes) (n : Z) (OK : mp_ok M n).
Notation bs := (mbs M).
Notation t := (mtop M).
Notation kind := (kind M).
Notation valid := (valid M).
Notation POS := (POS M n OK).

(** what a start adds to a row *)
Definition contrib (S L : Z) : R := match addK M S (kind S) with Ok cs => rowSum cs L | Err => 0%R end.

Definition low (s : side) : side := side_at_end s false.
Lemma adj_low s : adjacent s (low s). Proof. apply adj_end. Qed.

(** a line across the interface of side [s] of patch [q], which has the smaller number *)
Record lineAt (q : nat) (b : mbase) (s : side) (q' : nat) (b' : mbase) (s' s2' : side) (e m : Z) : Prop := {
  la_glue : glued bs t q b s (low s) q' b' s' s2';
  la_glue' : glued bs t q' b' s' s2' q b s (low s);
  la_lt : (q < q')%nat;
  la_e : 0 <= e < asz b s;
  la_m : m = n \/ m = 1;
  la_kind : forall d, 0 <= d < m -> kind (fun_at bs q b s d (low s) e) = Line s m d }.

Lemma la_bound q b s q' b' s' s2' e m : lineAt q b s q' b' s' s2' e m -> 2 <= n /\ 1 <= m <= n /\ 2 * n <= nsz b s /\ 2 * n <= nsz b' s' /\ 0 <= e < asz b' s'.
Proof.
  intros X. pose proof (gl_b _ _ _ _ _ _ _ _ _ _ (la_glue _ _ _ _ _ _ _ _ _ X)) as B. pose proof (gl_b' _ _ _ _ _ _ _ _ _ _ (la_glue _ _ _ _ _ _ _ _ _ X)) as B'.
  pose proof (n_ge M n OK _ _ B). destruct (sizes M n OK _ _ s B) as (_ & _ & SN & _). destruct (sizes M n OK _ _ s' B') as (_ & _ & SN' & _). pose proof (gl_size _ _ _ _ _ _ _ _ _ _ (la_glue _ _ _ _ _ _ _ _ _ X)).
  destruct (la_m _ _ _ _ _ _ _ _ _ X); pose proof (la_e _ _ _ _ _ _ _ _ _ X); lia.
Qed.

Lemma la_kind' q b s q' b' s' s2' e m d : lineAt q b s q' b' s' s2' e m -> 0 <= d < m -> kind (fun_at bs q' b' s' d s2' e) = Line s' m d.
Proof.
  intros X D. pose proof (la_bound _ _ _ _ _ _ _ _ _ X). destruct X as [G G' LT E Mm K].
  apply (line_cross M n OK q b s (low s)); try assumption; [lia|now apply K].
Qed.

Lemma line_rep L s m d : valid L -> kind L = Line s m d -> exists q b sq q' b' s' s2' e, lineAt q b sq q' b' s' s2' e m /\ 0 <= d < m /\
  (L = fun_at bs q b sq d (low sq) e \/ L = fun_at bs q' b' s' d s2' e).
Proof.
  intros V K. destruct (line_inv M n OK L s m d V K) as (p & b & GP & E & I & D & R).
  destruct (mp_glue _ _ OK p b s (low s) E I (adj_low s)) as (p' & b' & s' & s2' & NE & G & G').
  destruct (R (low s) (adj_low s)) as (e & Ee & EL). pose proof K as K1. rewrite EL in K1.
  destruct (line_same M n OK p b s (low s) m d e 0 E (adj_low s) I D Ee) as (Mm & Dm & _); [|exact K1|].
  { pose proof (n_ge M n OK p b E). pose proof (line_same M n OK p b s (low s) m d e). unfold zoneAct in *.
    destruct (Z_le_gt_dec m 0); [|lia]. exfalso.
    rewrite kind_strip with (n := n) in K1 by (try assumption; apply adj_low). rewrite (strip_eq M n OK p b) in K1 by assumption. cbv zeta in K1.
    destruct (zone M p s (low s) e). { apply zoneAct_line in K1; [lia|apply adj_low|reflexivity]. }
    destruct (zone M p s (opp (low s)) _). { apply zoneAct_line in K1; [lia|apply adj_opp2, adj_low|reflexivity]. }
    destruct (second M n p (low s) e); [now apply blk_line in K1|]. destruct (second M n p (opp (low s)) _); [now apply blk_line in K1|]. injection K1 as K1. lia. }
  assert (KS : forall d', 0 <= d' < m -> kind (fun_at bs p b s d' (low s) e) = Line s m d').
  { intros d' D'. now apply (line_same M n OK p b s (low s) m d e d' E (adj_low s) I D Ee D' K1). }
  destruct (Nat.lt_ge_cases p p') as [LT|GE].
  - exists p, b, s, p', b', s', s2', e. split; [|split; [lia|now left]]. constructor; try assumption.
  - assert (LT : (p' < p)%nat) by lia. pose proof (gl_adj _ _ _ _ _ _ _ _ _ _ G') as A'. pose proof (gl_size _ _ _ _ _ _ _ _ _ _ G) as SZ.
    assert (KS' : forall d', 0 <= d' < m -> kind (fun_at bs p' b' s' d' s2' e) = Line s' m d').
    { intros d' D'. apply (line_cross M n OK p b s (low s)); try assumption; [lia|now apply KS]. }
    destruct (adj_two s' s2' (low s') A' (adj_low s')) as [W|W].
    + exists p', b', s', p, b, s, (low s), e. rewrite W. split; [|split; [lia|now right]]. constructor; rewrite ?W; try assumption. lia.
    + exists p', b', s', p, b, s, (opp (low s)), (asz b s - 1 - e). rewrite W. split; [|split; [lia|right]].
      * constructor; rewrite ?W; try (apply glued_opp; assumption); try assumption; [lia|]. intros d' D'. rewrite SZ, <- fun_at_end by exact A'. now apply KS'.
      * rewrite <- fun_at_end by apply adj_low. exact EL.
Qed.

Lemma line_unique q b s q' b' s' s2' e m d q0 b0 s0 q0' b0' s0' s20' e0 m0 d0 L :
  lineAt q b s q' b' s' s2' e m -> lineAt q0 b0 s0 q0' b0' s0' s20' e0 m0 -> 0 <= d < m -> 0 <= d0 < m0 ->
  (L = fun_at bs q b s d (low s) e \/ L = fun_at bs q' b' s' d s2' e) -> (L = fun_at bs q0 b0 s0 d0 (low s0) e0 \/ L = fun_at bs q0' b0' s0' d0 s20' e0) ->
  q = q0 /\ b = b0 /\ s = s0 /\ q' = q0' /\ b' = b0' /\ s' = s0' /\ s2' = s20' /\ e = e0 /\ m = m0 /\ d = d0.
Proof.
  intros X X0 D D0 H H0.
  pose proof (la_bound _ _ _ _ _ _ _ _ _ X) as (N2 & M1 & S1 & S1' & E1'). pose proof (la_bound _ _ _ _ _ _ _ _ _ X0) as (_ & M2 & S2 & S2' & E2').
  pose proof (la_kind' _ _ _ _ _ _ _ _ _ d X D) as KB. pose proof (la_kind' _ _ _ _ _ _ _ _ _ d0 X0 D0) as KB0.
  destruct X as [G G' LT E Mm K], X0 as [G0 G0' LT0 E0 Mm0 K0]. specialize (K d D). specialize (K0 d0 D0).
  pose proof (gl_b _ _ _ _ _ _ _ _ _ _ G) as B. pose proof (gl_b' _ _ _ _ _ _ _ _ _ _ G) as B'. pose proof (gl_b _ _ _ _ _ _ _ _ _ _ G0) as B0. pose proof (gl_b' _ _ _ _ _ _ _ _ _ _ G0) as B0'.
  pose proof (gl_adj _ _ _ _ _ _ _ _ _ _ G') as A'. pose proof (gl_adj _ _ _ _ _ _ _ _ _ _ G0') as A0'.
  assert (P1 : getPatch bs (fun_at bs q b s d (low s) e) = q) by (apply getPatch_fun; try assumption; [apply POS|apply adj_low|lia]).
  assert (P1' : getPatch bs (fun_at bs q' b' s' d s2' e) = q') by (apply getPatch_fun; try assumption; [apply POS|lia]).
  assert (P2 : getPatch bs (fun_at bs q0 b0 s0 d0 (low s0) e0) = q0) by (apply getPatch_fun; try assumption; [apply POS|apply adj_low|lia]).
  assert (P2' : getPatch bs (fun_at bs q0' b0' s0' d0 s20' e0) = q0') by (apply getPatch_fun; try assumption; [apply POS|lia]).
  destruct H as [H|H], H0 as [H0|H0].
  - assert (q = q0) by congruence. subst q0. assert (b = b0) by congruence. subst b0.
    rewrite <- H in K. rewrite <- H0 in K0. rewrite K in K0. injection K0 as <- <- <-.
    destruct (glued_det M _ _ _ _ _ _ _ _ _ _ _ _ _ G G0) as (<- & <- & <- & <-).
    rewrite H in H0. apply fun_at_inj in H0; try assumption; [|apply POS|apply adj_low|lia|lia]. destruct H0 as (_ & <-). now repeat split.
  - exfalso. assert (q = q0') by congruence. subst q0'. rewrite <- H in K. rewrite <- H0 in KB0. rewrite K in KB0. injection KB0 as <- _ _.
    pose proof (glued_nb M _ _ _ _ _ _ _ _ G) as Q. pose proof (glued_nb M _ _ _ _ _ _ _ _ G0') as Q0. rewrite Q in Q0. injection Q0 as <- _. lia.
  - exfalso. assert (q' = q0) by congruence. subst q0. rewrite <- H in KB. rewrite <- H0 in K0. rewrite KB in K0. injection K0 as <- _ _.
    pose proof (glued_nb M _ _ _ _ _ _ _ _ G') as Q. pose proof (glued_nb M _ _ _ _ _ _ _ _ G0) as Q0. rewrite Q in Q0. injection Q0 as <- _. lia.
  - assert (q' = q0') by congruence. subst q0'. assert (b' = b0') by congruence. subst b0'.
    rewrite <- H in KB. rewrite <- H0 in KB0. rewrite KB in KB0. injection KB0 as <- <- <-.
    pose proof (glued_nb M _ _ _ _ _ _ _ _ G') as Q. pose proof (glued_nb M _ _ _ _ _ _ _ _ G0') as Q0. rewrite Q in Q0. injection Q0 as <- <-.
    assert (b = b0) by congruence. subst b0. destruct (glued_det M _ _ _ _ _ _ _ _ _ _ _ _ _ G G0) as (_ & _ & _ & <-).
    rewrite H in H0. apply fun_at_inj in H0; try assumption; [|apply POS|lia|lia]. destruct H0 as (_ & <-). now repeat split.
Qed.

(** *** The columns *)
Lemma addK_line q b s q' b' s' s2' e m d : lineAt q b s q' b' s' s2' e m -> 0 <= d < m ->
  let S := fun_at bs q b s d (low s) e in addK M S (kind S) = Ok [lineCol M q b s (low s) q' b' s' s2' d e m].
Proof.
  intros X D S. pose proof (la_bound _ _ _ _ _ _ _ _ _ X). destruct X as [G G' LT E Mm K]. unfold S. rewrite (K d D). cbn [addK].
  rewrite (cols_line M n OK q b s (low s) q' b' s' s2' m d e G G') by lia. replace (q <? q')%nat with true by lia. reflexivity.
Qed.
Lemma addK_line2 q b s q' b' s' s2' e m d : lineAt q b s q' b' s' s2' e m -> 0 <= d < m ->
  let S := fun_at bs q' b' s' d s2' e in addK M S (kind S) = Ok [].
Proof.
  intros X D S. pose proof (la_bound _ _ _ _ _ _ _ _ _ X). unfold S. rewrite (la_kind' _ _ _ _ _ _ _ _ _ d X D). destruct X as [G G' LT E Mm K]. cbn [addK].
  rewrite (cols_line M n OK q' b' s' s2' q b s (low s) m d e G' G) by lia. replace (q' <? q)%nat with false by lia. reflexivity.
Qed.

(** entries of the column *)
Lemma lineCol_in q b s q' b' s' s2' e m d x : 0 <= d < m -> In x (lineCol M q b s (low s) q' b' s' s2' d e m) ->
  exists k, 0 <= k < m /\ ((k <= d /\ x = (fun_at bs q b s k (low s) e, wt M q s m d (d - k))) \/ (x = (fun_at bs q' b' s' k s2' e, wt M q s m d (d + 1 + k)))).
Proof.
  intros D I. apply in_map_iff in I. destruct I as (k & <- & K). apply zrange_in in K. unfold line_fun. destruct (Z.leb_spec k d).
  - exists (d - k). split; [lia|]. left. split; [lia|]. f_equal. f_equal. lia.
  - exists (k - d - 1). split; [lia|]. right. f_equal. f_equal. lia.
Qed.

Lemma line_fun_inj q b s q' b' s' s2' e m d k k' : lineAt q b s q' b' s' s2' e m -> 0 <= d < m -> 0 <= k <= m -> 0 <= k' <= m ->
  line_fun bs q b s (low s) q' b' s' s2' d e k = line_fun bs q b s (low s) q' b' s' s2' d e k' -> k = k'.
Proof.
  intros X D K K'. pose proof (la_bound _ _ _ _ _ _ _ _ _ X) as (N2 & M1 & S1 & S1' & E1'). destruct X as [G G' LT E Mm _].
  pose proof (gl_b _ _ _ _ _ _ _ _ _ _ G) as B. pose proof (gl_b' _ _ _ _ _ _ _ _ _ _ G) as B'. pose proof (gl_adj _ _ _ _ _ _ _ _ _ _ G') as A'.
  assert (P1 : forall d, 0 <= d < m -> getPatch bs (fun_at bs q b s d (low s) e) = q) by (intros; apply getPatch_fun; try assumption; [apply POS|apply adj_low|lia]).
  assert (P1' : forall d, 0 <= d < m -> getPatch bs (fun_at bs q' b' s' d s2' e) = q') by (intros; apply getPatch_fun; try assumption; [apply POS|lia]).
  unfold line_fun. destruct (Z.leb_spec k d), (Z.leb_spec k' d); intros Q.
  - apply fun_at_inj in Q; try assumption; [lia|apply POS|apply adj_low|lia|lia].
  - pose proof (f_equal (getPatch bs) Q) as Q'. rewrite P1, P1' in Q' by lia. lia.
  - pose proof (f_equal (getPatch bs) Q) as Q'. rewrite P1, P1' in Q' by lia. lia.
  - apply fun_at_inj in Q; try assumption; [lia|apply POS|lia|lia].
Qed.

Lemma lineCol_entry q b s q' b' s' s2' e m d k : lineAt q b s q' b' s' s2' e m -> 0 <= d < m -> 0 <= k <= m ->
  entry (lineCol M q b s (low s) q' b' s' s2' d e m) (line_fun bs q b s (low s) q' b' s' s2' d e k) = wt M q s m d k.
Proof.
  intros X D K. unfold lineCol. apply (entry_in (fun k => line_fun bs q b s (low s) q' b' s' s2' d e k) (fun k => wt M q s m d k)); [apply zrange_in; lia|reflexivity|].
  intros k' K' Q. apply zrange_in in K'. apply (line_fun_inj _ _ _ _ _ _ _ _ _ _ _ _ X D) in Q; lia.
Qed.

Lemma line_contrib1 q b s q' b' s' s2' e m d k : lineAt q b s q' b' s' s2' e m -> 0 <= d < m -> 0 <= k < m ->
  contrib (fun_at bs q b s k (low s) e) (fun_at bs q b s d (low s) e) = if d <=? k then wt M q s m k (k - d) else 0%R.
Proof.
  intros X D K. unfold contrib. rewrite (addK_line _ _ _ _ _ _ _ _ _ _ X K). unfold rowSum. cbn [map fold_right]. rewrite Rplus_0_r. destruct (Z.leb_spec d k).
  - rewrite <- (lineCol_entry _ _ _ _ _ _ _ _ _ k (k - d) X K) by lia. f_equal. unfold line_fun. replace (k - d <=? k) with true by lia. f_equal. lia.
  - apply entry_out. intros x I. destruct (lineCol_in _ _ _ _ _ _ _ _ _ _ _ K I) as (k' & K' & H'). 
    assert (Q : fst x = fun_at bs q b s k' (low s) e /\ k' <= k \/ fst x = fun_at bs q' b' s' k' s2' e) by (destruct H' as [(A & ->)| ->]; [left|right]; now cbn).
    intros Q'. pose proof (fun R0 R1 => line_unique _ _ _ _ _ _ _ _ _ k' _ _ _ _ _ _ _ _ _ d (fst x) X X K' D R0 R1) as U.
    destruct Q as [(Q & L1)|Q].
    + destruct U as (_ & _ & _ & _ & _ & _ & _ & _ & _ & U); [now left|now left|]. lia.
    + pose proof (la_bound _ _ _ _ _ _ _ _ _ X) as (N2 & M1 & S1 & S1' & E1'). destruct X as [G G' LT E Mm _].
      pose proof (gl_b _ _ _ _ _ _ _ _ _ _ G) as B. pose proof (gl_b' _ _ _ _ _ _ _ _ _ _ G) as B'. pose proof (gl_adj _ _ _ _ _ _ _ _ _ _ G') as A'.
      assert (P1 : getPatch bs (fun_at bs q b s d (low s) e) = q) by (apply getPatch_fun; try assumption; [apply POS|apply adj_low|lia]).
      assert (P1' : getPatch bs (fun_at bs q' b' s' k' s2' e) = q') by (apply getPatch_fun; try assumption; [apply POS|lia]).
      rewrite <- Q', Q in P1. lia.
Qed.

Lemma line_contrib2 q b s q' b' s' s2' e m d k : lineAt q b s q' b' s' s2' e m -> 0 <= d < m -> 0 <= k < m ->
  contrib (fun_at bs q b s k (low s) e) (fun_at bs q' b' s' d s2' e) = wt M q s m k (k + 1 + d).
Proof.
  intros X D K. pose proof (la_bound _ _ _ _ _ _ _ _ _ X) as (N2 & M1 & S1 & S1' & E1'). unfold contrib. rewrite (addK_line _ _ _ _ _ _ _ _ _ _ X K). unfold rowSum. cbn [map fold_right]. rewrite Rplus_0_r. destruct (Z_le_gt_dec (k + 1 + d) m).
  - rewrite <- (lineCol_entry _ _ _ _ _ _ _ _ _ k (k + 1 + d) X K) by lia. f_equal. unfold line_fun. replace (k + 1 + d <=? k) with false by lia. f_equal. lia.
  - rewrite entry_out.
    + symmetry. unfold wt. apply nth_overflow. destruct (weights_pf M n OK q s m (q', s') (glued_nb M _ _ _ _ _ _ _ _ (la_glue _ _ _ _ _ _ _ _ _ X)) M1) as (WO & _). destruct (WO k K) as (_ & -> & _). lia.
    + intros x I. apply in_map_iff in I. destruct I as (k' & <- & K'). apply zrange_in in K'. cbn [fst]. destruct X as [G G' LT E Mm _].
      pose proof (gl_b _ _ _ _ _ _ _ _ _ _ G) as B. pose proof (gl_b' _ _ _ _ _ _ _ _ _ _ G) as B'. pose proof (gl_adj _ _ _ _ _ _ _ _ _ _ G') as A'.
      unfold line_fun. destruct (Z.leb_spec k' k); intros Q.
      * assert (P1 : getPatch bs (fun_at bs q b s (k - k') (low s) e) = q) by (apply getPatch_fun; try assumption; [apply POS|apply adj_low|lia]).
        assert (P1' : getPatch bs (fun_at bs q' b' s' d s2' e) = q') by (apply getPatch_fun; try assumption; [apply POS|lia]). rewrite Q in P1. lia.
      * apply fun_at_inj in Q; try assumption; [lia|apply POS|lia|lia].
Qed.

(** *** Row sums *)
Lemma contrib_member S L : contrib S L <> 0%R -> exists cs c v, addK M S (kind S) = Ok cs /\ In c cs /\ In (L, v) c.
Proof.
  unfold contrib. destruct (addK M S (kind S)) as [cs|]; [|congruence]. intros H. exists cs.
  assert (X : exists c, In c cs /\ entry c L <> 0%R).
  { clear -H. unfold rowSum in H. induction cs as [|c cs IH]; cbn in H; [congruence|]. destruct (Req_dec (entry c L) 0) as [E|E].
    - destruct IH as (c' & I & J); [rewrite E, Rplus_0_l in H; exact H|]. exists c'. split; [now right|exact J].
    - exists c. split; [now left|exact E]. }
  destruct X as (c & I & E). exists c. assert (Y : exists e, In e c /\ fst e = L).
  { destruct (existsb (fun e => fst e =? L) c) eqn:Q; [apply existsb_exists in Q; destruct Q as (e & A & B); exists e; split; [exact A|lia]|]. elim E. apply entry_out. intros e Ie. rewrite existsb_false in Q. specialize (Q e Ie). lia. }
  destruct Y as ((L', v) & A & <-). exists v. auto.
Qed.

(** every function that a line combines lies on that line *)
Lemma line_member S L cs c v s m d : valid S -> kind S = Line s m d -> addK M S (kind S) = Ok cs -> In c cs -> In (L, v) c ->
  exists q b sq q' b' s' s2' e k, lineAt q b sq q' b' s' s2' e m /\ 0 <= d < m /\ 0 <= k < m /\ S = fun_at bs q b sq d (low sq) e /\
   (L = fun_at bs q b sq k (low sq) e \/ L = fun_at bs q' b' s' k s2' e).
Proof.
  intros V K AK Ic Iv. destruct (line_rep S s m d V K) as (q & b & sq & q' & b' & s' & s2' & e & X & D & [ES|ES]).
  - rewrite ES, (addK_line _ _ _ _ _ _ _ _ _ _ X D) in AK. injection AK as <-. destruct Ic as [<-|[]].
    destruct (lineCol_in _ _ _ _ _ _ _ _ _ _ _ D Iv) as (k & Kk & H). exists q, b, sq, q', b', s', s2', e, k.
    split; [exact X|]. split; [exact D|]. split; [exact Kk|]. split; [exact ES|]. destruct H as [(_ & H)|H]; injection H as <- _; auto.
  - rewrite ES, (addK_line2 _ _ _ _ _ _ _ _ _ _ X D) in AK. injection AK as <-. destruct Ic.
Qed.

(** in particular it is treated as part of a line *)
Lemma line_member_kind S L cs c v s m d : valid S -> kind S = Line s m d -> addK M S (kind S) = Ok cs -> In c cs -> In (L, v) c -> exists s' d', kind L = Line s' m d'.
Proof.
  intros V K AK Ic Iv. destruct (line_member S L cs c v s m d V K AK Ic Iv) as (q & b & sq & q' & b' & s' & s2' & e & k & X & D & Kk & _ & [->| ->]).
  - exists sq, k. now apply (la_kind _ _ _ _ _ _ _ _ _ X).
  - exists s', k. now apply (la_kind' _ _ _ _ _ _ _ _ _ _ X).
Qed.

(** the functions that add to the row of a function on a line, and the sum of what they add *)
Lemma line_row L s m d : valid L -> kind L = Line s m d -> exists G, NoDup G /\ (forall S, In S G -> valid S) /\
  (forall S, valid S -> contrib S L <> 0%R -> (exists s' m' d', kind S = Line s' m' d') -> In S G) /\ rs (fun S => contrib S L) G = 1%R.
Proof.
  intros V K. destruct (line_rep L s m d V K) as (q & b & sq & q' & b' & s' & s2' & e & X & D & EL).
  pose proof (la_bound _ _ _ _ _ _ _ _ _ X) as (N2 & M1 & S1 & S1' & E1').
  exists (map (fun k => fun_at bs q b sq k (low sq) e) (zrange 0 m)).
  pose proof (gl_b _ _ _ _ _ _ _ _ _ _ (la_glue _ _ _ _ _ _ _ _ _ X)) as B. pose proof (la_e _ _ _ _ _ _ _ _ _ X) as Ee.
  split.
  - apply NoDup_map_inj; [|apply zrange_nodup]. intros x y Hx Hy Q. apply zrange_in in Hx, Hy. apply fun_at_inj in Q; try assumption; [lia|apply POS|apply adj_low|lia|lia].
  - split; [|split].
    + intros S I. apply in_map_iff in I. destruct I as (k & <- & Kk). apply zrange_in in Kk. apply valid_fun with (n := n); try assumption; [apply adj_low|lia].
    + intros S VS C (s0 & m0 & d0 & KS). destruct (contrib_member S L C) as (cs & c & v & AK & Ic & Iv).
      destruct (line_member S L cs c v s0 m0 d0 VS KS AK Ic Iv) as (q0 & b0 & sq0 & q0' & b0' & s0' & s20' & e0 & k & X0 & D0 & Kk & ES & EL0).
      destruct (line_unique _ _ _ _ _ _ _ _ _ d _ _ _ _ _ _ _ _ _ k L X X0 D Kk EL EL0) as (<- & <- & <- & <- & <- & <- & <- & <- & <- & _).
      subst S. apply in_map_iff. exists d0. split; [reflexivity|]. apply zrange_in. lia.
    + rewrite rs_map. destruct (weights_pf M n OK q sq m (q', s') (glued_nb M _ _ _ _ _ _ _ _ (la_glue _ _ _ _ _ _ _ _ _ X)) M1) as (_ & WS). destruct (WS d D) as (W1 & W2).
      destruct EL as [->| ->].
      * rewrite <- W1. apply rs_ext. intros k Kk. apply zrange_in in Kk. apply (line_contrib1 q b sq q' b' s' s2'); assumption || lia.
      * rewrite <- W2. apply rs_ext. intros k Kk. apply zrange_in in Kk. apply (line_contrib2 q b sq q' b' s' s2'); assumption || lia.
Qed.

End L.
