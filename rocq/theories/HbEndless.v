(** C74: a hierarchical basis for which repairPatches does not end. *)
From Coq Require Import ZifyBool.
From Verif Require Import Common ListLemmas TopoModel TopoSpec IndexProofs TopoProofs SmoothExamples HbModel HbSpec HbProofs HbProofs2 HbProofs3 HbProofs4.

(** the same refined regions *)
Definition same_region (h h' : hbasis) : Prop :=
  hpu h' = hpu h /\ hpv h' = hpv h /\ hnu h' = hnu h /\ hnv h' = hnv h /\ maxLevel h' = maxLevel h /\ forall M i j, maxLevel h <= M -> levelAt h' M i j = levelAt h M i j.
Definition inside (h : hbasis) (b : hbox) : Prop := bl b <= maxLevel h /\ forall M i j, maxLevel h <= M -> covers M b i j = true -> bl b <= levelAt h M i j.

Lemma fold_max_app l l' : fold_right Nat.max 0 (l ++ l') = Nat.max (fold_right Nat.max 0 l) (fold_right Nat.max 0 l').
Proof. induction l as [|a l IH]; cbn [app fold_right]; [lia|]. rewrite IH. lia. Qed.
Lemma fold_max_le l n : (forall x, In x l -> x <= n) -> fold_right Nat.max 0 l <= n.
Proof. induction l as [|a l IH]; intros H; cbn [fold_right]; [lia|]. pose proof (H a (or_introl eq_refl)). specialize (IH (fun x Hx => H x (or_intror Hx))). lia. Qed.

Lemma refine_same h h' bs : same_region h h' -> (forall b, In b bs -> inside h b) -> same_region h (refineElements h' bs).
Proof.
  intros (E1 & E2 & E3 & E4 & E5 & E6) I. unfold same_region, refineElements. cbn [hpu hpv hnu hnv]. repeat (split; [assumption|]). unfold maxLevel at 1, levelAt at 1. cbn [hboxes]. rewrite map_app, fold_max_app. fold (maxLevel h'). rewrite E5.
  assert (Lm : fold_right Nat.max 0 (map bl bs) <= maxLevel h) by (apply fold_max_le; intros x Hx; apply in_map_iff in Hx; destruct Hx as (b & <- & Hb); apply I, Hb).
  split; [lia|]. intros M i j LM. rewrite map_app, fold_max_app. fold (levelAt h' M i j). rewrite (E6 M i j LM).
  assert (Lv : fold_right Nat.max 0 (map (fun b => if covers M b i j then bl b else 0) bs) <= levelAt h M i j); [|lia].
  apply fold_max_le. intros x Hx. apply in_map_iff in Hx. destruct Hx as (b & <- & Hb). destruct (covers M b i j) eqn:C; [|lia]. apply I; assumption.
Qed.
Lemma inside_box h b b' : In b (hboxes h) -> bl b' = bl b -> bu0 b <= bu0 b' -> bu1 b' <= bu1 b -> bv0 b <= bv0 b' -> bv1 b' <= bv1 b -> inside h b'.
Proof.
  intros Hb L A1 A2 A3 A4. pose proof (maxLevel_below h b Hb) as LB. split; [lia|]. intros M i j LM C. destruct (Nat.eq_dec (bl b') 0) as [->|NZ]; [lia|].
  apply covers_in in C; [|lia]. apply levelAt_ge; [lia|apply below_maxLevel; exact LM|]. exists b. split; [exact Hb|]. split; [lia|]. unfold in_box in *. rewrite L in C. lia.
Qed.

Lemma forallb_ext2 {A} (f g : A -> bool) l : (forall x, f x = g x) -> forallb f l = forallb g l.
Proof. intros H. induction l as [|a l IH]; [reflexivity|]. cbn. rewrite H, IH. reflexivity. Qed.
Lemma atLeast_same h h' l b : same_region h h' -> atLeast h' l b = atLeast h l b.
Proof.
  intros (E1 & E2 & E3 & E4 & E5 & E6). unfold atLeast. cbv zeta. rewrite E5. apply forallb_ext2. intros c. rewrite E6 by lia. reflexivity.
Qed.
Lemma active_same h h' l a c : same_region h h' -> active h' l a c = active h l a c.
Proof.
  intros S0. unfold active. rewrite !(atLeast_same h h') by exact S0. assert (E : suppBox h' l a c = suppBox h l a c). { destruct S0 as (E1 & E2 & E3 & E4 & _). unfold suppBox. rewrite E1, E2, E3, E4. reflexivity. } rewrite E. reflexivity.
Qed.
Lemma activeBoundary_same h h' l s : same_region h h' -> activeBoundary h' l s = activeBoundary h l s.
Proof.
  intros S0. unfold activeBoundary, sideSize, sideFun. pose proof S0 as (E1 & E2 & E3 & E4 & _). rewrite E1, E2, E3, E4. apply map_ext. intros k. apply active_same. exact S0.
Qed.
Lemma leaves_same h h' l : same_region h h' -> leaves h' l = leaves h l.
Proof.
  intros (E1 & E2 & E3 & E4 & E5 & E6). unfold leaves. cbv zeta. rewrite E3, E4, E5. apply filter_ext. intros c. apply forallb_ext2. intros x. rewrite E6 by lia. reflexivity.
Qed.
Lemma innerBoxes_same h h' incr t p : same_region h h' -> innerBoxes h' incr t p = innerBoxes h incr t p.
Proof.
  intros S0. rewrite !innerBoxes_flat. pose proof S0 as (E1 & E2 & E3 & E4 & E5 & _). rewrite E5. apply flat_map_ext. intros l. rewrite (leaves_same h h') by exact S0. apply flat_map_ext. intros c. unfold innerBox1, addBox1. cbv zeta. rewrite E1, E2, E3, E4. cbn [bl]. rewrite !(atLeast_same h h') by exact S0. reflexivity.
Qed.
Lemma foldM_ext2 {A S} (f g : S -> A -> res S) l : (forall s a, f s a = g s a) -> forall s, foldM f l s = foldM g l s.
Proof. intros H. induction l as [|a l IH]; intros s; [reflexivity|]. cbn. rewrite H. destruct (g s a); [apply IH|reflexivity]. Qed.
Lemma scan_ext {X} fuel r (f g : nat -> nat -> X -> res X) : (forall a b x, f a b x = g a b x) -> forall a b x, scan fuel r f a b x = scan fuel r g a b x.
Proof.
  intros H. induction fuel as [|fuel IH]; intros a b x; [reflexivity|]. cbn [scan]. destruct (vget r a) as [v|]; [|reflexivity]. cbn [bind]. rewrite H.
  destruct (if negb v then _ else _) as [((a', b'), x')|]; [|reflexivity]. cbn [bind]. destruct (a' =? length r); [reflexivity|apply IH].
Qed.
Lemma addBoundaryBox_same h h' incr s a b l x : same_region h h' -> addBoundaryBox h' incr s a b l x = addBoundaryBox h incr s a b l x.
Proof. intros (E1 & E2 & E3 & E4 & _). unfold addBoundaryBox, addFunBox. rewrite E1, E2, E3, E4. reflexivity. Qed.
Lemma matchLevel_same_region h h' n n' incr s sn fl x l : same_region h h' -> same_region n n' -> matchLevel h' n' incr s sn fl x l = matchLevel h n incr s sn fl x l.
Proof.
  intros S1 S2. unfold matchLevel. cbv zeta. rewrite (activeBoundary_same h h' l s S1), (activeBoundary_same n n' l sn S2). destruct (ensure _); [|reflexivity]. cbn [bind]. apply scan_ext. intros i j y. apply addBoundaryBox_same. exact S1.
Qed.
Definition same_regions (bs bs' : list hbasis) : Prop := length bs' = length bs /\ forall p, p < length bs -> same_region (nth p bs nobasis) (nth p bs' nobasis).
Lemma vget_same bs bs' p : same_regions bs bs' -> match vget bs p, vget bs' p with Ok h, Ok h' => same_region h h' | Err, Err => True | _, _ => False end.
Proof.
  intros (L & S0). destruct (vget bs p) as [h|] eqn:E.
  - destruct (vget_nth_hb bs p h E) as (Lp & N). destruct (vget_lt bs' p ltac:(lia)) as (h' & E'). rewrite E'. destruct (vget_nth_hb bs' p h' E') as (_ & N'). rewrite <- N, <- N'. apply S0. exact Lp.
  - destruct (vget bs' p) as [h'|] eqn:E'; [|exact I]. destruct (vget_nth_hb bs' p h' E') as (Lp & _). destruct (vget_lt bs p ltac:(lia)) as (h & Q). congruence.
Qed.
Lemma matchNeighbours_same_region t bs bs' incr p : same_regions bs bs' -> matchNeighbours t bs' incr p = matchNeighbours t bs incr p.
Proof.
  intros S0. unfold matchNeighbours. pose proof (vget_same bs bs' p S0) as V. destruct (vget bs p) as [h|], (vget bs' p) as [h'|]; try contradiction; [|reflexivity]. cbn [bind].
  f_equal. apply foldM_ext2. intros x s. destruct (getInterface t (p, s)) as [f|]; [|reflexivity]. destruct (iother f (p, s)) as [ps|]; [|reflexivity]. cbn [bind].
  pose proof (vget_same bs bs' (fst ps) S0) as Vn. destruct (vget bs (fst ps)) as [n|], (vget bs' (fst ps)) as [n'|]; try contradiction; [|reflexivity]. cbn [bind].
  assert (Em : maxLevel h' = maxLevel h) by apply V. assert (En : maxLevel n' = maxLevel n) by apply Vn. rewrite Em, En. apply foldM_ext2. intros y l. apply matchLevel_same_region; assumption.
Qed.

(** Three patches around a vertex, level 1 everywhere and level 3 along the two sides at the vertex; two of them also have level 2 in the second element of level 2 at the vertex. *)
Definition strips : list hbox := [mkBox 1 0 0 4 4; mkBox 3 0 0 2 16; mkBox 3 0 0 16 2].
Definition endless : list hbasis := [mkHB 2 2 2 2 strips; mkHB 2 2 2 2 (strips ++ [mkBox 2 1 1 2 2]); mkHB 2 2 2 2 (strips ++ [mkBox 2 1 1 2 2])].
Lemma three_consistent : consistent three_patches_topo.
Proof. pose proof three_patches_wf as W. apply W. Qed.
Lemma endless_input : hb_input three_patches_topo 0 endless.
Proof.
  split.
  - exact three_consistent.
  - reflexivity.
  - intros h H. cbn in H. intuition (subst; cbn; lia).
  - intros h H. cbn in H. intuition (subst; cbn; lia).
  - intros f H. cbn in H. destruct H as [<-|[<-|[<-|[]]]]; intros l; cbn; lia.
Qed.
Definition added (p : nat) : list hbox := match p with 0 => [] | 1 => [mkBox 1 0 0 1 2] | _ => [mkBox 1 0 0 2 1] end.
Definition recheck (p : nat) : list nat := match p with 0 => [1; 2] | 1 => [2] | _ => [1] end.
Lemma endless_match p : p < 3 -> matchNeighbours three_patches_topo endless 0 p = Ok (added p, recheck p).
Proof. intros Hp. destruct p as [|[|[|p]]]; [| | |lia]; vm_compute; reflexivity. Qed.
Lemma endless_inner p : p < 3 -> innerBoxes (nth p endless nobasis) 0 three_patches_topo p = [].
Proof. intros Hp. destruct p as [|[|[|p]]]; [| | |lia]; vm_compute; reflexivity. Qed.
Lemma endless_inside p b : p < 3 -> In b (added p) -> inside (nth p endless nobasis) b.
Proof.
  intros Hp Hb. apply (inside_box _ (mkBox 1 0 0 4 4)).
  - destruct p as [|[|[|p]]]; [| | |lia]; left; reflexivity.
  - destruct p as [|[|[|p]]]; [| | |lia]; cbn in Hb; intuition; subst; reflexivity.
  - cbn. lia.
  - destruct p as [|[|[|p]]]; [| | |lia]; cbn in Hb; intuition; subst; cbn; lia.
  - cbn. lia.
  - destruct p as [|[|[|p]]]; [| | |lia]; cbn in Hb; intuition; subst; cbn; lia.
Qed.
Lemma endless_round bs p todo : same_regions endless bs -> p < 3 -> exists bs', repairRound three_patches_topo 0 bs p todo = Ok (bs', fold_left push (recheck p) todo) /\ same_regions endless bs'.
Proof.
  intros S0 Hp. pose proof S0 as (L & Sp). change (length endless) with 3 in *. unfold repairRound. destruct (vget_lt bs p ltac:(lia)) as (h & V). rewrite V. cbn [bind]. destruct (vget_nth_hb bs p h V) as (_ & N). pose proof (Sp p Hp) as Sh. rewrite N in Sh.
  rewrite (innerBoxes_same _ h _ _ _ Sh), endless_inner, (matchNeighbours_same_region _ endless bs _ _ S0), endless_match by exact Hp. cbn [bind fst snd]. rewrite vset_ok by lia. cbn [bind].
  eexists. split; [reflexivity|]. split; [rewrite upd_length; exact L|]. change (length endless) with 3. intros q Q. rewrite nth_upd_hb by lia. destruct (Nat.eqb_spec p q) as [<-|_]; [|apply Sp; exact Q].
  apply refine_same; [exact Sh|]. intros b Hb. apply endless_inside; assumption.
Qed.
Definition waiting (todo : list nat) : Prop := todo = [0; 1; 2] \/ todo = [1; 2] \/ todo = [2] \/ todo = [1].
Lemma endless_step bs todo : same_regions endless bs -> waiting todo -> exists p rest bs' todo', todo = p :: rest /\ repairRound three_patches_topo 0 bs p rest = Ok (bs', todo') /\ same_regions endless bs' /\ waiting todo'.
Proof.
  intros S0 W. destruct W as [-> | [-> | [-> | ->]]]; match goal with |- context [?p :: ?r = _] => destruct (endless_round bs p r S0 ltac:(lia)) as (bs' & E & S1); exists p, r, bs', (fold_left push (recheck p) r) end; (split; [reflexivity|]); (split; [exact E|]); (split; [exact S1|]); cbn; unfold waiting; auto.
Qed.
Lemma same_regions_refl bs : same_regions bs bs.
Proof. split; [reflexivity|]. intros p _. unfold same_region. auto 10. Qed.
Lemma endless_rounds n : forall bs todo, same_regions endless bs -> waiting todo -> exists bs' todo', after_rounds n three_patches_topo 0 (bs, todo) = Ok (bs', todo') /\ todo' <> [] /\ same_regions endless bs'.
Proof.
  induction n as [|n IH]; intros bs todo S0 W.
  - exists bs, todo. split; [reflexivity|]. split; [|exact S0]. destruct W as [-> | [-> | [-> | ->]]]; discriminate.
  - destruct (endless_step bs todo S0 W) as (p & rest & bs' & todo' & -> & E & S1 & W1). cbn [after_rounds fst snd]. rewrite E. cbn [bind]. apply IH; assumption.
Qed.
Lemma endless_loop fuel : forall bs todo, same_regions endless bs -> waiting todo -> repairLoop fuel three_patches_topo 0 bs todo = Err.
Proof.
  induction fuel as [|n IH]; intros bs todo S0 W; [reflexivity|]. destruct (endless_step bs todo S0 W) as (p & rest & bs' & todo' & -> & E & S1 & W1). rewrite repairLoop_round, E. cbn [bind fst snd].
  destruct todo' as [|q r]; [destruct W1 as [W1|[W1|[W1|W1]]]; discriminate W1|]. apply IH; assumption.
Qed.
Lemma endless_pf : exists t incr bs, hb_input t incr bs /\ (forall fuel, repairPatches fuel t incr bs None = Err) /\
  (forall n, exists bs' todo, after_rounds n t incr (bs, seq 0 (length bs)) = Ok (bs', todo) /\ todo <> [] /\
     forall p l a c, p < length bs -> 1 <= l -> (active_fun (nth p bs' nobasis) l a c <-> active_fun (nth p bs nobasis) l a c)).
Proof.
  exists three_patches_topo, 0, endless. split; [exact endless_input|]. split.
  - intros fuel. apply endless_loop; [apply same_regions_refl|]. left. reflexivity.
  - intros n. destruct (endless_rounds n endless [0; 1; 2] (same_regions_refl _) (or_introl eq_refl)) as (bs' & todo & E & NE & S0). exists bs', todo. split; [exact E|]. split; [exact NE|].
    intros p l a c Hp L. rewrite <- !active_spec by exact L. rewrite (active_same _ _ l a c (proj2 S0 p Hp)). reflexivity.
Qed.
