(** Proofs for C89. *)
From Coq Require Import ZifyBool.
From Verif Require Import Common UtilModel UtilSpec.

Section Bases.
Variables B X : Type.
Variable kindOf : B -> bkind.
Variables newB newH : list B -> res X.
Notation heap := (heap B).
Notation live := (live B).
Notation next := (next B).

(** the copies of [mp], from the address [a] on *)
Fixpoint copies (a : nat) (mp : list B) : list (nat * B) := match mp with [] => [] | b :: r => (a, b) :: copies (S a) r end.
Fixpoint ptrs (k : bkind) (a : nat) (mp : list B) : list (option nat) := match mp with [] => [] | b :: r => (if kind_eqb (kindOf b) k then Some a else None) :: ptrs k (S a) r end.
Fixpoint lost (k : bkind) (a : nat) (mp : list B) : list (nat * B) := match mp with [] => [] | b :: r => (if kind_eqb (kindOf b) k then [] else [(a, b)]) ++ lost k (S a) r end.

Lemma clone_gen k mp : forall h ps, fold_left (cloneStep B kindOf k) mp (h, ps) = (mkHeap B (live h ++ copies (next h) mp) (next h + length mp), ps ++ ptrs k (next h) mp).
Proof.
  induction mp as [|b mp IH]; intros h ps; cbn [fold_left copies ptrs length].
  - rewrite Nat.add_0_r, !app_nil_r. destruct h; reflexivity.
  - unfold cloneStep at 2. unfold alloc. rewrite IH. cbn [UtilModel.live UtilModel.next]. rewrite <- !app_assoc. cbn [app]. f_equal. f_equal. lia.
Qed.
Lemma clone_ok k h mp : cloneAll B kindOf k h mp = (mkHeap B (live h ++ copies (next h) mp) (next h + length mp), ptrs k (next h) mp).
Proof. unfold cloneAll. rewrite clone_gen. reflexivity. Qed.
Lemma kind_eqb_ok a b : kind_eqb a b = true <-> a = b.
Proof. destruct a, b; cbn; split; congruence. Qed.
Lemma none_null k mp : forall a, noneNull (ptrs k a mp) = true <-> all_of B kindOf k mp.
Proof.
  induction mp as [|b mp IH]; intros a; cbn; [split; [intros _ b []|reflexivity]|]. destruct (kind_eqb (kindOf b) k) eqn:E; cbn.
  - fold (noneNull (ptrs k (S a) mp)). rewrite IH. apply kind_eqb_ok in E. split; [intros H c [<-|I]; [exact E|apply H, I]|intros H c I; apply H; now right].
  - split; [discriminate|]. intros H. specialize (H b (or_introl eq_refl)). apply kind_eqb_ok in H. congruence.
Qed.
Lemma copies_addr mp : forall a x, In x (copies a mp) -> a <= fst x < a + length mp.
Proof. induction mp as [|b mp IH]; intros a x I; [destruct I|]. cbn in I |- *. destruct I as [<-|I]; cbn; [lia|]. apply IH in I. lia. Qed.
Lemma lost_addr k mp : forall a x, In x (lost k a mp) -> a <= fst x < a + length mp.
Proof. induction mp as [|b mp IH]; intros a x I; [destruct I|]. cbn in I |- *. apply in_app_iff in I. destruct I as [I|I]; [destruct (kind_eqb _ _); [destruct I|destruct I as [<-|[]]; cbn; lia]|]. apply IH in I. lia. Qed.
Lemma find_skip (l r : list (nat * B)) a : (forall x, In x l -> fst x <> a) -> find (fun x => fst x =? a) (l ++ r) = find (fun x => fst x =? a) r.
Proof. induction l as [|y l IH]; intros H; [reflexivity|]. cbn. rewrite (proj2 (Nat.eqb_neq _ _) (H y (or_introl eq_refl))). apply IH. intros x I. apply H. now right. Qed.
Lemma deref_ok k mp : forall a pre post nx, (forall x, In x pre -> fst x < a) -> all_of B kindOf k mp -> mapM (deref B (mkHeap B (pre ++ copies a mp ++ post) nx)) (ptrs k a mp) = Ok mp.
Proof.
  induction mp as [|b mp IH]; intros a pre post nx P A; [reflexivity|]. cbn [ptrs mapM]. rewrite (proj2 (kind_eqb_ok _ _) (A b (or_introl eq_refl))).
  unfold deref at 1. cbn [UtilModel.live copies app]. rewrite (find_skip pre) by (intros x I; specialize (P x I); lia). cbn [find fst snd]. rewrite Nat.eqb_refl. cbn [bind].
  pose proof (IH (S a) (pre ++ [(a, b)]) post nx) as Q. rewrite <- app_assoc in Q. cbn [app] in Q. rewrite Q; [reflexivity| |intros c I; apply A; now right]. intros x I. apply in_app_iff in I. destruct I as [I|[<-|[]]]; [specialize (P x I); lia|cbn; lia].
Qed.
Lemma filter_all (l : list (nat * B)) a : (forall x, In x l -> fst x <> a) -> filter (fun x => negb (fst x =? a)) l = l.
Proof. induction l as [|y l IH]; intros H; [reflexivity|]. cbn. rewrite (proj2 (Nat.eqb_neq _ _) (H y (or_introl eq_refl))). cbn. f_equal. apply IH. intros x I. apply H. now right. Qed.
Lemma free_ok k mp : forall a pre post nx, (forall x, In x pre -> fst x < a) -> (forall x, In x post -> a + length mp <= fst x) ->
  freeAll B (ptrs k a mp) (mkHeap B (pre ++ copies a mp ++ post) nx) = Ok (mkHeap B (pre ++ lost k a mp ++ post) nx).
Proof.
  unfold freeAll. induction mp as [|b mp IH]; intros a pre post nx P Q; [reflexivity|]. cbn [ptrs foldM length] in *. cbn [copies lost app].
  assert (P' : forall l, (forall x, In x l -> fst x = a) -> forall x, In x (pre ++ l) -> fst x < S a) by (intros l Hl x I; apply in_app_iff in I; destruct I as [I|I]; [specialize (P x I); lia|rewrite (Hl x I); lia]).
  destruct (kind_eqb (kindOf b) k).
  - unfold free at 1. cbn [UtilModel.live UtilModel.next]. assert (E : existsb (fun x => fst x =? a) (pre ++ (a, b) :: copies (S a) mp ++ post) = true) by (apply existsb_exists; exists (a, b); split; [apply in_app_iff; right; left; reflexivity|apply Nat.eqb_refl]). rewrite E. cbn [bind].
    rewrite filter_app. cbn [filter fst]. rewrite Nat.eqb_refl. cbn [negb]. rewrite !filter_all.
    + cbn [app]. apply (IH (S a) pre post nx); [intros x I; specialize (P x I); lia|intros x I; specialize (Q x I); lia].
    + intros x I. apply in_app_iff in I. destruct I as [I|I]; [apply copies_addr in I; lia|specialize (Q x I); lia].
    + intros x I. specialize (P x I). lia.
  - cbn [free bind]. pose proof (IH (S a) (pre ++ [(a, b)]) post nx) as S1. rewrite <- !app_assoc in S1. cbn [app] in S1 |- *. apply S1; [apply P'; intros x [<-|[]]; reflexivity|intros x I; specialize (Q x I); lia].
Qed.
Lemma lost_length k mp : forall a, length (lost k a mp) = how_many_not B kindOf k mp.
Proof. induction mp as [|b mp IH]; intros a; [reflexivity|]. cbn. rewrite app_length, IH. unfold how_many_not. destruct (kind_eqb (kindOf b) k); reflexivity. Qed.
Lemma lost_none k mp : forall a, all_of B kindOf k mp -> lost k a mp = [].
Proof. induction mp as [|b mp IH]; intros a A; [reflexivity|]. cbn. rewrite (proj2 (kind_eqb_ok _ _) (A b (or_introl eq_refl))). cbn. apply IH. intros c I. apply A. now right. Qed.

Theorem tensor_pf : forall debug mp h, heap_ok B h -> all_of B kindOf Tensor mp ->
  getCompBasis B X kindOf newB newH debug mp h = bind (newB mp) (fun x => Ok (Some x, mkHeap B (live h) (next h + length mp))).
Proof.
  intros debug mp h (_ & F) A. unfold getCompBasis. rewrite clone_ok. rewrite (proj2 (none_null Tensor mp (next h)) A).
  pose proof (deref_ok Tensor mp (next h) (live h) [] (next h + length mp) F A) as D. rewrite app_nil_r in D. rewrite D. cbn [bind]. destruct (newB mp) as [x|]; [|reflexivity]. cbn [bind].
  pose proof (free_ok Tensor mp (next h) (live h) [] (next h + length mp) F ltac:(intros y [])) as E. rewrite app_nil_r in E. rewrite E. cbn [bind]. rewrite (lost_none Tensor mp _ A), !app_nil_r. rewrite orb_true_r. reflexivity.
Qed.
Lemma rest h mp debug : heap_ok B h -> ~ all_of B kindOf Tensor mp ->
  getCompBasis B X kindOf newB newH debug mp h = bind (if noneNull (ptrs Hierarchical (next h + length mp) mp) then bind (newH mp) (fun x => Ok (Some x)) else Ok None) (fun x =>
    bind (ensure (negb debug || noneNull (ptrs Hierarchical (next h + length mp) mp))) (fun _ =>
    Ok (x, mkHeap B (live h ++ lost Tensor (next h) mp ++ lost Hierarchical (next h + length mp) mp) (next h + length mp + length mp)))).
Proof.
  intros (_ & F) NT. unfold getCompBasis. rewrite clone_ok. destruct (noneNull (ptrs Tensor (next h) mp)) eqn:N; [apply none_null in N; contradiction|].
  rewrite clone_ok. cbn [UtilModel.live UtilModel.next]. set (a := next h + length mp).
  assert (FR : freeAll B (ptrs Hierarchical a mp) (mkHeap B ((live h ++ copies (next h) mp) ++ copies a mp) (a + length mp)) = Ok (mkHeap B ((live h ++ copies (next h) mp) ++ lost Hierarchical a mp) (a + length mp))).
  { pose proof (free_ok Hierarchical mp a (live h ++ copies (next h) mp) [] (a + length mp)) as E. rewrite !app_nil_r in E. apply E; [|intros x []]. intros x I. unfold a. apply in_app_iff in I. destruct I as [I|I]; [specialize (F x I); lia|apply copies_addr in I; lia]. }
  assert (FT : freeAll B (ptrs Tensor (next h) mp) (mkHeap B ((live h ++ copies (next h) mp) ++ lost Hierarchical a mp) (a + length mp)) = Ok (mkHeap B (live h ++ lost Tensor (next h) mp ++ lost Hierarchical a mp) (a + length mp))).
  { rewrite <- app_assoc. apply free_ok; [exact F|]. intros x I. apply lost_addr in I. unfold a in I. lia. }
  destruct (noneNull (ptrs Hierarchical a mp)) eqn:NH.
  - assert (D : mapM (deref B (mkHeap B ((live h ++ copies (next h) mp) ++ copies a mp) (a + length mp))) (ptrs Hierarchical a mp) = Ok mp).
    { pose proof (deref_ok Hierarchical mp a (live h ++ copies (next h) mp) [] (a + length mp)) as D. rewrite app_nil_r in D. apply D; [|now apply (none_null Hierarchical mp a)]. intros x I. unfold a. apply in_app_iff in I. destruct I as [I|I]; [specialize (F x I); lia|apply copies_addr in I; lia]. }
    rewrite D. cbn [bind]. destruct (newH mp) as [x|]; [|reflexivity]. cbn [bind]. rewrite FR. cbn [bind]. rewrite FT. cbn [bind]. reflexivity.
  - cbn [bind]. rewrite FR. cbn [bind]. rewrite FT. cbn [bind]. reflexivity.
Qed.
Theorem hier_pf : forall debug mp h, heap_ok B h -> all_of B kindOf Hierarchical mp -> mp <> [] -> exists l, length l = length mp /\
  getCompBasis B X kindOf newB newH debug mp h = bind (newH mp) (fun x => Ok (Some x, mkHeap B (live h ++ l) (next h + length mp + length mp))).
Proof.
  intros debug mp h H A N. exists (lost Tensor (next h) mp). split.
  - rewrite lost_length. unfold how_many_not. clear N. induction mp as [|b mp IH]; [reflexivity|]. cbn. rewrite (A b (or_introl eq_refl)). cbn. f_equal. apply IH. intros c I. apply A. now right.
  - rewrite rest; [|exact H|]. 2: { intros T. destruct mp as [|b mp]; [congruence|]. pose proof (T b (or_introl eq_refl)). pose proof (A b (or_introl eq_refl)). congruence. }
    rewrite (proj2 (none_null Hierarchical mp _) A). rewrite (lost_none Hierarchical mp _ A), app_nil_r. destruct (newH mp) as [x|]; [|reflexivity]. cbn [bind]. rewrite orb_true_r. reflexivity.
Qed.
Theorem mixed_pf : forall mp h, heap_ok B h -> ~ all_of B kindOf Tensor mp -> ~ all_of B kindOf Hierarchical mp ->
  getCompBasis B X kindOf newB newH true mp h = Err /\
  exists l, length l = how_many_not B kindOf Tensor mp + how_many_not B kindOf Hierarchical mp /\ getCompBasis B X kindOf newB newH false mp h = Ok (None, mkHeap B (live h ++ l) (next h + length mp + length mp)).
Proof.
  intros mp h H NT NH. rewrite !rest by assumption. destruct (noneNull (ptrs Hierarchical (next h + length mp) mp)) eqn:E; [apply none_null in E; contradiction|]. cbn [bind negb orb ensure]. split; [reflexivity|].
  exists (lost Tensor (next h) mp ++ lost Hierarchical (next h + length mp) mp). split; [rewrite app_length, !lost_length; reflexivity|reflexivity].
Qed.
End Bases.

(** two hierarchical patches: two objects are left *)
Lemma leak_pf : exists (mp : list nat) kindOf h', getCompBasis nat (list nat) kindOf (fun l => Ok l) (fun l => Ok l) true mp (mkHeap nat [] 0) = Ok (Some mp, h') /\ length (live nat h') = 2.
Proof. exists [7; 8], (fun _ => Hierarchical). eexists. split; reflexivity. Qed.
(** three tensor products, then a tensor product beside a hierarchical basis *)
Lemma util_ok : heap_ok nat (mkHeap nat [(2, 5)] 3) /\
  getCompBasis nat (list nat) (fun _ => Tensor) (fun l => Ok l) (fun _ => Err) true [7; 8; 9] (mkHeap nat [(2, 5)] 3) = Ok (Some [7; 8; 9], mkHeap nat [(2, 5)] 6) /\
  getCompBasis nat (list nat) (fun b => if b =? 7 then Tensor else Hierarchical) (fun l => Ok l) (fun l => Ok l) true [7; 8] (mkHeap nat [(2, 5)] 3) = Err /\
  getCompBasis nat (list nat) (fun b => if b =? 7 then Tensor else Hierarchical) (fun l => Ok l) (fun l => Ok l) false [7; 8] (mkHeap nat [(2, 5)] 3) = Ok (None, mkHeap nat [(2, 5); (4, 8); (5, 7)] 7).
Proof. split; [split; [repeat constructor; cbn; intuition|intros x [<-|[]]; cbn; lia]|]. repeat split; reflexivity. Qed.
