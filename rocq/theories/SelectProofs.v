(** Proofs for C60. *)
From Coq Require Import Reals Lra ZifyBool Permutation.
From Verif Require Import Common SelectModel SelectSpec.
Open Scope R_scope.

Lemma onSide_In i k f : onSide i k f = true <-> In (mkPS i k) (sides f).
Proof.
  unfold onSide, sides. destruct f as [[a x] [b y]]. cbn [first second pspatch psindex In]. split.
  - intros H. assert ((a = i /\ x = k) \/ (b = i /\ y = k)) as [(-> & ->)|(-> & ->)] by lia; [left|right; left]; reflexivity.
  - intros [E|[E|[]]]; injection E as -> ->; rewrite !Nat.eqb_refl; cbn; [reflexivity|apply orb_true_r].
Qed.
Lemma onSide_patch i k f : onSide i k f = true -> ((i =? pspatch (first f))%nat || (i =? pspatch (second f))%nat) = true.
Proof. unfold onSide. lia. Qed.
Lemma joins_left f r l : joins f r l -> In (mkPS l 3) (sides f). Proof. intros [(A & B)|(A & B)]; unfold sides; rewrite A, B; cbn; auto. Qed.
Lemma joins_right f r l : joins f r l -> In (mkPS r 1) (sides f). Proof. intros [(A & B)|(A & B)]; unfold sides; rewrite A, B; cbn; auto. Qed.
Lemma joins_rightLeft f r l : joins f r l -> rightLeft f = (r, l). Proof. intros [(A & B)|(A & B)]; unfold rightLeft; rewrite A, B; reflexivity. Qed.
Lemma joins_not3 f r l : joins f r l -> r <> l -> onSide r 3 f = false.
Proof. intros J N. destruct (onSide r 3 f) eqn:E; [|reflexivity]. apply onSide_In in E. destruct J as [(A & B)|(A & B)]; unfold sides in E; rewrite A, B in E; destruct E as [E|[E|[]]]; injection E as E; try congruence; try discriminate. Qed.
Lemma joins_patches f r l : joins f r l -> (pspatch (first f) <> pspatch (second f)) -> r <> l.
Proof. intros [(A & B)|(A & B)] N; rewrite A, B in N; cbn in N; congruence. Qed.

Lemma once_split ifs f k : sides_once ifs -> In f ifs -> In k (sides f) -> exists l1 l2, ifs = l1 ++ f :: l2 /\ forall g, In g l1 \/ In g l2 -> ~ In k (sides g).
Proof.
  intros O IF IK. destruct (in_split f ifs IF) as (l1 & l2 & ->). exists l1, l2. split; [reflexivity|]. unfold sides_once in O. rewrite map_app, concat_app in O. cbn [map concat] in O.
  intros g G K.
  assert (KK : In k (concat (map sides l1) ++ concat (map sides l2))). { apply in_or_app. destruct G as [G|G]; [left|right]; apply in_concat; exists (sides g); (split; [apply in_map; exact G|exact K]). }
  rewrite app_assoc in O. apply (Permutation_NoDup (l' := sides f ++ (concat (map sides l1) ++ concat (map sides l2)))) in O.
  - clear -O KK IK. induction (sides f) as [|x s IH]; [destruct IK|]. cbn in O. inversion_clear O as [|? ? N O']. destruct IK as [->|IK]; [|exact (IH O' IK)]. apply N, in_or_app. right. exact KK.
  - rewrite app_assoc. apply Permutation_app_tail. apply Permutation_app_comm.
Qed.

Lemma fold_keeps {A B} (P : A -> Prop) (f : A -> B -> A) (l : list B) : (forall a b, In b l -> P a -> P (f a b)) -> forall a, P a -> P (fold_left f l a).
Proof. induction l as [|b l IH]; intros H a Pa; [exact Pa|]. cbn. apply IH; [intros a' b' I'; apply H; right; exact I'|]. apply H; [left; reflexivity|exact Pa]. Qed.
Lemma fold_same {A B} (f : A -> B -> A) (l : list B) : (forall a b, In b l -> f a b = a) -> forall a, fold_left f l a = a.
Proof. induction l as [|b l IH]; intros H a; [reflexivity|]. cbn. rewrite (H a b) by (left; reflexivity). apply IH. intros a' b' I'. apply H. right. exact I'. Qed.

Section Select.
Context (ifs : list iface) (gds : nat -> nat -> (nat -> R) * (nat -> R)) (i : nat).
Context (ON : sides_once ifs) (OR : oriented ifs) (TP : two_patches ifs).

Definition stepI (m : gmat) (f : iface) : gmat :=
  if (i =? pspatch (first f))%nat || (i =? pspatch (second f))%nat then
    let '(r, l) := rightLeft f in
    let '(sol, solB) := gds r l in
    if onSide i 3 f then setLeft sol solB m else if onSide i 1 f then setRight sol solB m else m
  else m.
Definition stepB (m : gmat) (f : iface) : gmat :=
  if (i =? pspatch (first f))%nat || (i =? pspatch (second f))%nat then
    let '(r, l) := rightLeft f in
    let '(sol, solB) := gds r l in
    if onSide i 3 f then setLeftBdy sol solB m else if onSide i 1 f then setRightBdy sol solB m else m
  else m.

Lemma inner_left : inner_side ifs i 3 -> exists f r, In f ifs /\ joins f r i.
Proof.
  intros (f & F & K). destruct (OR f F) as (r & l & J); [unfold sides in K; destruct K as [E|[E|[]]]; rewrite E; cbn; unfold at_vertex; auto|].
  exists f, r. split; [exact F|]. destruct J as [(A & B)|(A & B)]; pose proof K as K'; unfold sides in K'; rewrite A, B in K'; destruct K' as [E|[E|[]]]; injection E as E; try discriminate; subst l; [left|right]; auto.
Qed.
Lemma inner_right : inner_side ifs i 1 -> exists f l, In f ifs /\ joins f i l.
Proof.
  intros (f & F & K). destruct (OR f F) as (r & l & J); [unfold sides in K; destruct K as [E|[E|[]]]; rewrite E; cbn; unfold at_vertex; auto|].
  exists f, l. split; [exact F|]. destruct J as [(A & B)|(A & B)]; pose proof K as K'; unfold sides in K'; rewrite A, B in K'; destruct K' as [E|[E|[]]]; injection E as E; try discriminate; subst r; [left|right]; auto.
Qed.

Lemma left_step m f r : joins f r i -> (let '(sol, solB) := gds r i in column (stepI m f) 0 (sol 2%nat) (sol 3%nat) (solB 2%nat) (solB 3%nat)) /\
  (let '(sol, solB) := gds r i in column (stepB m f) 0 (sol 2%nat) (sol 3%nat) (solB 2%nat) (solB 3%nat) /\ column (stepB m f) 1 1 1 0 0).
Proof.
  intros J. pose proof (proj2 (onSide_In i 3 f) (joins_left f r i J)) as S3. unfold stepI, stepB. rewrite (onSide_patch _ _ _ S3), (joins_rightLeft _ _ _ J), S3. destruct (gds r i) as (sol, solB).
  repeat split.
Qed.
Lemma right_step m f l : joins f i l -> i <> l -> (let '(sol, solB) := gds i l in column (stepI m f) 1 (sol 0%nat) (sol 1%nat) (solB 0%nat) (solB 1%nat)) /\
  (let '(sol, solB) := gds i l in column (stepB m f) 1 (sol 0%nat) (sol 1%nat) (solB 0%nat) (solB 1%nat) /\ column (stepB m f) 0 1 1 0 0).
Proof.
  intros J N. pose proof (proj2 (onSide_In i 1 f) (joins_right f i l J)) as S1. unfold stepI, stepB. rewrite (onSide_patch _ _ _ S1), (joins_rightLeft _ _ _ J), (joins_not3 _ _ _ J N), S1. destruct (gds i l) as (sol, solB).
  repeat split.
Qed.
Lemma keep0 m g a b c d : onSide i 3 g = false -> column m 0 a b c d -> column (stepI m g) 0 a b c d.
Proof. intros N C. unfold stepI. destruct (_ || _); [|exact C]. destruct (rightLeft g) as (r, l), (gds r l) as (sol, solB). rewrite N. destruct (onSide i 1 g); exact C. Qed.
Lemma keep1 m g a b c d : onSide i 1 g = false -> column m 1 a b c d -> column (stepI m g) 1 a b c d.
Proof. intros N C. unfold stepI. destruct (_ || _); [|exact C]. destruct (rightLeft g) as (r, l), (gds r l) as (sol, solB). rewrite N. destruct (onSide i 3 g); exact C. Qed.

Lemma not_on k g : ~ In (mkPS i k) (sides g) -> onSide i k g = false.
Proof. intros N. destruct (onSide i k g) eqn:E; [|reflexivity]. apply onSide_In in E. contradiction. Qed.

Lemma foldI_left m f r : In f ifs -> joins f r i -> let '(sol, solB) := gds r i in column (fold_left stepI ifs m) 0 (sol 2%nat) (sol 3%nat) (solB 2%nat) (solB 3%nat).
Proof.
  intros F J. destruct (once_split ifs f (mkPS i 3) ON F (joins_left _ _ _ J)) as (l1 & l2 & -> & N). rewrite fold_left_app. cbn [fold_left]. destruct (left_step (fold_left stepI l1 m) f r J) as (C & _). destruct (gds r i) as (sol, solB).
  apply (fold_keeps (fun m => column m 0 (sol 2%nat) (sol 3%nat) (solB 2%nat) (solB 3%nat))); [|exact C]. intros a g G. apply keep0. apply not_on, N. right. exact G.
Qed.
Lemma foldI_right m f l : In f ifs -> joins f i l -> let '(sol, solB) := gds i l in column (fold_left stepI ifs m) 1 (sol 0%nat) (sol 1%nat) (solB 0%nat) (solB 1%nat).
Proof.
  intros F J. pose proof (joins_patches _ _ _ J (TP f F)) as NE. destruct (once_split ifs f (mkPS i 1) ON F (joins_right _ _ _ J)) as (l1 & l2 & -> & N). rewrite fold_left_app. cbn [fold_left]. destruct (right_step (fold_left stepI l1 m) f l J NE) as (C & _). destruct (gds i l) as (sol, solB).
  apply (fold_keeps (fun m => column m 1 (sol 0%nat) (sol 1%nat) (solB 0%nat) (solB 1%nat))); [|exact C]. intros a g G. apply keep1. apply not_on, N. right. exact G.
Qed.
Lemma inner_data m : inner_side ifs i 1 -> inner_side ifs i 3 -> data_of ifs gds i (fold_left stepI ifs m).
Proof. intros A B. split; [|split; [|split]]; [intros f r; apply foldI_left|intros f l; apply foldI_right|contradiction|contradiction]. Qed.

Lemma stepB_skip m g : onSide i 3 g = false -> onSide i 1 g = false -> stepB m g = m.
Proof. intros A B. unfold stepB. destruct (_ || _); [|reflexivity]. destruct (rightLeft g) as (r, l), (gds r l) as (sol, solB). rewrite A, B. reflexivity. Qed.
Lemma not_inner k g : ~ inner_side ifs i k -> In g ifs -> onSide i k g = false.
Proof. intros N G. apply not_on. intros K. apply N. exists g. split; assumption. Qed.
Lemma foldB_left m f r : In f ifs -> joins f r i -> ~ inner_side ifs i 1 -> fold_left stepB ifs m = stepB m f.
Proof.
  intros F J NI. assert (NI' : forall g, In g ifs -> onSide i 1 g = false) by (intros g; apply not_inner; exact NI). destruct (once_split ifs f (mkPS i 3) ON F (joins_left _ _ _ J)) as (l1 & l2 & E & N). rewrite E in *. rewrite fold_left_app. cbn [fold_left].
  rewrite (fold_same stepB l1), (fold_same stepB l2); [reflexivity| |]; intros a g G; apply stepB_skip; try (apply not_on, N; auto); apply NI', in_or_app; cbn; auto.
Qed.
Lemma foldB_right m f l : In f ifs -> joins f i l -> ~ inner_side ifs i 3 -> fold_left stepB ifs m = stepB m f.
Proof.
  intros F J NI. assert (NI' : forall g, In g ifs -> onSide i 3 g = false) by (intros g; apply not_inner; exact NI). destruct (once_split ifs f (mkPS i 1) ON F (joins_right _ _ _ J)) as (l1 & l2 & E & N). rewrite E in *. rewrite fold_left_app. cbn [fold_left].
  rewrite (fold_same stepB l1), (fold_same stepB l2); [reflexivity| |]; intros a g G; apply stepB_skip; try (apply not_on, N; auto); apply NI', in_or_app; cbn; auto.
Qed.
Lemma same_left f r f' r' : In f ifs -> joins f r i -> In f' ifs -> joins f' r' i -> r = r'.
Proof.
  intros F J F' J'. destruct (once_split ifs f (mkPS i 3) ON F (joins_left _ _ _ J)) as (l1 & l2 & E & N). rewrite E in F'. apply in_app_or in F'. cbn in F'.
  assert (f = f') as <- by (destruct F' as [G|[G|G]]; [|exact G|]; exfalso; apply (N f'); auto; apply (joins_left _ _ _ J')). pose proof (joins_rightLeft _ _ _ J). pose proof (joins_rightLeft _ _ _ J'). congruence.
Qed.
Lemma same_right f l f' l' : In f ifs -> joins f i l -> In f' ifs -> joins f' i l' -> l = l'.
Proof.
  intros F J F' J'. destruct (once_split ifs f (mkPS i 1) ON F (joins_right _ _ _ J)) as (l1 & l2 & E & N). rewrite E in F'. apply in_app_or in F'. cbn in F'.
  assert (f = f') as <- by (destruct F' as [G|[G|G]]; [|exact G|]; exfalso; apply (N f'); auto; apply (joins_right _ _ _ J')). pose proof (joins_rightLeft _ _ _ J). pose proof (joins_rightLeft _ _ _ J'). congruence.
Qed.
Lemma left_data m : inner_side ifs i 3 -> ~ inner_side ifs i 1 -> data_of ifs gds i (fold_left stepB ifs m).
Proof.
  intros A B. destruct (inner_left A) as (f & r & F & J). rewrite (foldB_left m f r F J B). destruct (left_step m f r J) as (_ & C). split; [|split; [|split]].
  - intros f' r' F' J'. rewrite <- (same_left f r f' r' F J F' J'). destruct (gds r i) as (sol, solB). apply C.
  - intros f' l' F' J'. exfalso. apply B. exists f'. split; [exact F'|]. exact (joins_right _ _ _ J').
  - intros N. contradiction.
  - intros _. destruct (gds r i) as (sol, solB). apply C.
Qed.
Lemma right_data m : inner_side ifs i 1 -> ~ inner_side ifs i 3 -> data_of ifs gds i (fold_left stepB ifs m).
Proof.
  intros A B. destruct (inner_right A) as (f & l & F & J). rewrite (foldB_right m f l F J B). destruct (right_step m f l J (joins_patches _ _ _ J (TP f F))) as (_ & C). split; [|split; [|split]].
  - intros f' r' F' J'. exfalso. apply B. exists f'. split; [exact F'|]. exact (joins_left _ _ _ J').
  - intros f' l' F' J'. rewrite <- (same_right f l f' l' F J F' J'). destruct (gds i l) as (sol, solB). apply C.
  - intros _. destruct (gds i l) as (sol, solB). apply C.
  - intros N. contradiction.
Qed.
End Select.

Lemma side_dec (a b : pside) : {a = b} + {a <> b}. Proof. decide equality; apply Nat.eq_dec. Qed.
Lemma inner_dec ifs i k : {inner_side ifs i k} + {~ inner_side ifs i k}.
Proof.
  destruct (in_dec side_dec (mkPS i k) (concat (map sides ifs))) as [H|H]; [left|right].
  - apply in_concat in H. destruct H as (s & S & K). apply in_map_iff in S. destruct S as (f & <- & F). exists f. split; assumption.
  - intros (f & F & K). apply H, in_concat. exists (sides f). split; [apply in_map; exact F|exact K].
Qed.

Theorem select_pf : forall n ifs gds bdy0 bdy1 i, sides_once ifs -> oriented ifs -> two_patches ifs ->
  (bdy0 = true <-> ~ inner_side ifs i 3) -> (bdy1 = true <-> ~ inner_side ifs i 1) ->
  (n = 1%nat -> ~ inner_side ifs i 1 /\ ~ inner_side ifs i 3) -> (n <> 1%nat -> inner_side ifs i 1 \/ inner_side ifs i 3) ->
  (kindOfVertex n ifs = 0%Z -> inner_side ifs i 1 /\ inner_side ifs i 3) ->
  data_of ifs gds i (selectGD n ifs gds bdy0 bdy1 i).
Proof.
  intros n ifs gds bdy0 bdy1 i ON OR TP B0 B1 H1 H2 HK. unfold selectGD. destruct (Z.eqb_spec (kindOfVertex n ifs) 1) as [K|K].
  - assert (N1 : n <> 1%nat) by (unfold kindOfVertex in K; destruct (Nat.eqb_spec n 1); lia). specialize (H2 N1).
    destruct bdy0, bdy1; cbn [negb andb].
    + exfalso. destruct H2 as [H2|H2]; [apply (proj1 B1 eq_refl H2)|apply (proj1 B0 eq_refl H2)].
    + assert (NI := proj1 B0 eq_refl). apply (right_data ifs gds i ON OR TP); [destruct H2; [assumption|contradiction]|exact NI].
    + assert (NI := proj1 B1 eq_refl). apply (left_data ifs gds i ON OR TP); [destruct H2; [contradiction|assumption]|exact NI].
    + apply (inner_data ifs gds i ON OR TP).
      * destruct (inner_dec ifs i 1) as [Y|N]; [exact Y|]. apply B1 in N. discriminate.
      * destruct (inner_dec ifs i 3) as [Y|N]; [exact Y|]. apply B0 in N. discriminate.
  - destruct (Z.eqb_spec (kindOfVertex n ifs) (-1)) as [K'|K'].
    + assert (N1 : n = 1%nat) by (unfold kindOfVertex in K'; destruct (Nat.eqb_spec n 1); [assumption|]; destruct (n =? length ifs)%nat; lia). destruct (H1 N1) as (A & B). split; [|split; [|split]].
      * intros f r F J. exfalso. apply B. exists f. split; [exact F|]. exact (joins_left _ _ _ J).
      * intros f l F J. exfalso. apply A. exists f. split; [exact F|]. exact (joins_right _ _ _ J).
      * intros _. repeat split.
      * intros _. repeat split.
    + assert (K0 : kindOfVertex n ifs = 0%Z) by (unfold kindOfVertex in *; destruct (n =? 1)%nat; [lia|]; destruct (n =? length ifs)%nat; lia). destruct (HK K0) as (A & B). rewrite K0. cbn [Z.eqb]. apply (inner_data ifs gds i ON OR TP); assumption.
Qed.

(** ** The kind of the vertex *)
Definition slots (n : nat) : list pside := map (fun i => mkPS i 1) (seq 0 n) ++ map (fun i => mkPS i 3) (seq 0 n).
Lemma slots_In n s : In s (slots n) <-> (pspatch s < n)%nat /\ at_vertex (psindex s).
Proof.
  unfold slots, at_vertex. rewrite in_app_iff, !in_map_iff. destruct s as [p k]. cbn [pspatch psindex]. split.
  - intros [(x & E & L)|(x & E & L)]; injection E as -> <-; apply in_seq in L; split; auto; lia.
  - intros (L & [->| ->]); [left|right]; exists p; split; auto; apply in_seq; lia.
Qed.
Lemma slots_length n : length (slots n) = (2 * n)%nat.
Proof. unfold slots. rewrite app_length, !map_length, seq_length. lia. Qed.
Lemma slots_NoDup n : NoDup (slots n).
Proof.
  unfold slots. assert (A : forall k, NoDup (map (fun i => mkPS i k) (seq 0 n))) by (intros k; apply FinFun.Injective_map_NoDup; [intros x y E; injection E as E; exact E|apply seq_NoDup]).
  assert (H : forall l1 l2 : list pside, NoDup l1 -> NoDup l2 -> (forall x, In x l1 -> ~ In x l2) -> NoDup (l1 ++ l2)).
  { clear. induction l1 as [|x l1 IH]; intros l2 N1 N2 D; [exact N2|]. inversion_clear N1. cbn. constructor; [rewrite in_app_iff; intros [|]; [contradiction|apply (D x); [left; reflexivity|assumption]]|]. apply IH; [assumption|assumption|]. intros y Y. apply D. right. exact Y. }
  apply H; [apply A|apply A|]. intros x. rewrite !in_map_iff. intros (a & <- & _) (b & E & _). discriminate.
Qed.
Lemma sides_length ifs : length (concat (map sides ifs)) = (2 * length ifs)%nat.
Proof. induction ifs as [|f l IH]; [reflexivity|]. cbn [map concat]. rewrite app_length, IH. cbn [sides length]. lia. Qed.

Theorem kind_pf : forall n ifs, n <> 1%nat -> sides_once ifs -> oriented ifs -> valid_patches n ifs -> all_at_vertex ifs ->
  (kindOfVertex n ifs = 0%Z <-> inner_vertex n ifs) /\ (kindOfVertex n ifs = 1%Z <-> ~ inner_vertex n ifs).
Proof.
  intros n ifs N1 ON OR VP AV.
  assert (INC : incl (concat (map sides ifs)) (slots n)).
  { intros s S. apply in_concat in S. destruct S as (l & L & S). apply in_map_iff in L. destruct L as (f & <- & F). apply slots_In. split; [exact (VP f s F S)|].
    destruct (OR f F (AV f F)) as (r & l & J). destruct J as [(A & B)|(A & B)]; unfold sides in S; rewrite A, B in S; destruct S as [<-|[<-|[]]]; cbn; unfold at_vertex; auto. }
  assert (EQ : kindOfVertex n ifs = 0%Z <-> inner_vertex n ifs).
  { unfold kindOfVertex. destruct (Nat.eqb_spec n 1) as [|_]; [contradiction|]. split.
    - destruct (Nat.eqb_spec n (length ifs)) as [E|]; [intros _|discriminate]. assert (REV : incl (slots n) (concat (map sides ifs))) by (apply (NoDup_length_incl ON); [rewrite sides_length, slots_length; lia|exact INC]).
      assert (G : forall i k, (i < n)%nat -> at_vertex k -> inner_side ifs i k).
      { intros i k L K. assert (S : In (mkPS i k) (concat (map sides ifs))) by (apply REV, slots_In; split; assumption). apply in_concat in S. destruct S as (l & LL & S). apply in_map_iff in LL. destruct LL as (f & <- & F). exists f. split; assumption. }
      intros i L. split; apply G; unfold at_vertex; auto.
    - intros IV. assert (REV : incl (slots n) (concat (map sides ifs))).
      { intros s S. apply slots_In in S. destruct S as (L & K). destruct (IV _ L) as (A & B). destruct s as [p k]. cbn in *. assert (IS : inner_side ifs p k) by (destruct K as [->| ->]; assumption). destruct IS as (f & F & S). apply in_concat. exists (sides f). split; [apply in_map; exact F|exact S]. }
      pose proof (NoDup_incl_length (slots_NoDup n) REV) as L1. pose proof (NoDup_incl_length ON INC) as L2. rewrite sides_length, slots_length in L1, L2. destruct (Nat.eqb_spec n (length ifs)); [reflexivity|lia]. }
  split; [exact EQ|]. rewrite <- EQ. unfold kindOfVertex. destruct (Nat.eqb_spec n 1) as [|_]; [contradiction|]. destruct (n =? length ifs)%nat; split; intros H; try discriminate; try contradiction; try reflexivity.
Qed.

(** ** Examples *)
(** two half rings: the second interface does not contain the vertex *)
Definition ring : list iface := [mkIF (mkPS 0 1) (mkPS 1 3); mkIF (mkPS 0 2) (mkPS 1 4)].
Ltac nodup := repeat constructor; cbn; intuition discriminate.
Theorem kind_refuted_pf : exists n ifs, sides_once ifs /\ oriented ifs /\ two_patches ifs /\ valid_patches n ifs /\ (forall i, (i < n)%nat -> inner_side ifs i 1 \/ inner_side ifs i 3) /\
  ~ inner_vertex n ifs /\ kindOfVertex n ifs = 0%Z /\
  exists i, (i < n)%nat /\ ~ inner_side ifs i 3 /\ forall gds, selectGD n ifs gds true false i 0%nat 0%nat = None.
Proof.
  exists 2%nat, ring. split; [unfold sides_once, ring, sides; cbn; nodup|]. split; [|split; [|split; [|split]]].
  - intros f [<-|[<-|[]]] V; cbn in V; [exists 0%nat, 1%nat; left; split; reflexivity|]. unfold at_vertex in V. lia.
  - intros f [<-|[<-|[]]]; cbn; lia.
  - intros f s [<-|[<-|[]]] [<-|[<-|[]]]; cbn; lia.
  - intros i L. destruct i as [|[|i]]; [left|right|lia]; eexists; (split; [left; reflexivity|cbn; auto]).
  - assert (N : ~ inner_side ring 0 3) by (intros (f & [<-|[<-|[]]] & [K|[K|[]]]); discriminate).
    split; [intros I; apply N; apply (I 0%nat); lia|]. split; [reflexivity|]. exists 0%nat. split; [lia|]. split; [exact N|]. intros gds. unfold selectGD, ring. cbn. destruct (gds 0%nat 1%nat), (gds 1%nat 0%nat). reflexivity.
Qed.
(** one patch, rolled up to a cone: its west side is its south side *)
Definition cone : list iface := [mkIF (mkPS 0 1) (mkPS 0 3)].
Theorem cone_refuted_pf : exists ifs, sides_once ifs /\ oriented ifs /\ valid_patches 1 ifs /\ all_at_vertex ifs /\ inner_vertex 1 ifs /\ kindOfVertex 1 ifs = (-1)%Z /\
  forall gds, column (selectGD 1 ifs gds false false 0) 0 1 1 0 0.
Proof.
  exists cone. split; [unfold sides_once, cone, sides; cbn; nodup|]. split; [|split; [|split; [|split; [|split]]]].
  - intros f [<-|[]] _. exists 0%nat, 0%nat. left. split; reflexivity.
  - intros f s [<-|[]] [<-|[<-|[]]]; cbn; lia.
  - intros f [<-|[]]. left. cbn. left. reflexivity.
  - intros i L. assert (i = 0)%nat as -> by lia. split; eexists; (split; [left; reflexivity|cbn; auto]).
  - reflexivity.
  - intros gds. repeat split.
Qed.
(** three patches around a vertex; and two of them *)
Definition three : list iface := [mkIF (mkPS 0 1) (mkPS 1 3); mkIF (mkPS 2 3) (mkPS 1 1); mkIF (mkPS 2 1) (mkPS 0 3)].
Definition pair2 : list iface := [mkIF (mkPS 1 3) (mkPS 0 1)].
Definition someData (r l : nat) : (nat -> R) * (nat -> R) := (fun k => INR (r + 10 * l + 100 * k), fun k => INR (r + 20 * l + 200 * k)).
Theorem select_example_pf : sides_once three /\ oriented three /\ two_patches three /\ inner_vertex 3 three /\ kindOfVertex 3 three = 0%Z /\ data_of three someData 1 (selectGD 3 three someData false false 1) /\
  (exists x, selectGD 3 three someData false false 1 0%nat 1%nat = Some x /\ x = INR 21) /\
  kindOfVertex 2 pair2 = 1%Z /\ column (selectGD 2 pair2 someData true false 0) 0 1 1 0 0 /\ selectGD 2 pair2 someData true false 0 0%nat 1%nat = Some (INR 10).
Proof.
  assert (OT : sides_once three) by (unfold sides_once, three, sides; cbn; nodup).
  assert (OR : oriented three) by (intros f [<-|[<-|[<-|[]]]] _; [exists 0%nat, 1%nat; left|exists 1%nat, 2%nat; right|exists 2%nat, 0%nat; left]; split; reflexivity).
  assert (TP : two_patches three) by (intros f [<-|[<-|[<-|[]]]]; cbn; lia).
  assert (IV : inner_vertex 3 three).
  { intros i L. destruct i as [|[|[|i]]]; [| | |lia]; split; unfold inner_side, three;
      first [exists (mkIF (mkPS 0 1) (mkPS 1 3)); split; [cbn; auto|cbn; auto; fail]|exists (mkIF (mkPS 2 3) (mkPS 1 1)); split; [cbn; auto|cbn; auto; fail]|exists (mkIF (mkPS 2 1) (mkPS 0 3)); split; [cbn; auto|cbn; auto; fail]]. }
  destruct (IV 1%nat ltac:(lia)) as (I1 & I3).
  split; [exact OT|]. split; [exact OR|]. split; [exact TP|]. split; [exact IV|]. split; [reflexivity|]. split.
  - apply select_pf; try assumption.
    + split; [discriminate|contradiction].
    + split; [discriminate|contradiction].
    + discriminate.
    + auto.
    + auto.
  - split; [eexists; split; [cbn; reflexivity|cbn; lra]|]. split; [reflexivity|]. split; [repeat split|]. reflexivity.
Qed.
