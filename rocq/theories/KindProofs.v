(** Proofs and examples for C88. *)
From Coq Require Import ZifyBool.
From Verif Require Import Common SelectModel KindModel KindSpec.

Lemma around_patch vi : forall i s, In s (sides_from i vi) -> i <= pspatch s.
Proof. induction vi as [|c vi IH]; intros i s I; [destruct I|]. cbn in I. destruct I as [<-|[<-|I]]; cbn; [lia|lia|]. apply IH in I. lia. Qed.
Lemma around_nodup vi : forall i, NoDup (sides_from i vi).
Proof.
  induction vi as [|c vi IH]; intros i; cbn; [constructor|]. constructor; [|constructor; [|apply IH]].
  - intros [E|I]; [|apply around_patch in I; cbn in I; lia]. injection E as E. destruct c as [|[|[|[|c]]]]; cbn in E; lia.
  - intros I. apply around_patch in I. cbn in I. lia.
Qed.
Lemma around_length vi : forall i, length (sides_from i vi) = 2 * length vi.
Proof. induction vi as [|c vi IH]; intros i; cbn; [reflexivity|]. rewrite IH. lia. Qed.
Lemma ends_length ifs : length (ends ifs) = 2 * length ifs.
Proof. induction ifs as [|f ifs IH]; cbn; [reflexivity|]. unfold ends in IH. rewrite IH. lia. Qed.
Lemma joined_ends ifs s : joined ifs s <-> In s (ends ifs).
Proof.
  unfold joined, ends. rewrite in_flat_map. split.
  - intros (f & I & H). exists f. split; [exact I|]. cbn. destruct H as [H|H]; auto.
  - intros (f & I & H). exists f. split; [exact I|]. cbn in H. destruct H as [H|[H|[]]]; auto.
Qed.
Lemma count_pf vi ifs : topology_ok ifs -> only_around vi ifs -> (length vi = length ifs <-> internal vi ifs).
Proof.
  intros T O. split.
  - intros L s I. apply joined_ends. assert (N : incl (around vi) (ends ifs)); [|exact (N s I)]. apply NoDup_length_incl; [exact T| |exact O]. unfold around. rewrite around_length, ends_length. lia.
  - intros A. assert (L1 : length (around vi) <= length (ends ifs)) by (apply NoDup_incl_length; [apply around_nodup|intros s I; apply joined_ends, A, I]).
    assert (L2 : length (ends ifs) <= length (around vi)) by (apply NoDup_incl_length; [exact T|exact O]). unfold around in *. rewrite around_length, ends_length in *. lia.
Qed.
Theorem kind_pf : forall vi ifs, topology_ok ifs -> only_around vi ifs -> length vi <> 1 ->
  (kindOfVertex (length vi) ifs = 0%Z <-> internal vi ifs) /\ (kindOfVertex (length vi) ifs = 1%Z <-> ~ internal vi ifs).
Proof.
  intros vi ifs T O N. rewrite <- (count_pf vi ifs T O). unfold kindOfVertex. destruct (Nat.eqb_spec (length vi) 1) as [E|_]; [congruence|]. destruct (Nat.eqb_spec (length vi) (length ifs)) as [E|E]; split; split; intros H; try congruence; try discriminate; try reflexivity.
Qed.
Theorem single_pf : forall c ifs, kindOfVertex (length [c]) ifs = (-1)%Z /\ (ifs = [] -> ~ internal [c] ifs).
Proof.
  intros c ifs. split; [reflexivity|]. intros -> H. destruct (H (mkPS 0 (fst (sides_at c)))) as (f & [] & _). now left.
Qed.
Theorem finish_pf : forall A (kernel : list A -> res (list A)) back vi ifs fs, topology_ok ifs -> only_around vi ifs ->
  (internal vi ifs -> finishVertex kernel back (length vi) ifs fs = mapM (fun i => do g <- vget fs i; back i g) (seq 0 (length vi))) /\
  (~ internal vi ifs -> finishVertex kernel back (length vi) ifs fs = bind (kernel fs) (fun gs => mapM (fun i => do g <- vget gs i; back i g) (seq 0 (length vi)))).
Proof.
  intros A kernel back vi ifs fs T O. rewrite <- (count_pf vi ifs T O). unfold finishVertex, notInternal. split; intros H.
  - rewrite H, Nat.eqb_refl. reflexivity.
  - rewrite (proj2 (Nat.eqb_neq _ _) H). reflexivity.
Qed.

(** two patches that form an annulus: west and east of one are joined with east and west of the other; every vertex is on the boundary *)
Definition annulus : list iface := [mkIF (mkPS 0 1) (mkPS 1 2); mkIF (mkPS 0 2) (mkPS 1 1)].
Theorem annulus_pf : exists vi ifs, topology_ok ifs /\ ~ internal vi ifs /\ (length vi = 2)%nat /\ kindOfVertex (length vi) ifs = 0%Z /\
  forall A (kernel : list A -> res (list A)) back fs, finishVertex kernel back (length vi) ifs fs = mapM (fun i => do g <- vget fs i; back i g) (seq 0 (length vi)).
Proof.
  exists [1; 2], annulus. split; [repeat constructor; cbn; intuition congruence|]. split.
  - intros H. destruct (H (mkPS 0 3)) as (f & I & E); [right; left; reflexivity|]. destruct I as [<-|[<-|[]]]; destruct E as [E|E]; discriminate.
  - split; [reflexivity|]. split; reflexivity.
Qed.
(** two patches joined along all four sides: every vertex is internal *)
Definition pillow : list iface := [mkIF (mkPS 0 1) (mkPS 1 1); mkIF (mkPS 0 2) (mkPS 1 2); mkIF (mkPS 0 3) (mkPS 1 3); mkIF (mkPS 0 4) (mkPS 1 4)].
Theorem pillow_pf : exists vi ifs, topology_ok ifs /\ internal vi ifs /\ kindOfVertex (length vi) ifs = 1%Z /\
  forall A (kernel : list A -> res (list A)) back fs, finishVertex kernel back (length vi) ifs fs = bind (kernel fs) (fun gs => mapM (fun i => do g <- vget gs i; back i g) (seq 0 (length vi))).
Proof.
  exists [1; 1], pillow. split; [repeat constructor; cbn; intuition congruence|]. split.
  - intros s I. apply joined_ends. cbn in I |- *. intuition.
  - split; reflexivity.
Qed.
(** three patches around an internal vertex; without the last interface it is on the boundary *)
Definition star : list iface := [mkIF (mkPS 0 1) (mkPS 1 3); mkIF (mkPS 1 1) (mkPS 2 3); mkIF (mkPS 2 1) (mkPS 0 3)].
Lemma star_ok : topology_ok star /\ only_around [1; 1; 1] star /\ internal [1; 1; 1] star /\ kindOfVertex 3 star = 0%Z /\
  topology_ok (firstn 2 star) /\ only_around [1; 1; 1] (firstn 2 star) /\ ~ internal [1; 1; 1] (firstn 2 star) /\ kindOfVertex 3 (firstn 2 star) = 1%Z.
Proof.
  split; [repeat constructor; cbn; intuition congruence|]. split; [intros s I; cbn in I |- *; intuition|]. split; [intros s I; apply joined_ends; cbn in I |- *; intuition|]. split; [reflexivity|].
  split; [repeat constructor; cbn; intuition congruence|]. split; [intros s I; cbn in I |- *; intuition|]. split; [|reflexivity].
  intros H. destruct (H (mkPS 0 3)) as (f & I & E); [right; left; reflexivity|]. destruct I as [<-|[<-|[]]]; destruct E as [E|E]; discriminate.
Qed.
