(** Concrete well-formed inputs used beside the theorems. *)
From Verif Require Import Common TopoModel BaseModel IndexSpec TopoSpec SmoothSpec IndexProofs.
From Coq Require Import Permutation.

(** two patches with 5x4 and 4x4 functions glued east to west *)
Definition two_patches_topo : topo :=
  mkT 2 [mkI (0, East) (1, West) false]
      [(0, West); (0, South); (0, North); (1, East); (1, South); (1, North)].
Definition two_patches : input := mkIn two_patches_topo [(5, 4); (4, 4)] (repeat false 8).
(** the same with all corners marked sharp *)
Definition two_patches_sharp : input := mkIn two_patches_topo [(5, 4); (4, 4)] (repeat true 8).

(** three patches around an interior vertex of valence 3 *)
Definition three_patches_topo : topo :=
  mkT 3 [mkI (0, West) (1, South) false; mkI (1, West) (2, South) false; mkI (2, West) (0, South) false]
      [(0, East); (0, North); (1, East); (1, North); (2, East); (2, North)].
Definition three_patches : input := mkIn three_patches_topo [(5, 5); (5, 5); (5, 5)] (repeat false 12).

(** the same fan of three patches without the last interface: a boundary vertex of valence 3 *)
Definition fan_topo : topo :=
  mkT 3 [mkI (0, West) (1, South) false; mkI (1, West) (2, South) false]
      [(2, West); (0, South); (0, East); (0, North); (1, East); (1, North); (2, East); (2, North)].
Definition fan : input := mkIn fan_topo [(5, 5); (5, 5); (5, 5)] (repeat false 12).

(** four patches around an interior vertex of valence 4 *)
Definition four_patches_topo : topo :=
  mkT 4 [mkI (0, West) (1, South) false; mkI (1, West) (2, South) false;
         mkI (2, West) (3, South) false; mkI (3, West) (0, South) false]
      [(0, East); (0, North); (1, East); (1, North); (2, East); (2, North); (3, East); (3, North)].
Definition four_patches : input := mkIn four_patches_topo [(5, 5); (5, 5); (5, 5); (5, 5)] (repeat false 16).

(** four patches in a fan: a boundary vertex of valence 4; its corners are marked sharp *)
Definition fan4_topo : topo :=
  mkT 4 [mkI (0, West) (1, South) false; mkI (1, West) (2, South) false; mkI (2, West) (3, South) false]
      [(3, West); (0, South); (0, East); (0, North); (1, East); (1, North); (2, East); (2, North); (3, East); (3, North)].
Definition fan4_sharp : input := mkIn fan4_topo [(5, 5); (5, 5); (5, 5); (5, 5)]
  (concat (repeat [true; false; false; false] 4)).

(** two patches glued along two pairs of sides: an interior vertex of valence 2 *)
Definition pair_topo : topo :=
  mkT 2 [mkI (0, West) (1, South) false; mkI (0, South) (1, West) false]
      [(0, East); (0, North); (1, East); (1, North)].
Definition pair_patches : input := mkIn pair_topo [(5, 5); (5, 5)] (repeat false 8).

Lemma partition_check n (l : list pside) :
  NoDup l -> length l = 4 * n -> (forall x, In x l -> fst x < n) -> Permutation l (all_sides n).
Proof.
  intros H1 H2 H3. apply NoDup_Permutation_bis; auto.
  - rewrite H2. rewrite all_sides_length. lia.
  - intros x Hx. apply in_all_sides. auto.
Qed.

Lemma repeat_nth {A} (a : A) n i j : i < n -> j < n -> nth_error (repeat a n) i = nth_error (repeat a n) j.
Proof.
  intros Hi Hj. rewrite (nth_error_nth' _ a) by (rewrite repeat_length; auto).
  rewrite (nth_error_nth' _ a) by (rewrite repeat_length; auto). rewrite !nth_repeat. reflexivity.
Qed.

Ltac nd := repeat (constructor; [simpl; intuition discriminate|]); constructor.
Ltac ins := simpl; intros; repeat match goal with H : _ \/ _ |- _ => destruct H | H : False |- _ => contradiction end; subst; simpl.

Ltac wf := constructor;
  [ split; [apply partition_check; [nd | reflexivity | ins; lia]
           | intros f Hf; ins; simpl in Hf;
             repeat match goal with H : _ \/ _ |- _ => destruct H | H : False |- _ => contradiction end;
             subst; simpl; left; discriminate]
  | reflexivity
  | intros b Hb; simpl in Hb; repeat match goal with H : _ \/ _ |- _ => destruct H | H : False |- _ => contradiction end;
    subst; simpl; lia
  | intros f b1 b2 Hf; simpl in Hf; repeat match goal with H : _ \/ _ |- _ => destruct H | H : False |- _ => contradiction end;
    subst; simpl; intros [= <-] [= <-]; reflexivity
  | reflexivity
  | intros a b (f & u & Hf & -> & ->); simpl in Hf;
    repeat match goal with H : _ \/ _ |- _ => destruct H | H : False |- _ => contradiction end;
    subst; destruct u; reflexivity
  | reflexivity ].

Lemma two_patches_wf : well_formed two_patches. Proof. wf. Qed.
Lemma two_patches_sharp_wf : well_formed two_patches_sharp. Proof. wf. Qed.
Lemma three_patches_wf : well_formed three_patches. Proof. wf. Qed.
Lemma fan_wf : well_formed fan. Proof. wf. Qed.
Lemma four_patches_wf : well_formed four_patches. Proof. wf. Qed.
Lemma fan4_sharp_wf : well_formed fan4_sharp. Proof. wf. Qed.
Lemma pair_patches_wf : well_formed pair_patches. Proof. wf. Qed.
