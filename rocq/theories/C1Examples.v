(** Concrete inputs for the theorems about the C1 bases. *)
From Coq Require Import ZifyBool.
From Verif Require Import Common TopoModel BaseModel SmoothExamples C1Model C1Spec.
Import ListNotations.

Definition low1 (m : nat) : nat := if 1 <? m then m - 1 else m.

(** degree 3 with three single inner knots (7 functions), degree 4 with one double inner knot
    (7 functions, plus space 6), degree 3 without inner knots *)
Definition kv3 : kvec := mkKV 3 0 1 [((1#4)%Q, 1); ((1#2)%Q, 1); ((3#4)%Q, 1)].
Definition kv4 : kvec := mkKV 4 0 1 [((1#2)%Q, 2)].
Definition kvg : kvec := mkKV 3 0 1 [].

Definition verts2 : list (list pcorner) :=
  [[(0, SW)]; [(0, SE); (1, SW)]; [(1, SE)]; [(0, NW)]; [(0, NE); (1, NW)]; [(1, NE)]].

(** Two patches joined East-West; pieces of different sizes; coefficients that can be told apart. *)
Definition cf (a : Z) (n : nat) : list Q := map (fun j => (a + Z.of_nat j)%Z # 1) (seq 0 n).
Definition code (f : bool * nat) : Z := (10 * Z.of_nat (snd f) + (if fst f then 1 else 0))%Z.
Lemma cf_length a n : length (cf a n) = n.
Proof. unfold cf. now rewrite map_length, seq_length. Qed.
Local Opaque cf.

Definition two_c1 : c1in := mkC1 two_patches_topo verts2
  [(kv3, kv4); (mkKV 3 0 1 [((1#2)%Q, 1); ((3#4)%Q, 1)], kv3)] [(kvg, kvg); (kvg, kvg)]
  [[3; 4; 2; 5; 2; 3; 2; 4]; [5; 3; 4; 2; 3; 2; 4; 2]] low1
  (fun k second f => if second then cf (200 + code f)%Z 5 else cf (100 + code f)%Z 4)
  (fun k f => cf (300 + 10 * Z.of_nat k + code f)%Z
     (match k with 0 => 3 | 1 => 2 | 2 => 5 | 3 => 3 | 4 => 4 | _ => 2 end))
  (fun k n f => cf (1000 + 100 * Z.of_nat k + 10 * Z.of_nat n + Z.of_nat f)%Z
     (match k, n with 0, _ => 2 | 1, 0 => 3 | 1, _ => 3 | 2, _ => 2 | 3, _ => 2 | 4, 0 => 4 | 4, _ => 4 | _, _ => 2 end)).

Definition two_Ni (k : nat) : nat := 6.
Definition two_Nb (k : nat) : nat := match k with 0 => 6 | 1 | 2 => 7 | 3 => 7 | _ => 6 end.

Lemma two_c1_wf : approx_wf two_c1.
Proof.
  constructor; [constructor| | |].
  - reflexivity.
  - reflexivity.
  - intros [|[|p]] l E; cbn in E; try (injection E as <-; reflexivity). destruct p; discriminate.
  - intros b [<-|[<-|[]]]; cbn; lia.
  - intros f [<-|[]]. cbn. lia.
  - intros ps H. cbn in H. decompose [or] H; subst; cbn; try lia; try tauto.
  - intros l H. cbn in H. decompose [or] H; subst; cbn; split; try discriminate; try tauto; intros c Hc; cbn in Hc;
      decompose [or] Hc; subst; cbn; try lia; tauto.
  - intros F p q cs H pb Hp. destruct F as [? ? ?|k f|k f|k n]; cbn [parts] in H.
    + destruct H.
    + destruct k as [|k]; [|destruct k; destruct H].
      cbn in H. destruct H as [H|[H|[]]]; injection H as <- <- <-; cbn in Hp; injection Hp as <-; rewrite ?cf_length; reflexivity.
    + do 6 (destruct k as [|k]; [cbn in H; destruct H as [H|[]]; injection H as <- <- <-; cbn in Hp; injection Hp as <-; rewrite ?cf_length; reflexivity|]).
      destruct k; destruct H.
    + do 6 (destruct k as [|k]; [cbn in H; decompose [or] H; clear H;
        try match goal with E : _ = (p, q, cs) |- _ => injection E as <- <- <-; cbn in Hp; injection Hp as <-; rewrite ?cf_length; reflexivity end; tauto|]).
      destruct k; destruct H.
  - intros b [<-|[<-|[]]]; cbn; lia.
  - intros g [<-|[<-|[]]]; split; reflexivity.
  - intros f [<-|[]]. discriminate.
  - intros l H. cbn in H. decompose [or] H; subst; try tauto; repeat constructor; cbn; intuition discriminate.
Qed.

Lemma two_c1_dims : approx_dims two_c1 two_Ni two_Nb.
Proof.
  split.
  - intros [|k] f E; cbn in E; [|destruct k; discriminate]. injection E as <-. exists kv4. split; [|reflexivity].
    exists kv4, kv3. split; [eexists; split; reflexivity|]. split; [eexists; split; reflexivity|]. left. split; [cbn; lia|reflexivity].
  - intros k ps E.
    do 6 (destruct k as [|k]; [cbn in E; injection E as <-; eexists; split; [eexists; split; reflexivity|reflexivity]|]).
    destruct k; discriminate.
Qed.

(** What goes wrong when a patch has three functions in a direction. *)
Definition one_topo : topo := mkT 1 [] [(0, West); (0, East); (0, South); (0, North)].
Definition verts1 : list (list pcorner) := [[(0, SW)]; [(0, SE)]; [(0, NW)]; [(0, NE)]].
Definition one_c1 (u v : kvec) (more : list nat) (g : kvec) : c1in := mkC1 one_topo verts1 [(u, v)] [(g, g)] [more] low1
  (fun _ _ _ => []) (fun _ _ => repeat 1%Q 2) (fun _ _ _ => repeat 1%Q 2).
Definition kv2 : kvec := mkKV 2 0 1 [].
Definition kv5 : kvec := mkKV 4 0 1 [].
Definition more8 : list nat := repeat 2 8.
Definition small33 : c1in := one_c1 kv2 kv2 more8 kvg.
Definition small35 : c1in := one_c1 kv2 kv5 more8 kvg.

(** gsC1SurfSpline: one patch, degree 3, double inner knots everywhere *)
Definition kvd : kvec := mkKV 3 0 1 [((1#2)%Q, 2)].
Definition surf_one : c1in := mkC1 one_topo verts1 [(kvd, kvd)] [(kvd, kvd)] [[]] low1
  (fun _ _ _ => []) (fun _ _ => repeat 1%Q 36) (fun _ _ _ => repeat 1%Q 36).

(** gsC1SurfSpline: two patches; degree 3 with two double inner knots (8 functions, plus space 6), and degree 4 with
    one double inner knot (7 functions, plus space 6) *)
Definition kve : kvec := mkKV 3 0 1 [((1#4)%Q, 2); ((1#2)%Q, 2)].
Definition surf_two : c1in := mkC1 two_patches_topo verts2 [(kve, kv4); (kv4, kve)] [(kve, kv4); (kv4, kve)] [[]; []] low1
  (fun k second f => if second then cf (200 + code f)%Z 56 else cf (100 + code f)%Z 56)
  (fun k f => cf (300 + 10 * Z.of_nat k + code f)%Z 56)
  (fun k n f => cf (1000 + 100 * Z.of_nat k + 10 * Z.of_nat n + Z.of_nat f)%Z 56).

Lemma surf_two_wf : surf_wf surf_two.
Proof.
  constructor; [constructor| |].
  - reflexivity.
  - reflexivity.
  - intros [|[|p]] l E; cbn in E; try (injection E as <-; reflexivity). destruct p; discriminate.
  - intros b [<-|[<-|[]]]; cbn; lia.
  - intros f [<-|[]]. cbn. lia.
  - intros ps H. cbn in H. decompose [or] H; subst; cbn; try lia; try tauto.
  - intros l H. cbn in H. decompose [or] H; subst; cbn; split; try discriminate; try tauto; intros c Hc; cbn in Hc;
      decompose [or] Hc; subst; cbn; try lia; tauto.
  - intros F p q cs H pb Hp. destruct F as [? ? ?|k f|k f|k n]; cbn [parts] in H.
    + destruct H.
    + destruct k as [|k]; [|destruct k; destruct H].
      cbn in H. destruct H as [H|[H|[]]]; injection H as <- <- <-; cbn in Hp; injection Hp as <-; rewrite ?cf_length; reflexivity.
    + do 6 (destruct k as [|k]; [cbn in H; destruct H as [H|[]]; injection H as <- <- <-; cbn in Hp; injection Hp as <-; rewrite ?cf_length; reflexivity|]).
      destruct k; destruct H.
    + do 6 (destruct k as [|k]; [cbn in H; decompose [or] H; clear H;
        try match goal with E : _ = (p, q, cs) |- _ => injection E as <- <- <-; cbn in Hp; injection Hp as <-; rewrite ?cf_length; reflexivity end; tauto|]).
      destruct k; destruct H.
  - intros b [<-|[<-|[]]]; cbn; lia.
  - reflexivity.
  - intros b [<-|[<-|[]]]; cbn; lia.
Qed.

Lemma surf_two_dims : surf_dims 6 surf_two (fun _ => 6) (fun _ => 6).
Proof.
  split.
  - intros [|k] f E; cbn in E; [|destruct k; discriminate]. injection E as <-. split; [lia|].
    intros b [(uv & E & ->)|(uv & E & ->)]; cbn in E; injection E as <-; reflexivity.
  - intros k ps E. split; [lia|]. intros b (uv & Eu & ->).
    do 6 (destruct k as [|k]; [cbn in E; injection E as <-; cbn in Eu; injection Eu as <-; reflexivity|]).
    destruct k; discriminate.
Qed.

Lemma surf_one_wf : surf_wf surf_one.
Proof.
  constructor; [constructor| |]; try reflexivity.
  - intros [|p] l E; cbn in E; [injection E as <-; reflexivity|]. destruct p; discriminate.
  - intros b [<-|[]]; cbn; lia.
  - intros f [].
  - intros ps H. cbn in H. decompose [or] H; subst; cbn; try lia; try tauto.
  - intros l H. cbn in H. decompose [or] H; subst; cbn; split; try discriminate; try tauto; intros c Hc; cbn in Hc;
      decompose [or] Hc; subst; cbn; try lia; tauto.
  - intros F p q cs H pb Hp. destruct F as [? ? ?|k f|k f|k n]; cbn [parts] in H.
    + destruct H.
    + destruct k; destruct H.
    + do 4 (destruct k as [|k]; [cbn in H; destruct H as [H|[]]; injection H as <- <- <-; cbn in Hp; injection Hp as <-; rewrite ?cf_length; reflexivity|]).
      destruct k; destruct H.
    + do 4 (destruct k as [|k]; [cbn in H; destruct H as [H|[]]; injection H as <- <- <-; cbn in Hp; injection Hp as <-; rewrite ?cf_length; reflexivity|]).
      destruct k; destruct H.
  - intros b [<-|[]]; cbn; lia.
  - intros b [<-|[]]; cbn; lia.
Qed.

Lemma surf_one_dims : surf_dims 0 surf_one (fun _ => 5) (fun _ => 5).
Proof.
  split.
  - intros k f E. destruct k; discriminate.
  - intros k ps E. split; [lia|]. intros b (uv & Eu & ->).
    do 4 (destruct k as [|k]; [cbn in E; injection E as <-; cbn in Eu; injection Eu as <-; reflexivity|]).
    destruct k; discriminate.
Qed.

Lemma two_c1_facts : approx_wf two_c1 /\ approx_dims two_c1 two_Ni two_Nb /\
  length (all_functions two_c1 two_Ni two_Nb) = 64 /\ length (all_columns two_c1) = 141.
Proof. split; [exact two_c1_wf|]. split; [exact two_c1_dims|]. split; vm_compute; reflexivity. Qed.

Lemma two_c1_entry :
  nth_error (all_functions two_c1 two_Ni two_Nb) 15 = Some (FIface 0 (false, 2)) /\
  nth_error (all_columns two_c1) 117 = Some (1, 1, 1) /\ coef_value false two_c1 (FIface 0 (false, 2)) (1, 1, 1) = (221 # 1)%Q.
Proof. repeat split; vm_compute; reflexivity. Qed.

Lemma small33_rows : exists I M, forallb (fun b => 3 <=? kvsize (fst b)) (c1basis I) = true /\
  c1init I = Ok (25%Z, 25) /\ c1compute I = Ok (24, M).
Proof. exists small33. eexists. repeat split; vm_compute; reflexivity. Qed.

Lemma small35_rows : exists I M, forallb (fun b => 3 <=? kvsize (fst b)) (c1basis I) = true /\
  c1init I = Ok (23%Z, 31) /\ c1writes I = Ok (24, M) /\ c1compute I = Err.
Proof. exists small35. eexists. repeat split; vm_compute; reflexivity. Qed.

Lemma surf_two_facts : surf_wf surf_two /\ surf_dims 6 surf_two (fun _ => 6) (fun _ => 6) /\
  length (all_functions surf_two (fun _ => 6) (fun _ => 6)) = 67.
Proof. split; [exact surf_two_wf|]. split; [exact surf_two_dims|]. vm_compute; reflexivity. Qed.

Lemma surf_one_rows : exists I M, surf_wf I /\ surf_dims 0 I (fun _ => 5) (fun _ => 5) /\
  surfInit I = Ok (24%Z, 36) /\ surfWrites I = Ok (28, M) /\ surfCompute I = Err.
Proof.
  exists surf_one. eexists. split; [exact surf_one_wf|]. split; [exact surf_one_dims|]. repeat split; vm_compute; reflexivity.
Qed.

Lemma surf_two_entry :
  nth_error (all_functions surf_two (fun _ => 6) (fun _ => 6)) 24 = Some (FIface 0 (false, 2)) /\
  nth_error (all_columns surf_two) 60 = Some (1, 0, 4) /\ coef_value true surf_two (FIface 0 (false, 2)) (1, 0, 4) = (224 # 1)%Q.
Proof. repeat split; vm_compute; reflexivity. Qed.
