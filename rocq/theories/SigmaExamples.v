(** Witnesses for property C80. *)
From Verif Require Import Common SigmaModel SigmaSpec SigmaProofs.
From Coq Require Import Lqa Permutation.
Open Scope nat_scope.

Definition openKnots (q : nat) (inner : list Q) : sdir := mkSD q (repeat 0%Q (S q) ++ inner ++ repeat 1%Q (S q)).
Definition quarters : list Q := [1 # 4; 1 # 2; 3 # 4]%Q.
Definition both (q : nat) (inner : list Q) : sbasis := (openKnots q inner, openKnots q inner).

(** A patch with nine equal pieces. *)
Definition evenPatch (b : sbasis) (D : list Q) : spatch := mkSP (repeat b 9) b D.
Definition spA : spatch := evenPatch (both 3 []) [1; 0; 0; 1]%Q.
Definition spB : spatch := evenPatch (both 3 quarters) [0; - (2); 3; 0]%Q.

(** A patch with the pieces [a] at corner 1 and [b] at corner 2. *)
Definition mixPatch (a b : sbasis) : spatch := mkSP (repeat a 6 ++ [b; a; a]) a [1; 0; 0; 1]%Q.

Ltac inSearch := repeat (first [left; reflexivity | right]).
Ltac small_list := split; [eexists; split; [|reflexivity]; cbn; inSearch | let x := fresh in let H := fresh in intros x H; cbn in H; repeat (destruct H as [<-|H]; [vm_compute; discriminate|]); destruct H].
Ltac norm_list := split; [right; eexists; split; [|left; reflexivity]; cbn; inSearch | let x := fresh in let H := fresh in intros x H; cbn in H; repeat (destruct H as [<-|H]; [split; vm_compute; discriminate|]); destruct H].
Ltac startsT := split; [reflexivity|eexists; reflexivity].
Ltac starts2T := split; [reflexivity|eexists; eexists; reflexivity].
Ltac neq := let H := fresh in intro H; vm_compute in H; discriminate.

Lemma normA : inf_norm (spDeriv spA) 1%Q.
Proof. norm_list. Qed.
Lemma normB : inf_norm (spDeriv spB) 3%Q.
Proof. norm_list. Qed.

Lemma own_refuted_pf : exists aux vi q es ns h s, length vi = length aux /\ 0 < q /\ Forall2 (fun ak e => piece_starts (fst ak) (snd ak) q e) (combine aux vi) es /\
  smallest (1%Q :: lengths es) h /\ norms aux ns /\ approxSigma aux vi = Ok s /\ ~ (s * sumQ ns * h == ofN (length aux) * ofN q)%Q.
Proof. exists [spA; spB], [1; 2], 3, [(1, 1); (1 # 4, 1 # 4)]%Q, [1; 3]%Q, (1 # 4)%Q. eexists.
  split; [reflexivity|]. split; [lia|]. split.
  { constructor; [|constructor; [|constructor]]; eexists; (split; [reflexivity|]); split; startsT. }
  split; [small_list|]. split; [constructor; [exact normA|constructor; [exact normB|constructor]]|]. split; [vm_compute; reflexivity|]. neq. Qed.

Lemma order_refuted_pf : exists aux vi aux' vi' s s', length vi = length aux /\ length vi' = length aux' /\ Permutation (combine aux vi) (combine aux' vi') /\
  approxSigma aux vi = Ok s /\ approxSigma aux' vi' = Ok s' /\ ~ (s == s')%Q.
Proof. exists [spA; spB], [1; 2], [spB; spA], [2; 1]. eexists. eexists. split; [reflexivity|]. split; [reflexivity|]. split; [apply perm_swap|].
  split; [vm_compute; reflexivity|]. split; [vm_compute; reflexivity|]. neq. Qed.

Lemma mixed_refuted_pf : exists a vi vi' s s' b b', Permutation vi vi' /\ nth_error (spPieces a) 5 = Some b /\ nth_error (spPieces a) 6 = Some b' /\
  starts 3 1 (fst b) /\ starts 3 1 (snd b) /\ starts 2 (1 # 4) (fst b') /\ starts 2 (1 # 4) (snd b') /\
  approxSigma [a; a] vi = Ok s /\ approxSigma [a; a] vi' = Ok s' /\ ~ (s == s')%Q.
Proof. exists (mixPatch (both 3 []) (both 2 quarters)), [1; 2], [2; 1]. do 4 eexists. split; [apply perm_swap|]. split; [reflexivity|]. split; [reflexivity|].
  do 4 (split; [startsT|]). split; [vm_compute; reflexivity|]. split; [vm_compute; reflexivity|]. neq. Qed.

Lemma outside_refuted_pf : exists a b b', nth_error (spPieces a) 5 = Some b /\ nth_error (spPieces a) 6 = Some b' /\ starts 3 1 (fst b) /\ starts 3 1 (snd b) /\ starts 1 1 (fst b') /\ starts 1 1 (snd b') /\
  approxSigma [a; a] [1; 2] = Err.
Proof. exists (mixPatch (both 3 []) (both 1 [])). do 2 eexists. split; [reflexivity|]. split; [reflexivity|]. do 4 (split; [startsT|]). vm_compute. reflexivity. Qed.

Lemma surf_length_refuted_pf : exists a q x n s, 0 < q /\ starts q x (fst (spGeo a)) /\ starts q x (snd (spGeo a)) /\ inf_norm (spDeriv a) n /\ surfSigma 0 [a] = Ok s /\ ~ (s * n * x == ofN q)%Q.
Proof. exists spB, 3, (1 # 4)%Q, 3%Q. eexists. split; [lia|]. split; [startsT|]. split; [startsT|]. split; [exact normB|]. split; [vm_compute; reflexivity|]. neq. Qed.

Lemma surf_again_refuted_pf : exists aux s s', surfSigma 0 aux = Ok s /\ surfSigma s aux = Ok s' /\ ~ (s == s')%Q.
Proof. exists [spA; spB]. do 2 eexists. split; [vm_compute; reflexivity|]. split; [vm_compute; reflexivity|]. neq. Qed.

Lemma sigma_example_pf : piece_starts spB 2 3 (1 # 4, 1 # 4)%Q /\ smallest (1%Q :: lengths [(1 # 4, 1 # 4)]%Q) (1 # 4)%Q /\ norms [spB; spA] [3; 1]%Q /\
  (exists s, approxSigma [spB; spA] [2; 1] = Ok s /\ (s == 6)%Q) /\ (exists s, approxSigma [spA; spB] [1; 2] = Ok s /\ (s == 3 # 2)%Q) /\
  geo_starts2 3 spB (1 # 2, 1 # 2)%Q /\ geo_starts2 3 spA (1, 1)%Q /\ largest (lengths [(1 # 2, 1 # 2); (1, 1)]%Q) 1%Q /\ (exists s, surfSigma 0 [spB; spA] = Ok s /\ (s == 3 # 2)%Q) /\
  magnified 2 spA (evenPatch (both 3 []) [2; 0; 0; 2]%Q).
Proof. split; [eexists; split; [reflexivity|]; split; startsT|]. split; [small_list|]. split; [constructor; [exact normB|constructor; [exact normA|constructor]]|].
  split; [eexists; split; [vm_compute; reflexivity|reflexivity]|]. split; [eexists; split; [vm_compute; reflexivity|reflexivity]|].
  split; [split; starts2T|]. split; [split; starts2T|]. split; [small_list|]. split; [eexists; split; [vm_compute; reflexivity|reflexivity]|].
  split; [reflexivity|]. split; [reflexivity|]. repeat constructor. Qed.

(** Degree 2 in the first and 3 in the second direction: the knot with index 4 is looked up in both. *)
Definition spUneven : spatch := evenPatch (openKnots 2 quarters, openKnots 3 [1 # 3]) [0; 1; 1; 0]%Q.
Lemma degree_example_pf : exists b s s', nth_error (spPieces spUneven) 5 = Some b /\ sdeg (fst b) = 2 /\ sdeg (snd b) = 3 /\ nth_error (sknots (fst b)) 4 = Some (1 # 2)%Q /\ nth_error (sknots (snd b)) 4 = Some (1 # 3)%Q /\
  smallest [1; 1 # 2; 1 # 3]%Q (1 # 3)%Q /\ approxSigma [spUneven] [1] = Ok s /\ (s == 9)%Q /\ largest [3 # 4; 1]%Q 1%Q /\ surfSigma 0 [spUneven] = Ok s' /\ (s' == 3)%Q.
Proof. do 3 eexists. do 5 (split; [reflexivity|]). split; [small_list|]. split; [vm_compute; reflexivity|]. split; [reflexivity|]. split; [small_list|]. split; [vm_compute; reflexivity|]. reflexivity. Qed.
