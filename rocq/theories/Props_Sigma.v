(** Property C80: scaling of the data prescribed at a vertex. *)
From Verif Require Import Common SigmaModel SigmaSpec SigmaProofs SigmaExamples.
From Coq Require Import Permutation.
Open Scope nat_scope.

(** With pieces of one degree q in the basis of the first patch, on average over the patches, sigma times the largest derivative is q divided by the
    smallest first element of these pieces (at most 1). *)
Theorem C80_value : forall aux vi a0 q es ns h, nth_error aux 0 = Some a0 -> length vi = length aux -> 0 < q -> Forall2 (fun k e => piece_starts a0 k q e) vi es ->
  Forall (fun x => (0 < x)%Q) (lengths es) -> smallest (1%Q :: lengths es) h -> norms aux ns -> (0 < sumQ ns)%Q ->
  exists s, approxSigma aux vi = Ok s /\ (0 < s)%Q /\ (s * sumQ ns * h == ofN (length aux) * ofN q)%Q.
Proof. exact approx_value_pf. Qed.
Print Assumptions C80_value.

(** Different degrees in the two directions: the larger one counts, also for the knot that is looked up. *)
Theorem C80_degree : forall a k b q t1 t2 n h, nth_error (spPieces a) (k + 4) = Some b -> 0 < q -> (sdeg (fst b) = q /\ sdeg (snd b) <= q \/ sdeg (snd b) = q /\ sdeg (fst b) <= q) ->
  nth_error (sknots (fst b)) (S q) = Some t1 -> nth_error (sknots (snd b)) (S q) = Some t2 -> (0 < t1)%Q -> (0 < t2)%Q -> smallest [1; t1; t2]%Q h -> inf_norm (spDeriv a) n -> (0 < n)%Q ->
  exists s, approxSigma [a] [k] = Ok s /\ (0 < s)%Q /\ (s * n * h == ofN q)%Q.
Proof. exact approx_degree_pf. Qed.
Print Assumptions C80_degree.

Theorem C80_surf_degree : forall a q t1 t2 n h, let b := spGeo a in 0 < q -> (sdeg (fst b) = q /\ sdeg (snd b) <= q \/ sdeg (snd b) = q /\ sdeg (fst b) <= q) ->
  nth_error (sknots (fst b)) (S (S q)) = Some t1 -> nth_error (sknots (snd b)) (S (S q)) = Some t2 -> (0 <= t1)%Q -> (0 <= t2)%Q -> largest [t1; t2]%Q h -> (0 < h)%Q -> inf_norm (spDeriv a) n -> (0 < n)%Q ->
  exists s, surfSigma 0 [a] = Ok s /\ (0 < s)%Q /\ (s * n * h == ofN q)%Q.
Proof. exact surf_degree_pf. Qed.
Print Assumptions C80_surf_degree.

(** The pieces of the other patches are not regarded. *)
Theorem C80_own_refuted : exists aux vi q es ns h s, length vi = length aux /\ 0 < q /\ Forall2 (fun ak e => piece_starts (fst ak) (snd ak) q e) (combine aux vi) es /\
  smallest (1%Q :: lengths es) h /\ norms aux ns /\ approxSigma aux vi = Ok s /\ ~ (s * sumQ ns * h == ofN (length aux) * ofN q)%Q.
Proof. exact own_refuted_pf. Qed.
Print Assumptions C80_own_refuted.

(** The result depends on the order of the patches ... *)
Theorem C80_order_refuted : exists aux vi aux' vi' s s', length vi = length aux /\ length vi' = length aux' /\ Permutation (combine aux vi) (combine aux' vi') /\
  approxSigma aux vi = Ok s /\ approxSigma aux' vi' = Ok s' /\ ~ (s == s')%Q.
Proof. exact order_refuted_pf. Qed.
Print Assumptions C80_order_refuted.

(** ... even for equal patches, if the degrees of the pieces differ: the knot is looked up with the largest degree met so far. *)
Theorem C80_mixed_refuted : exists a vi vi' s s' b b', Permutation vi vi' /\ nth_error (spPieces a) 5 = Some b /\ nth_error (spPieces a) 6 = Some b' /\
  starts 3 1 (fst b) /\ starts 3 1 (snd b) /\ starts 2 (1 # 4) (fst b') /\ starts 2 (1 # 4) (snd b') /\
  approxSigma [a; a] vi = Ok s /\ approxSigma [a; a] vi' = Ok s' /\ ~ (s == s')%Q.
Proof. exact mixed_refuted_pf. Qed.
Print Assumptions C80_mixed_refuted.

(** That knot need not exist. *)
Theorem C80_outside_refuted : exists a b b', nth_error (spPieces a) 5 = Some b /\ nth_error (spPieces a) 6 = Some b' /\ starts 3 1 (fst b) /\ starts 3 1 (snd b) /\ starts 1 1 (fst b') /\ starts 1 1 (snd b') /\
  approxSigma [a; a] [1; 2] = Err.
Proof. exact outside_refuted_pf. Qed.
Print Assumptions C80_outside_refuted.

(** Magnifying the geometry leaves the prescribed derivatives in the parameter domain unchanged. *)
Theorem C80_magnify : forall t aux aux' vi s, (0 < t)%Q -> Forall2 (magnified t) aux aux' -> approxSigma aux vi = Ok s ->
  exists s', approxSigma aux' vi = Ok s' /\ (s' * t == s)%Q /\ Forall2 (fun a a' => Forall2 (fun x x' => (s' * x' == s * x)%Q) (spDeriv a) (spDeriv a')) aux aux'.
Proof. exact approx_magnify_pf. Qed.
Print Assumptions C80_magnify.

Theorem C80_surf_magnify : forall t aux aux' s, (0 < t)%Q -> Forall2 (magnified t) aux aux' -> surfSigma 0 aux = Ok s ->
  exists s', surfSigma 0 aux' = Ok s' /\ (s' * t == s)%Q /\ Forall2 (fun a a' => Forall2 (fun x x' => (s' * x' == s * x)%Q) (spDeriv a) (spDeriv a')) aux aux'.
Proof. exact surf_magnify_pf. Qed.
Print Assumptions C80_surf_magnify.

(** On surfaces the length is the largest end of a second element of the geometries; the value of the member before the call is added to the derivatives. *)
Theorem C80_surf_value : forall s0 aux q es ns h, aux <> [] -> 0 < q -> Forall2 (geo_starts2 q) aux es -> largest (lengths es) h -> (0 < h)%Q -> norms aux ns -> (0 < s0 + sumQ ns)%Q ->
  exists s, surfSigma s0 aux = Ok s /\ (0 < s)%Q /\ (s * (s0 + sumQ ns) * h == ofN (length aux) * ofN q)%Q.
Proof. exact surf_value_pf. Qed.
Print Assumptions C80_surf_value.

(** It is not the length of the element at the vertex ... *)
Theorem C80_surf_length_refuted : exists a q x n s, 0 < q /\ starts q x (fst (spGeo a)) /\ starts q x (snd (spGeo a)) /\ inf_norm (spDeriv a) n /\ surfSigma 0 [a] = Ok s /\ ~ (s * n * x == ofN q)%Q.
Proof. exact surf_length_refuted_pf. Qed.
Print Assumptions C80_surf_length_refuted.

(** ... and a second call gives another value. *)
Theorem C80_surf_again_refuted : exists aux s s', surfSigma 0 aux = Ok s /\ surfSigma s aux = Ok s' /\ ~ (s == s')%Q.
Proof. exact surf_again_refuted_pf. Qed.
Print Assumptions C80_surf_again_refuted.

(** The value is prescribed with factor 1, first derivatives with sigma, second derivatives with its square. *)
Theorem C80_phi : forall s r c, r < 6 -> c < 6 -> exists row x, nth_error (phiMat s) r = Some row /\ nth_error row c = Some x /\
  (x == if r =? c then (if c =? 0 then 1 else if c <? 3 then s else s * s) else 0)%Q.
Proof. exact phi_pf. Qed.
Print Assumptions C80_phi.

(** A fine and a coarse cubic patch. *)
Theorem C80_nonvacuous : piece_starts spB 2 3 (1 # 4, 1 # 4)%Q /\ smallest (1%Q :: lengths [(1 # 4, 1 # 4)]%Q) (1 # 4)%Q /\ norms [spB; spA] [3; 1]%Q /\
  (exists s, approxSigma [spB; spA] [2; 1] = Ok s /\ (s == 6)%Q) /\ (exists s, approxSigma [spA; spB] [1; 2] = Ok s /\ (s == 3 # 2)%Q) /\
  geo_starts2 3 spB (1 # 2, 1 # 2)%Q /\ geo_starts2 3 spA (1, 1)%Q /\ largest (lengths [(1 # 2, 1 # 2); (1, 1)]%Q) 1%Q /\ (exists s, surfSigma 0 [spB; spA] = Ok s /\ (s == 3 # 2)%Q) /\
  magnified 2 spA (evenPatch (both 3 []) [2; 0; 0; 2]%Q).
Proof. exact sigma_example_pf. Qed.
Print Assumptions C80_nonvacuous.

(** Degrees 2 and 3. *)
Theorem C80_degree_nonvacuous : exists b s s', nth_error (spPieces spUneven) 5 = Some b /\ sdeg (fst b) = 2 /\ sdeg (snd b) = 3 /\ nth_error (sknots (fst b)) 4 = Some (1 # 2)%Q /\ nth_error (sknots (snd b)) 4 = Some (1 # 3)%Q /\
  smallest [1; 1 # 2; 1 # 3]%Q (1 # 3)%Q /\ approxSigma [spUneven] [1] = Ok s /\ (s == 9)%Q /\ largest [3 # 4; 1]%Q 1%Q /\ surfSigma 0 [spUneven] = Ok s' /\ (s' == 3)%Q.
Proof. exact degree_example_pf. Qed.
Print Assumptions C80_degree_nonvacuous.
