(** C86: the L2 projections of the gluing data and of the functions at a vertex. *)
From Coq Require Import Reals.
From Verif Require Import Common SplineModel AsmModel BihModel BihSpec EdgeModel EdgeSpec EdgeExamples ProjModel ProjSpec ProjProofs ProjExamples.
Open Scope R_scope.

(** The projection of a function succeeds and is closest to it among all splines; a function that is a spline in the nodes keeps its coefficients. *)
Theorem C86_projection : forall solver : nat -> (nat -> nat -> R) -> (nat -> R) -> nat -> R,
  forall n els f g, acts_ok n els -> free_solver solver n els -> weights_pos els -> has_values els f g ->
  exists c, projectOne solver n els f = Ok c /\ length c = n /\ closest els g c /\ forall d, sees_all n els -> is_spline els g d -> coefs_are n c d.
Proof. exact one_pf. Qed.
Print Assumptions C86_projection.

(** The projection of a combination is the combination of the projections. *)
Theorem C86_linear : forall solver : nat -> (nat -> nat -> R) -> (nat -> R) -> nat -> R,
  forall n els f1 f2 f3 g1 g2 x y c1 c2 c3, acts_ok n els -> free_solver solver n els -> weights_pos els -> sees_all n els ->
  has_values els f1 g1 -> has_values els f2 g2 -> has_values els f3 (fun p => x * g1 p + y * g2 p) ->
  projectOne solver n els f1 = Ok c1 -> projectOne solver n els f2 = Ok c2 -> projectOne solver n els f3 = Ok c3 -> forall i, (i < n)%nat -> nth i c3 0 = x * nth i c1 0 + y * nth i c2 0.
Proof. exact linear_pf. Qed.
Print Assumptions C86_linear.

(** setGlobalGluingData: the entries of the direction become the best approximations of alpha and beta, other entries stay. *)
Theorem C86_gluing : forall solver : nat -> (nat -> nat -> R) -> (nat -> R) -> nat -> R,
  forall n els alpha beta ga gb dir As Bs, acts_ok n els -> free_solver solver n els -> weights_pos els -> has_values els alpha ga -> has_values els beta gb ->
  (dir < length As)%nat -> (dir < length Bs)%nat ->
  exists As' Bs' a b, setGluingData solver n els alpha beta dir (As, Bs) = Ok (As', Bs') /\ length As' = length As /\ length Bs' = length Bs /\
    nth_error As' dir = Some a /\ nth_error Bs' dir = Some b /\ (forall k, k <> dir -> nth_error As' k = nth_error As k /\ nth_error Bs' k = nth_error Bs k) /\
    length a = n /\ length b = n /\ closest els ga a /\ closest els gb b /\
    (sees_all n els -> (forall d, is_spline els ga d -> coefs_are n a d) /\ (forall d, is_spline els gb d -> coefs_are n b d)).
Proof. exact gluing_pf. Qed.
Print Assumptions C86_gluing.

(** The six functions of a vertex, in order, each its own best approximation. *)
Theorem C86_vertex : forall solver : nat -> (nat -> nat -> R) -> (nat -> R) -> nat -> R,
  forall n els fs gs, acts_ok n els -> free_solver solver n els -> weights_pos els -> (forall j, (j < 6)%nat -> has_values els (fs j) (gs j)) ->
  exists cs, vertexFunctions solver n els fs = Ok cs /\ length cs = 6%nat /\ forall j, (j < 6)%nat -> exists c, nth_error cs j = Some c /\ length c = n /\ closest els (gs j) c /\
    projectOne solver n els (fs j) = Ok c /\ forall d, sees_all n els -> is_spline els (gs j) d -> coefs_are n c d.
Proof. exact vertex_pf. Qed.
Print Assumptions C86_vertex.

(** The hypotheses hold in an example with one function that is a spline and one that is not. *)
Theorem C86_nonvacuous : acts_ok 2 pjEls /\ free_solver cramer 2 pjEls /\ weights_pos pjEls /\ sees_all 2 pjEls /\ is_spline pjEls pjA (two 2 6) /\ (~ exists d, is_spline pjEls pjB d) /\
  setGluingData cramer 2 pjEls (fun p => Ok (pjA p)) (fun p => Ok (pjB p)) 1 ([[7]; []], [[8]; []]) = Ok ([[7]; [2; 6]], [[8]; [- / 6; 5 / 6]]) /\
  vertexFunctions cramer 2 pjEls (fun j p => Ok (INR j * pjA p)) = Ok (map (fun j => [INR j * 2; INR j * 6]) (seq 0 6)).
Proof. exact pj_ok. Qed.
Print Assumptions C86_nonvacuous.
