(** Proofs for C83: best approximation and exact reproduction. *)
From Coq Require Import Reals Lra ZifyBool.
From Verif Require Import Common SplineModel GluingModel SurfGDSpec SurfGDProofs KernProofs KernProofs2 ListLemmas AsmModel AsmSpec AsmProofs AsmProofs2 BihModel BihSpec BihProofs BihProofs2 EdgeModel EdgeSpec EdgeProofs.
Open Scope R_scope.
Local Notation row := GluingModel.row.

Lemma dist_split els g c d : distance2 els g d = distance2 els g c + 2 * (lhsE els c (fun i => d i - c i) - rhsE els g (fun i => d i - c i)) +
  total (fun n => qw (snd n) * (comb (fst n) (qv (snd n)) (fun i => d i - c i) * comb (fst n) (qv (snd n)) (fun i => d i - c i))) (nodes els).
Proof. unfold distance2, lhsE, rhsE. rewrite <- total_sub, <- total_scal, <- !total_add. apply total_ext. intros k _. rewrite comb_sub. ring. Qed.

Definition clip (nu nv dir : nat) (c : nat -> R) (i : nat) : R := if (i <? nu * nv)%nat then if (layer nu dir i <? 2)%nat then c i else 0 else 0.
Lemma clip_two nu nv dir c : two_layers nu dir (clip nu nv dir c).
Proof. intros i H. unfold clip. replace (layer nu dir i <? 2)%nat with false by lia. now destruct (i <? nu * nv)%nat. Qed.
Lemma node_acts {A} n (els : list (list nat * list A)) k a : acts_ok n els -> In k (nodes els) -> In a (fst k) -> (a < n)%nat.
Proof. intros O I J. unfold nodes in I. apply in_flat_map in I. destruct I as (e & E & I). apply in_map_iff in I. destruct I as (q & <- & _). exact (O e a E J). Qed.
Lemma comb_clip nu nv dir c els n : acts_ok (nu * nv) els -> In n (nodes els) -> (forall i, (i < nu * nv)%nat -> (2 <= layer nu dir i)%nat -> c i = 0) ->
  comb (fst n) (qv (snd n)) (clip nu nv dir c) = comb (fst n) (qv (snd n)) c.
Proof.
  intros O I Z. apply comb_ext. intros a J. pose proof (node_acts _ els n a O I J) as L. unfold clip. replace (a <? nu * nv)%nat with true by lia.
  destruct (Nat.ltb_spec (layer nu dir a) 2) as [G|G]; [reflexivity|]. symmetry. now apply Z.
Qed.

Theorem projection_pf : forall solver nu nv dir els comp bp bm alpha beta bdy, acts_ok (nu * nv) els -> edge_solver solver nu nv dir els ->
  (forall k n, (k < how_many bp bm)%nat -> In n (nodes els) -> exists y, target comp bp bm alpha beta bdy dir k (qx (snd n)) = Ok y) ->
  exists cs, edgeFunctionsOf solver nu nv dir els comp bp bm alpha beta bdy = Ok cs /\ length cs = how_many bp bm /\
    forall k, (k < how_many bp bm)%nat -> exists c, nth_error cs k = Some c /\ length c = (nu * nv)%nat /\ (forall i, (i < nu * nv)%nat -> (2 <= layer nu dir i)%nat -> nth i c 0 = 0) /\
      forall g, weights_pos els -> (forall n, In n (nodes els) -> target comp bp bm alpha beta bdy dir k (qx (snd n)) = Ok (g (qx (snd n)))) ->
      forall d, two_layers nu dir d -> distance2 els g (fun i => nth i c 0) <= distance2 els g d.
Proof.
  intros solver nu nv dir els comp bp bm alpha beta bdy A SG T. destruct (all_ok solver nu nv dir els comp bp bm alpha beta bdy A SG T) as (cs & E & L & P). exists cs. split; [exact E|]. split; [exact L|].
  intros k K. destruct (P k K) as (c & N & LC & Z & Q). exists c. split; [exact N|]. split; [exact LC|]. split; [exact Z|]. intros g W G d D.
  set (u := fun i => nth i c 0) in *. set (v := clip nu nv dir u).
  assert (CL : forall n, In n (nodes els) -> comb (fst n) (qv (snd n)) v = comb (fst n) (qv (snd n)) u) by (intros n I; now apply (comb_clip nu nv dir u els n)).
  assert (E1 : distance2 els g u = distance2 els g v) by (unfold distance2; apply total_ext; intros n I; now rewrite (CL n I)).
  assert (E2 : lhsE els v (fun i => d i - v i) = rhsE els g (fun i => d i - v i)).
  { rewrite <- (Q g G) by (intros i H; rewrite (D i H), (clip_two nu nv dir u i H : v i = 0); ring). unfold lhsE. apply total_ext. intros n I. now rewrite (CL n I). }
  rewrite E1, (dist_split els g v d), E2.
  assert (0 <= total (fun n => qw (snd n) * (comb (fst n) (qv (snd n)) (fun i => d i - v i) * comb (fst n) (qv (snd n)) (fun i => d i - v i))) (nodes els)) by (apply total_nonneg; intros n I; apply Rmult_le_pos; [apply Rlt_le, W, I|apply sq_pos]).
  lra.
Qed.

(** a combination equal to the target is the result *)
Lemma exact_core solver nu nv dir els comp bp bm alpha beta bdy : acts_ok (nu * nv) els -> edge_solver solver nu nv dir els -> weights_pos els -> sees nu nv dir els ->
  (forall k n, (k < how_many bp bm)%nat -> In n (nodes els) -> exists y, target comp bp bm alpha beta bdy dir k (qx (snd n)) = Ok y) ->
  exists cs, edgeFunctionsOf solver nu nv dir els comp bp bm alpha beta bdy = Ok cs /\ length cs = how_many bp bm /\
    forall k, (k < how_many bp bm)%nat -> exists c, nth_error cs k = Some c /\ length c = (nu * nv)%nat /\
      forall d, two_layers nu dir d -> (forall n, In n (nodes els) -> target comp bp bm alpha beta bdy dir k (qx (snd n)) = Ok (comb (fst n) (qv (snd n)) d)) -> forall i, (i < nu * nv)%nat -> nth i c 0 = d i.
Proof.
  intros A SG W V T. destruct (all_ok solver nu nv dir els comp bp bm alpha beta bdy A SG T) as (cs & E & L & P). exists cs. split; [exact E|]. split; [exact L|].
  intros k K. destruct (P k K) as (c & N & LC & Z & Q). exists c. split; [exact N|]. split; [exact LC|]. intros d D G.
  set (f := target comp bp bm alpha beta bdy dir k) in *. set (g := fun x => match f x with Ok y => y | Err => 0 end).
  assert (GG : forall n, In n (nodes els) -> g (qx (snd n)) = comb (fst n) (qv (snd n)) d) by (intros n I; unfold g; now rewrite (G n I)).
  set (u := fun i => nth i c 0) in *. set (v := clip nu nv dir u). set (e := fun i => v i - d i).
  assert (TE : two_layers nu dir e) by (intros i H; unfold e; rewrite (D i H); rewrite (clip_two nu nv dir u i H : v i = 0); ring).
  assert (CL : forall n, In n (nodes els) -> comb (fst n) (qv (snd n)) v = comb (fst n) (qv (snd n)) u) by (intros n I; now apply (comb_clip nu nv dir u els n)).
  assert (EQ : lhsE els u e = rhsE els g e) by (apply Q; [intros n I; rewrite (GG n I); exact (G n I)|exact TE]).
  assert (ZR : total (fun n => qw (snd n) * (comb (fst n) (qv (snd n)) e * comb (fst n) (qv (snd n)) e)) (nodes els) = 0).
  { transitivity (lhsE els u e - rhsE els g e); [|lra]. unfold lhsE, rhsE. rewrite <- total_sub. apply total_ext. intros n I. rewrite (GG n I). unfold e at 1. rewrite comb_sub, (CL n I). ring. }
  assert (ZE : forall n, In n (nodes els) -> comb (fst n) (qv (snd n)) e = 0).
  { intros n I. assert (X : qw (snd n) * (comb (fst n) (qv (snd n)) e * comb (fst n) (qv (snd n)) e) = 0).
    { apply (total_pos_zero (fun n => qw (snd n) * (comb (fst n) (qv (snd n)) e * comb (fst n) (qv (snd n)) e)) (nodes els)); [intros q J; apply Rmult_le_pos; [apply Rlt_le, W, J|apply sq_pos]|exact ZR|exact I]. }
    specialize (W n I). apply Rmult_integral in X. destruct X as [X|X]; [lra|]. apply Rmult_integral in X. tauto. }
  intros i Li. pose proof (V e TE ZE i Li) as X. unfold e, v, clip in X. replace (i <? nu * nv)%nat with true in X by lia. fold (u i).
  destruct (Nat.ltb_spec (layer nu dir i) 2) as [B|B]; [lra|]. unfold u. rewrite (Z i Li B). symmetry. now apply D.
Qed.

(** ** Tensor products *)
Lemma sumTo_split a b f : sumTo (a + b) f = sumTo a f + sumTo b (fun i => f (a + i)%nat).
Proof. induction b as [|b IH]; [rewrite Nat.add_0_r; cbn [sumTo]; ring|]. rewrite Nat.add_succ_r. cbn [sumTo]. rewrite IH. ring. Qed.
Lemma sumTo_grid n m f : sumTo (n * m) f = sumTo m (fun v => sumTo n (fun u => f (u + n * v)%nat)).
Proof.
  induction m as [|m IH]; [rewrite Nat.mul_0_r; reflexivity|]. replace (n * S m)%nat with (n * m + n)%nat by lia. rewrite sumTo_split, IH. cbn [sumTo]. f_equal. apply sumTo_ext. intros i _. f_equal. lia.
Qed.
Lemma grid_mod n u v : (u < n)%nat -> ((u + n * v) mod n = u /\ (u + n * v) / n = v)%nat.
Proof. intros L. rewrite (Nat.mul_comm n v). rewrite Nat.mod_add, Nat.div_add by lia. rewrite Nat.mod_small, Nat.div_small by lia. lia. Qed.
Lemma sum_layers nu nv dir (A B : nat -> R) (a c : nat -> R) : (2 <= across nu nv dir)%nat ->
  let h := fun i => match layer nu dir i with O => a (place nu dir i) | S O => c (place nu dir i) | _ => 0 end in
  let n := match dir with O => nu | _ => nv end in
  sumTo (nu * nv) (fun i => h i * (A (layer nu dir i) * B (place nu dir i))) = A 0%nat * sumTo n (fun j => a j * B j) + A 1%nat * sumTo n (fun j => c j * B j).
Proof.
  intros L h n. rewrite sumTo_grid. unfold h, n, layer, place, across in *.
  assert (T : forall (F : nat -> R) m, (2 <= m)%nat -> (forall k, (2 <= k)%nat -> F k = 0) -> sumTo m F = F 0%nat + F 1%nat).
  { intros F m G Z. replace m with (2 + (m - 2))%nat by lia. rewrite sumTo_split. rewrite (sumTo_zero (m - 2)) by (intros i _; apply Z; lia). cbn [sumTo]. ring. }
  destruct dir.
  - rewrite <- !sumTo_scal.
    transitivity (sumTo nv (fun v => sumTo nu (fun u => (match v with O => a u | S O => c u | _ => 0 end) * (A v * B u)))).
    { apply sumTo_ext. intros v _. apply sumTo_ext. intros u Lu. destruct (grid_mod nu u v Lu) as (-> & ->). reflexivity. }
    rewrite (T _ nv L) by (intros k G; apply sumTo_zero; intros u _; destruct k as [|[|k]]; [lia|lia|ring]). f_equal; apply sumTo_ext; intros; ring.
  - transitivity (sumTo nv (fun v => A 0%nat * (a v * B v) + A 1%nat * (c v * B v))); [|rewrite KernProofs.sumTo_add, !sumTo_scal; reflexivity].
    apply sumTo_ext. intros v _.
    transitivity (sumTo nu (fun u => (match u with O => a v | S O => c v | _ => 0 end) * (A u * B v))).
    { apply sumTo_ext. intros u Lu. destruct (grid_mod nu u v Lu) as (-> & ->). reflexivity. }
    rewrite (T _ nu L) by (intros k G; destruct k as [|[|k]]; [lia|lia|ring]). ring.
Qed.

(** evaluation of the functions *)
Lemma eval_ok b i x : (i < bsize b)%nat -> evalSingle b i x = Ok (bspl (tknot b) (sdeg b) i x).
Proof. intros L. unfold evalSingle, SplineModel.single. unfold bsize in L. replace (i + sdeg b + 1 <? length (sknots b))%nat with true by lia. reflexivity. Qed.
Lemma deriv_ok b i x : (i < bsize b)%nat -> derivSingle b i x = Ok (dbspl (tknot b) (sdeg b) i x).
Proof. intros L. unfold derivSingle, SplineModel.single. unfold bsize in L. replace (i + sdeg b + 1 <? length (sknots b))%nat with true by lia. reflexivity. Qed.
Lemma tau_ok b : (2 <= bsize b)%nat -> vget (sknots b) (sdeg b + 1) = Ok (tknot b (sdeg b + 1)).
Proof. intros L. unfold bsize in L. unfold vget, tknot. rewrite (nth_error_nth' (sknots b) 0) by lia. reflexivity. Qed.
Lemma trace_ok comp bp beta bdy i dir x : let b := comp (1 - dir)%nat in (2 <= bsize b)%nat -> (i < bsize bp)%nat -> let y := row x dir in
  traceEval comp bp beta bdy i dir x = Ok (bspl (tknot b) (sdeg b) 0 (row x (1 - dir)) * bspl (tknot bp) (sdeg bp) i y +
    bspl (tknot b) (sdeg b) 1 (row x (1 - dir)) * (bspl (tknot bp) (sdeg bp) i y - (if bdy then 0 else beta y) * dbspl (tknot bp) (sdeg bp) i y * (tknot b (sdeg b + 1) / INR (sdeg b)))).
Proof.
  intros b Lb Li y. unfold traceEval. fold b. rewrite (tau_ok b Lb), !eval_ok, deriv_ok by lia. cbn [bind]. f_equal. fold y. unfold Rdiv. ring.
Qed.
Lemma normal_ok comp bm alpha bdy i dir x : let b := comp (1 - dir)%nat in (2 <= bsize b)%nat -> (i < bsize bm)%nat -> let y := row x dir in
  normalEval comp bm alpha bdy i dir x = Ok (bspl (tknot b) (sdeg b) 1 (row x (1 - dir)) *
    ((match dir with O => - (1) | _ => 1 end) * (if bdy then 1 else alpha y * (tknot b (sdeg b + 1) / INR (sdeg b))) * bspl (tknot bm) (sdeg bm) i y)).
Proof.
  intros b Lb Li y. unfold normalEval. fold b. rewrite (tau_ok b Lb), !eval_ok by lia. cbn [bind]. fold y. destruct bdy; f_equal; unfold Rdiv; ring.
Qed.

Theorem exact_edge_pf : forall solver nu nv dir els comp bp bm alpha beta bdy e, let b := comp (1 - dir)%nat in
  acts_ok (nu * nv) els -> edge_solver solver nu nv dir els -> weights_pos els -> sees nu nv dir els -> (2 <= bsize b)%nat -> across nu nv dir = bsize b -> across nv nu dir = bsize e -> evaluates nu nv dir b e els ->
  exists cs, edgeFunctionsOf solver nu nv dir els comp bp bm alpha beta bdy = Ok cs /\ length cs = how_many bp bm /\
    (forall i a c, (3 <= i < bsize bp - 3)%nat -> spline_along e dir els (fun y => bspl (tknot bp) (sdeg bp) i y) a ->
       spline_along e dir els (fun y => bspl (tknot bp) (sdeg bp) i y - (if bdy then 0 else beta y) * dbspl (tknot bp) (sdeg bp) i y * (tknot b (sdeg b + 1) / INR (sdeg b))) c ->
       exists r, nth_error cs (i - 3) = Some r /\ layers_are nu nv dir r a c) /\
    (forall i c, (2 <= i < bsize bm - 2)%nat ->
       spline_along e dir els (fun y => (match dir with O => - (1) | _ => 1 end) * (if bdy then 1 else alpha y * (tknot b (sdeg b + 1) / INR (sdeg b))) * bspl (tknot bm) (sdeg bm) i y) c ->
       exists r, nth_error cs (bsize bp - 6 + (i - 2)) = Some r /\ layers_are nu nv dir r (fun _ => 0) c).
Proof.
  intros solver nu nv dir els comp bp bm alpha beta bdy e b A SG W V Lb AC AL EV.
  destruct (exact_core solver nu nv dir els comp bp bm alpha beta bdy A SG W V) as (cs & E & L & P).
  { intros k n K I. unfold target. unfold how_many in K. destruct (Nat.ltb_spec k (bsize bp - 6)) as [G|G]; [rewrite trace_ok by (fold b; lia)|rewrite normal_ok by (fold b; lia)]; eexists; reflexivity. }
  exists cs. split; [exact E|]. split; [exact L|].
  assert (NE : (match dir with O => nu | _ => nv end) = bsize e) by (rewrite <- AL; unfold across; destruct dir; reflexivity).
  assert (TWO : forall a c, two_layers nu dir (fun i => match layer nu dir i with O => a (place nu dir i) | S O => c (place nu dir i) | _ => 0 end)) by (intros a c i H; destruct (layer nu dir i) as [|[|q]]; [lia|lia|reflexivity]).
  split.
  - intros i a c I HA HC. destruct (P (i - 3)%nat ltac:(unfold how_many; lia)) as (r & N & LR & Q). exists r. split; [exact N|]. split; [exact LR|]. apply Q; [apply TWO|].
    intros n In. unfold target. replace (i - 3 <? bsize bp - 6)%nat with true by lia. replace (3 + (i - 3))%nat with i by lia. rewrite trace_ok by (fold b; lia). f_equal. fold b.
    rewrite (EV n In). rewrite (sum_layers nu nv dir (fun k => bspl (tknot b) (sdeg b) k (row (qx (snd n)) (1 - dir))) (fun j => bspl (tknot e) (sdeg e) j (row (qx (snd n)) dir)) a c) by lia.
    rewrite NE. pose proof (HA n In) as H1. pose proof (HC n In) as H2. cbv beta zeta in H1, H2. rewrite H2, H1. reflexivity.
  - intros i c I HC. destruct (P (bsize bp - 6 + (i - 2))%nat ltac:(unfold how_many; lia)) as (r & N & LR & Q). exists r. split; [exact N|]. split; [exact LR|]. refine (Q _ (TWO (fun _ => 0) c) _).
    intros n In. unfold target. replace (bsize bp - 6 + (i - 2) <? bsize bp - 6)%nat with false by lia. replace (2 + (bsize bp - 6 + (i - 2) - (bsize bp - 6)))%nat with i by lia. rewrite normal_ok by (fold b; lia). f_equal. fold b.
    rewrite (EV n In). rewrite (sum_layers nu nv dir (fun k => bspl (tknot b) (sdeg b) k (row (qx (snd n)) (1 - dir))) (fun j => bspl (tknot e) (sdeg e) j (row (qx (snd n)) dir)) (fun _ => 0) c) by lia.
    rewrite NE. pose proof (HC n In) as H2. cbv beta zeta in H2. rewrite H2. rewrite (sumTo_zero _ (fun j => 0 * _)) by (intros; ring). ring.
Qed.

Theorem exact_setting_pf : forall solver nu nv dir els comp bp bm alpha beta bdy e, let b := comp (1 - dir)%nat in edge_setting solver nu nv dir els b e ->
  exists cs, edgeFunctionsOf solver nu nv dir els comp bp bm alpha beta bdy = Ok cs /\ length cs = how_many bp bm /\
    (forall i a c, (3 <= i < bsize bp - 3)%nat -> spline_along e dir els (bspl (tknot bp) (sdeg bp) i) a -> spline_along e dir els (trace_slope b bp beta bdy i) c ->
       exists r, nth_error cs (i - 3) = Some r /\ layers_are nu nv dir r a c) /\
    (forall i c, (2 <= i < bsize bm - 2)%nat -> spline_along e dir els (normal_slope b bm alpha bdy dir i) c ->
       exists r, nth_error cs (bsize bp - 6 + (i - 2)) = Some r /\ layers_are nu nv dir r (fun _ => 0) c).
Proof. intros solver nu nv dir els comp bp bm alpha beta bdy e b (H1 & H2 & H3 & H4 & H5 & H6 & H7 & H8). exact (exact_edge_pf solver nu nv dir els comp bp bm alpha beta bdy e H1 H2 H3 H4 H5 H6 H7 H8). Qed.

(** the layer at the edge has the same coefficients on both patches *)
Theorem interface_edge_pf : forall solver nu nv els nu' nv' els' comp comp' bp bm alpha beta alpha' beta' e, edge_setting solver nu nv 1 els (comp 0%nat) e -> edge_setting solver nu' nv' 0 els' (comp' 1%nat) e ->
  exists cs cs', edgeFunctionsOf solver nu nv 1 els comp bp bm alpha beta false = Ok cs /\ edgeFunctionsOf solver nu' nv' 0 els' comp' bp bm alpha' beta' false = Ok cs' /\ length cs = length cs' /\
    (forall i a c c', (3 <= i < bsize bp - 3)%nat -> spline_along e 1 els (bspl (tknot bp) (sdeg bp) i) a -> spline_along e 0 els' (bspl (tknot bp) (sdeg bp) i) a ->
       spline_along e 1 els (trace_slope (comp 0%nat) bp beta false i) c -> spline_along e 0 els' (trace_slope (comp' 1%nat) bp beta' false i) c' ->
       exists r r', nth_error cs (i - 3) = Some r /\ nth_error cs' (i - 3) = Some r' /\ forall j, (j < bsize e)%nat -> nth (nu * j) r 0 = a j /\ nth j r' 0 = a j) /\
    (forall i c c', (2 <= i < bsize bm - 2)%nat -> spline_along e 1 els (normal_slope (comp 0%nat) bm alpha false 1 i) c -> spline_along e 0 els' (normal_slope (comp' 1%nat) bm alpha' false 0 i) c' ->
       exists r r', nth_error cs (bsize bp - 6 + (i - 2)) = Some r /\ nth_error cs' (bsize bp - 6 + (i - 2)) = Some r' /\ forall j, (j < bsize e)%nat -> nth (nu * j) r 0 = 0 /\ nth j r' 0 = 0).
Proof.
  intros solver nu nv els nu' nv' els' comp comp' bp bm alpha beta alpha' beta' e S1 S2.
  destruct (exact_setting_pf solver nu nv 1 els comp bp bm alpha beta false e S1) as (cs & E & L & T & N). destruct (exact_setting_pf solver nu' nv' 0 els' comp' bp bm alpha' beta' false e S2) as (cs' & E' & L' & T' & N').
  exists cs, cs'. split; [exact E|]. split; [exact E'|]. split; [congruence|].
  destruct S1 as (_ & _ & _ & _ & B1 & A1 & A2 & _). destruct S2 as (_ & _ & _ & _ & B1' & A1' & A2' & _). cbn in B1, A1, A2, B1', A1', A2'.
  assert (I1 : forall j, (j < bsize e)%nat -> (nu * j < nu * nv)%nat /\ layer nu 1 (nu * j) = 0%nat /\ place nu 1 (nu * j) = j).
  { intros j J. unfold layer, place. destruct (grid_mod nu 0 j ltac:(lia)) as (M & D). cbn [Nat.add] in M, D. rewrite M, D. repeat split. nia. }
  assert (I2 : forall j, (j < bsize e)%nat -> (j < nu' * nv')%nat /\ layer nu' 0 j = 0%nat /\ place nu' 0 j = j).
  { intros j J. unfold layer, place. rewrite Nat.div_small, Nat.mod_small by lia. repeat split. nia. }
  split.
  - intros i a c c' I HA HA' HC HC'. destruct (T i a c I HA HC) as (r & R & _ & P). destruct (T' i a c' I HA' HC') as (r' & R' & _ & P'). exists r, r'. split; [exact R|]. split; [exact R'|]. intros j J.
    destruct (I1 j J) as (X1 & X2 & X3). destruct (I2 j J) as (Y1 & Y2 & Y3). rewrite (P _ X1), (P' _ Y1), X2, Y2, X3, Y3. split; reflexivity.
  - intros i c c' I HC HC'. destruct (N i c I HC) as (r & R & _ & P). destruct (N' i c' I HC') as (r' & R' & _ & P'). exists r, r'. split; [exact R|]. split; [exact R'|]. intros j J.
    destruct (I1 j J) as (X1 & X2 & X3). destruct (I2 j J) as (Y1 & Y2 & Y3). rewrite (P _ X1), (P' _ Y1), X2, Y2. split; reflexivity.
Qed.
