(** A concrete container of nine pieces. *)
From Verif Require Import Common TopoModel BaseModel ContainerModel ContainerSpec.

(** Point u activates the functions u and u+1 of every piece (modulo the size); value of function i at u: 10*u+i,
    derivative rows (i, u). *)
Definition ex_val (q k i : nat) (u : nat) : list Q :=
  match k with 0 => [inject_Z (Z.of_nat (10 * u + i))] | 1 => [inject_Z (Z.of_nat i); inject_Z (Z.of_nat u)] | _ => [] end.
Definition ex_m (k : nat) : nat := match k with 0 => 1 | 1 => 2 | _ => 0 end.
Definition ex_act (n u : nat) : list nat := if S u <? n then [u; S u] else [0].
Definition ex_piece (nu nv : nat) : cpiece nat (nat * nat) :=
  mkCP (nu, nv) (nu - 1, 2) (ex_act (nu * nv)) (fun k u => concat (map (fun i => ex_val 0 k i u) (ex_act (nu * nv) u))) (fun i => (i, nu)).
Definition ex_container : list (cpiece nat (nat * nat)) :=
  [ex_piece 4 4; ex_piece 2 3; ex_piece 3 2; ex_piece 2 2; ex_piece 4 2; ex_piece 2 2; ex_piece 3 3; ex_piece 2 3; ex_piece 2 4].

Lemma ex_piece_ok nu nv : 0 < nu * nv -> piece_ok ex_m (ex_val 0) (ex_piece nu nv).
Proof.
  intros H. constructor; cbn [cp_act cp_tb ex_piece fst snd cp_rows].
  - intros u i. unfold ex_act. destruct (S u <? nu * nv) eqn:E.
    + apply Nat.ltb_lt in E. cbn. intuition lia.
    + cbn. intuition lia.
  - intros u. unfold ex_act. destruct (S u <? nu * nv); repeat constructor; cbn; intuition lia.
  - reflexivity.
  - intros [|[|k]] i u; reflexivity.
Qed.

Lemma ex_container_ok p b : nth_error ex_container p = Some b -> piece_ok ex_m (ex_val p) b.
Proof.
  intros E. assert (H : exists nu nv, 0 < nu * nv /\ b = ex_piece nu nv).
  { do 9 (destruct p as [|p]; [cbn in E; injection E as <-; eexists _, _; split; [|reflexivity]; cbn; lia|]). destruct p; discriminate. }
  destruct H as (nu & nv & H & ->). exact (ex_piece_ok nu nv H).
Qed.

Lemma ex_container_facts :
  length ex_container = 9 /\ (forall p b, nth_error ex_container p = Some b -> piece_ok ex_m (ex_val p) b) /\
  (forall p b, nth_error ex_container p = Some b -> touches South p -> 1 < across (cp_tb b) South /\ 0 < fst (cp_tb b)) /\
  csize ex_container = 67 /\ nth_error (cactive ex_container 2) 3 = Some 19 /\ nth_error (all_funs ex_container) 19 = Some (1, 3) /\
  nth_error (crows ex_container 0 2) 3 = Some (inject_Z 23) /\ cboundaryOffset ex_container South 1 = Ok [30; 31; 42; 43; 47; 48; 49] /\
  cfunctionAtCorner ex_container NE = Ok 66 /\ csupport ex_container 3 = Ok (3, 4).
Proof.
  split; [reflexivity|]. split; [exact ex_container_ok|]. split.
  - intros p b E. do 9 (destruct p as [|p]; [cbn in E; injection E as <-; cbn; lia|]). destruct p; discriminate.
  - repeat split.
Qed.

Lemma ex_support_wrong : nth_error (all_funs ex_container) 20 = Some (1, 4) /\ csupport ex_container 20 = Err.
Proof. split; reflexivity. Qed.
