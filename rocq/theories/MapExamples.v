(** Concrete configurations for the map properties. *)
From Verif Require Import Common TopoModel MapModel MapSpec.
Open Scope Z_scope.

Definition ex_bases : list mbase := [mkMB 3 4 2 2; mkMB 5 2 2 1; mkMB 4 4 3 3].

(** a patch of 8 x 7 functions of degree 2 with two interfaces, one special corner and one regular corner *)
Definition ex_conf : pconf :=
  mkPC 8 7 2 2 (fun s => match s with South | West => true | _ => false end)
       (fun c => match c with SE => true | _ => false end)
       (fun c => match c with SW => 2 | SE => 3 | _ => 0 end)
       (fun c => match c with SW => 2 | SE => 2 | _ => 0 end) false.

Lemma ex_conf_ok : conf_ok ex_conf.
Proof. constructor; try (cbn; intuition lia). intros []; cbn; lia. Qed.

(** special vertex on the boundary whose distance exceeds the degree: the corner block overlaps the middle *)
Definition bad_conf : pconf :=
  mkPC 8 8 2 2 (fun s => match s with South => true | _ => false end)
       (fun c => match c with SW => true | _ => false end)
       (fun c => match c with SW => 3 | _ => 0 end)
       (fun c => match c with SW => 3 | _ => 0 end) false.

Lemma bad_conf_twice : ~ NoDup (map fst (patchActions bad_conf)).
Proof.
  intros N.
  assert (C : countb (fun x => (fst x =? 0) && (snd x =? 2)) (map fst (patchActions bad_conf)) = 2%nat) by (vm_compute; reflexivity).
  assert (G : forall l : list (Z * Z), NoDup l -> (countb (fun x => (fst x =? 0)%Z && (snd x =? 2)%Z) l <= 1)%nat).
  { clear. induction l as [|x l IH]; intros N; [cbn; lia|]. apply NoDup_cons_iff in N. destruct N as (N & Nl). specialize (IH Nl).
    unfold countb in *. cbn [filter]. destruct ((fst x =? 0) && (snd x =? 2)) eqn:E; [|exact IH]. cbn [length].
    replace (filter (fun x => (fst x =? 0) && (snd x =? 2)) l) with (@nil (Z * Z)); [cbn; lia|].
    destruct (filter (fun x => (fst x =? 0) && (snd x =? 2)) l) as [|y r] eqn:F; [reflexivity|]. exfalso. apply N.
    assert (Iy : In y (filter (fun x => (fst x =? 0) && (snd x =? 2)) l)) by (rewrite F; now left).
    apply filter_In in Iy. destruct Iy as (Iy & Ey). destruct x, y; cbn in *.
    replace (z, z0) with (z1, z2); [exact Iy|]. f_equal; lia. }
  specialize (G _ N). lia.
Qed.

Example numbering_ex : firstLocalIndex ex_bases 2 = Ok 22 /\ lastLocalIndex ex_bases 1 = Ok 21 /\ getPatch ex_bases 21 = 1%nat /\
  getPatchIndex ex_bases 21 = Ok 9 /\ nrOfLocals ex_bases = 38 /\ getPatch ex_bases 38 = 3%nat /\ firstLocalIndex ex_bases 4 = Err.
Proof. repeat split. Qed.

Example block_points_ex : blockPoints 6 [1; 2] [0; 0] = Ok [[0; 0]; [1; 0]; [0; 1]; [1; 1]; [0; 2]; [1; 2]].
Proof. reflexivity. Qed.

Definition action_at (c : pconf) (x : Z * Z) : list act :=
  map snd (filter (fun y => (fst (fst y) =? fst x) && (snd (fst y) =? snd x)) (patchActions c)).

Example regions_ex : length (patchActions ex_conf) = 56%nat /\ action_at ex_conf (0, 1) = [Block South West 2 2 1 0] /\
  action_at ex_conf (7, 0) = [Singular] /\ action_at ex_conf (4, 1) = [Line South 2 1] /\ action_at ex_conf (1, 5) = [Line West 2 1] /\
  action_at ex_conf (5, 5) = [Free] /\ action_at bad_conf (0, 2) = [Free; Free].
Proof. vm_compute. repeat split. Qed.

Lemma bad_conf_refutes : 2 * pdu bad_conf <= pU bad_conf /\ 2 * pdv bad_conf <= pV bad_conf /\ 0 < pdu bad_conf /\ 0 < pdv bad_conf /\ pOne bad_conf = false /\
  (forall x, 0 <= pH bad_conf x <= 3 /\ 0 <= pW bad_conf x <= 3) /\ ~ NoDup (map fst (patchActions bad_conf)).
Proof.
  split; [cbn; lia|]. split; [cbn; lia|]. split; [cbn; lia|]. split; [cbn; lia|]. split; [reflexivity|].
  split; [intros []; cbn; lia|exact bad_conf_twice].
Qed.
