(** Concrete hierarchical bases refined at the corner (0,0). *)
From Verif Require Import Common ListLemmas TopoModel BaseModel IndexSpec IndexProofs HierModel HierSpec HierProofs.

Definition fine_used (p nel e x : nat) : bool := let n := multi_size p nel in (multi_end p nel (x mod n) <=? e) && (multi_end p nel (x / n) <=? e).
Definition coarse_used (p nel e x : nat) : bool := let n := nel + p in negb ((simple_end nel (x mod n) <=? e) && (simple_end nel (x / n) <=? e)).
Definition ex0 (p nel r : nat) : hbasis :=
  let fl lev x := match lev with
                  | 0 => if coarse_used p nel (box p r) x then Some (2 * x) else None
                  | 1 => if fine_used p nel (box p r) x then Some (2 * x + 1) else None
                  | _ => None end in
  mkH 2 (fun _ => 1) (fun lev => if lev =? 0 then (nel + p, nel + p) else (multi_size p nel, multi_size p nel)) fl (fun _ => match fl 1 0 with Some y => Ok y | None => Err end).
Definition ex1 (p nel r : nat) : hbasis :=
  let fl lev x := match lev with
                  | 0 => if coarse_used p nel (box p r) x then Some (2 * x) else None
                  | 2 => if fine_used p (2 * nel) (2 * box p r) x then Some (2 * x + 1) else None
                  | _ => None end in
  mkH 2 (fun _ => 2) (fun lev => match lev with 0 => (nel + p, nel + p) | 1 => (multi_size p nel, multi_size p nel) | _ => (multi_size p (2 * nel), multi_size p (2 * nel)) end) fl
    (fun _ => match fl 2 0 with Some y => Ok y | None => Err end).

Lemma split_dist n a a' : a < n -> (a + n * a') mod n = a /\ (a + n * a') / n = a'.
Proof. intros L. rewrite (Nat.mul_comm n a'), Nat.mod_add, Nat.div_add, Nat.mod_small, Nat.div_small by lia. lia. Qed.
Lemma fine_at p nel e a a' : a < multi_size p nel -> fine_used p nel e (a + multi_size p nel * a') = true <-> multi_end p nel a <= e /\ multi_end p nel a' <= e.
Proof. intros L. unfold fine_used. cbv zeta. destruct (split_dist _ a a' L) as (-> & ->). rewrite andb_true_iff, !Nat.leb_le. reflexivity. Qed.
Lemma coarse_at p nel e a a' : a < nel + p -> coarse_used p nel e (a + (nel + p) * a') = true <-> ~ (simple_end nel a <= e /\ simple_end nel a' <= e).
Proof. intros L. unfold coarse_used. cbv zeta. destruct (split_dist _ a a' L) as (-> & ->). rewrite negb_true_iff, <- Bool.not_true_iff_false, andb_true_iff, !Nat.leb_le. reflexivity. Qed.
Lemma some_if (q : bool) (x : nat) : (if q then Some x else None) <> None <-> q = true.
Proof. destruct q; split; congruence || discriminate || auto. Qed.
Lemma box_pos p r : 1 <= box p r.
Proof. unfold box. pose proof (Nat.pow_nonzero 2 r ltac:(lia)). destruct (p <? 4); lia. Qed.
Lemma first_fine p nel e : 1 <= e -> 2 <= p -> fine_used p nel e 0 = true.
Proof.
  intros L P. assert (Z : 0 < multi_size p nel) by (unfold multi_size; lia). pose proof (proj2 (fine_at p nel e 0 0 Z)) as F. rewrite Nat.mul_0_r in F. apply F. unfold multi_end. rewrite Nat.div_0_l by lia. lia.
Qed.

Lemma ex0_ok p nel r : 2 <= p -> dpatch0 (ex0 p nel r) SW p nel r.
Proof.
  intros P. constructor; [|reflexivity|reflexivity]. constructor.
  - reflexivity.
  - cbn. lia.
  - intros lev d [->| ->]; destruct d; cbn; unfold multi_size; lia.
  - unfold at_dist. cbn [ex0 hten hflat hcorner Nat.eqb fst snd]. rewrite Nat.mul_0_r. cbn [Nat.add]. intros x E. rewrite E. reflexivity.
  - unfold at_dist. cbn [ex0 hten hflat hcorner Nat.eqb fst snd]. rewrite Nat.mul_0_r. cbn [Nat.add]. apply some_if. apply first_fine; [apply box_pos|exact P].
  - intros a a' L L'. unfold at_dist. cbn [ex0 hten hflat hcorner Nat.eqb fst snd] in *. rewrite some_if. apply fine_at. exact L.
  - intros a a' L L'. unfold at_dist. cbn [ex0 hten hflat hcorner Nat.eqb fst snd] in *. rewrite some_if. apply coarse_at. exact L.
  - intros lev d k k' L. unfold dpatch_end, simple_end, multi_end. destruct (lev =? 0); [lia|]. pose proof (Nat.div_le_mono k k' (p - 1) ltac:(lia) L). lia.
Qed.
Lemma ex1_ok p nel r : 2 <= p -> dpatch1 (ex1 p nel r) SW p nel r.
Proof.
  intros P. constructor; try reflexivity.
  - unfold at_dist. cbn [ex1 hten hflat hcorner fst snd]. rewrite Nat.mul_0_r. cbn [Nat.add]. intros x E. rewrite E. reflexivity.
  - intros a a' L L'. unfold at_dist. cbn [ex1 hten hflat hcorner fst snd] in *. rewrite some_if. apply fine_at. exact L.
Qed.

(** quartic functions, one element refined: in the second row the functions of the coarser level start at the corner again *)
Theorem order_pf : exists (b : hbasis) (i j y y' : nat),
  dpatch0 b SW 4 4 0 /\ i < j /\
  hflat b 1 (at_side (hten b 1) SW South i 1) = Some y /\ indexFromVertH b i SW South 1 = Ok y /\
  hflat b 0 (at_side (hten b 0) SW South 0 1) = Some y' /\ indexFromVertH b j SW South 1 = Ok y'.
Proof. exists (ex0 4 4 0), 2, 3. eexists. eexists. split; [apply ex0_ok; lia|]. split; [lia|]. repeat split; vm_compute; reflexivity. Qed.

Theorem nonvacuous_pf : forall p nel r, 2 <= p -> box p r <= nel ->
  dpatch0 (ex0 p nel r) SW p nel r /\ dpatch1 (ex1 p nel r) SW p nel r /\ touches SW South /\
  map (fun i => indexFromVertH (ex0 2 4 0) i SW South 1) [0; 1; 2; 3; 5; 6] = [Ok 13; Ok 15; Ok 16; Ok 18; Ok 22; Err] /\
  map (fun i => indexFromVertH (ex0 3 4 0) i SW West 0) [0; 2; 3; 4; 6; 7; 8; 9] = [Ok 1; Ok 41; Ok 61; Ok 28; Ok 56; Ok 70; Ok 84; Err] /\
  map (fun i => indexFromVertH (ex1 3 4 0) i SW South 1) [0; 3; 7; 8] = [Ok 37; Ok 43; Ok 51; Err].
Proof.
  intros p nel r P B. split; [now apply ex0_ok|]. split; [now apply ex1_ok|]. split; [exact Logic.I|]. repeat split; vm_compute; reflexivity.
Qed.
