(** Lemmas for C21 about concrete schemes. *)
From Verif Require Import Common TopoModel BaseModel RefModel RefSpec RefExamples.

Lemma nel_values RL d :
  (d < 4 -> rfnel (dpatchRef RL) d = 2 * 2 ^ RL) /\ (4 <= d -> rfnel (dpatchRef RL) d = 2 ^ RL) /\ rfnel almostRef d = 1.
Proof.
  cbn [dpatchRef almostRef rfnel]. destruct (Nat.ltb_spec d 4); repeat split; intros; lia.
Qed.

Lemma release_boxes : exists boxes b,
  refBoxes 100 (mkRS (rfnel (dpatchRef 1)) false) ref_three ref_start = Ok boxes /\
  nth_error boxes 0 = Some b /\ (exists rest, b = [0; 0; 0; 4; 4]%Z ++ rest) /\
  ~ box_inside 4 2 [0; 0; 0; 4; 4]%Z.
Proof.
  do 2 eexists. split; [vm_compute; reflexivity|]. split; [reflexivity|]. split.
  - eexists. reflexivity.
  - intros (l0 & l1 & u0 & u1 & E & H). injection E as <- <- <- <-. lia.
Qed.
