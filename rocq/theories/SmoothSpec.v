(** Specification for gsSmoothInterfaces: admissible inputs. *)
From Verif Require Import Common TopoModel BaseModel IndexSpec TopoSpec.

(** Two patch corners that are identified by one interface. *)
Definition glued_corners (t : topo) (a b : pcorner) : Prop :=
  exists f u, In f (tif t) /\
    a = (fst (if1 f), corner_at (snd (if1 f)) u) /\
    b = (fst (if2 f), corner_at (snd (if2 f)) (xorb (ifflip f) u)).

Record well_formed (I : input) : Prop := {
  wf_topo : consistent (itopo I);
  wf_np : tnp (itopo I) = length (ibases I);
  wf_big : forall b, In b (ibases I) -> 4 <= fst b /\ 4 <= snd b;
  wf_match : forall f b1 b2, In f (tif (itopo I)) ->
    nth_error (ibases I) (fst (if1 f)) = Some b1 -> nth_error (ibases I) (fst (if2 f)) = Some b2 ->
    along (snd (if1 f)) (fst b1) (snd b1) = along (snd (if2 f)) (fst b2) (snd b2);
  wf_C0_length : length (iC0 I) = 4 * length (ibases I);
  (** sharpness is a property of the vertex, not of the patch corner *)
  wf_C0_vertex : forall a b, glued_corners (itopo I) a b ->
    nth_error (iC0 I) (vertIndex a) = nth_error (iC0 I) (vertIndex b);
  (** the number of functions is representable in size_t *)
  wf_fits : (Z.of_nat (sumN (map tsize (ibases I))) < 2 ^ 64)%Z
}.
