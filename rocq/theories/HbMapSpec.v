(** What the property C75 says. *)
From Coq Require Import Reals.
From Verif Require Import Common TopoModel MapModel MapSpec MapTravelSpec MapAllModel MapAllSpec HbMapModel.
Open Scope Z_scope.

(** the tensor splines of one level on all patches, as a multi-patch basis of its own *)
Definition hlevel (H : hmp) (m : nat) : mpbes := mkMP (map (fun P => hpBase P m) (hps H)) (htop H) (hconf H m) (hkv H m) (hwt H).

(** the [k]-th tensor spline of level [m] on patch [p] belongs to the hierarchical basis *)
Definition act_in (H : hmp) (m p : nat) (k : Z) : Prop := exists P xs, nth_error (hps H) p = Some P /\ nth_error (hpX P) m = Some xs /\ In k xs.

(** place of a function within its patch, [d] functions away from side [s] and [e] away from the adjacent side [s2] *)
Definition place (b : mbase) (s : side) (d : Z) (s2 : side) (e : Z) : Z := fun_at [] 0 b s d s2 e.

(** A multi-patch basis of hierarchical splines with [n] functions to be coupled on either side of every interface. *)
Record hmp_ok (H : hmp) (n : Z) : Prop := {
  (* every level that occurs is, on its own, as required for tensor splines *)
  ho_level : forall m p P, nth_error (hps H) p = Some P -> (m < length (hpX P))%nat -> mp_ok (hlevel H m) n;
  (* the lists of active functions: existing functions, ascending; there is a tensor basis for every level *)
  ho_num : forall p P, nth_error (hps H) p = Some P -> (length (hpX P) <= hpNum P)%nat;
  ho_range : forall p P m xs k, nth_error (hps H) p = Some P -> nth_error (hpX P) m = Some xs -> In k xs -> 0 <= k < mb_size (hpBase P m);
  ho_asc : forall p P m xs i j, nth_error (hps H) p = Some P -> nth_error (hpX P) m = Some xs -> (i < j < length xs)%nat -> nth i xs 0 < nth j xs 0;
  (* matched interfaces: of the [n] functions in a row across an interface, on both sides, all or none are active *)
  ho_rows : forall m p b s s2 p' b' s' s2' d d' e, glued (mbs (hlevel H m)) (htop H) p b s s2 p' b' s' s2' -> 0 <= d < n -> 0 <= d' < n -> 0 <= e < asz b s ->
    act_in H m p (place b s d s2 e) -> act_in H m p' (place b' s' d' s2' e);
  (* at a special vertex the corner function is active on one level only *)
  ho_corner : forall m m' p P s s2, nth_error (hps H) p = Some P -> adjacent s s2 -> pSpec (hconf H m p) (cornerOf s s2) = true ->
    act_in H m p (place (hpBase P m) s 0 s2 0) -> act_in H m' p (place (hpBase P m') s 0 s2 0) -> m = m' }.

(** number of hierarchical splines on all patches *)
Definition hlocals (H : hmp) : Z := fold_right (fun P r => hsize P + r) 0 (hps H).

(** the first four of these requirements *)
Definition hmp_lists (H : hmp) (n : Z) : Prop :=
  (forall m p P, nth_error (hps H) p = Some P -> (m < length (hpX P))%nat -> mp_ok (hlevel H m) n) /\
  (forall p P, nth_error (hps H) p = Some P -> (length (hpX P) <= hpNum P)%nat) /\
  (forall p P m xs k, nth_error (hps H) p = Some P -> nth_error (hpX P) m = Some xs -> In k xs -> 0 <= k < mb_size (hpBase P m)) /\
  (forall p P m xs i j, nth_error (hps H) p = Some P -> nth_error (hpX P) m = Some xs -> (i < j < length xs)%nat -> nth i xs 0 < nth j xs 0).
(** at an interface the functions in the same place on both sides are active or not together *)
Definition mirrored (H : hmp) (n : Z) : Prop := forall m p b s s2 p' b' s' s2' d e, glued (mbs (hlevel H m)) (htop H) p b s s2 p' b' s' s2' -> 0 <= d < n -> 0 <= e < asz b s ->
  act_in H m p (place b s d s2 e) -> act_in H m p' (place b' s' d s2' e).
Definition rows_matched (H : hmp) (n : Z) : Prop := forall m p b s s2 p' b' s' s2' d d' e, glued (mbs (hlevel H m)) (htop H) p b s s2 p' b' s' s2' -> 0 <= d < n -> 0 <= d' < n -> 0 <= e < asz b s ->
  act_in H m p (place b s d s2 e) -> act_in H m p' (place b' s' d' s2' e).
Definition corners_once (H : hmp) : Prop := forall m m' p P s s2, nth_error (hps H) p = Some P -> adjacent s s2 -> pSpec (hconf H m p) (cornerOf s s2) = true ->
  act_in H m p (place (hpBase P m) s 0 s2 0) -> act_in H m' p (place (hpBase P m') s 0 s2 0) -> m = m'.

(** [y] is the number, among the hierarchical splines, of the active function with number [x] among the tensor splines of level [m] *)
Definition renum (H : hmp) (m : nat) (x y : Z) : Prop := exists p b u v, nth_error (mbs (hlevel H m)) p = Some b /\ 0 <= u < mb_u b /\ 0 <= v < mb_v b /\ act_in H m p (u + mb_u b * v) /\
  localIndexOf (mbs (hlevel H m)) p u v = Ok x /\ hlocalIndexOf H m p u v = Ok y.
