(** Property theorems about the assembled C1 bases: C26, C27 (gsApproxC1Spline), C46, C47 (gsC1SurfSpline). *)
From Verif Require Import Common TopoModel BaseModel C1Model C1Spec C1Proofs C1Examples.

(** C26: rows reserved by init() = rows filled by compute() = number of functions of the space; compute() finds every
    position it writes to. *)
Theorem C26_rows : forall I Ni Nb, approx_wf I -> approx_dims I Ni Nb ->
  c1init I = Ok (Z.of_nat (length (all_functions I Ni Nb)), length (all_columns I)) /\
  exists M, c1compute I = Ok (length (all_functions I Ni Nb), M).
Proof. exact approx_rows. Qed.
Print Assumptions C26_rows.

Example C26_nonvacuous : approx_wf two_c1 /\ approx_dims two_c1 two_Ni two_Nb /\
  length (all_functions two_c1 two_Ni two_Nb) = 64 /\ length (all_columns two_c1) = 141.
Proof. exact two_c1_facts. Qed.

(** A patch with 3 x 3 functions: one row too many is reserved, (3-4)*(3-4) = 1. *)
Theorem C26_small_patch_refuted : exists I M, forallb (fun b => 3 <=? kvsize (fst b)) (c1basis I) = true /\
  c1init I = Ok (25%Z, 25) /\ c1compute I = Ok (24, M).
Proof. exact small33_rows. Qed.
Print Assumptions C26_small_patch_refuted.

(** A patch with 3 x 5 functions: one row too few is reserved and the last row is written out of range. *)
Theorem C26_small_patch_out_of_range_refuted : exists I M, forallb (fun b => 3 <=? kvsize (fst b)) (c1basis I) = true /\
  c1init I = Ok (23%Z, 31) /\ c1writes I = Ok (24, M) /\ c1compute I = Err.
Proof. exact small35_rows. Qed.
Print Assumptions C26_small_patch_out_of_range_refuted.

(** C27: the entry in the row of a function and the column of a local basis function is the coefficient of the function
    there; no position is inserted twice. *)
Theorem C27_coefficients : forall I Ni Nb M, approx_wf I -> approx_dims I Ni Nb ->
  c1compute I = Ok (length (all_functions I Ni Nb), M) ->
  NoDup (map fst M) /\
  (forall e, In e M -> fst (fst e) < length (all_functions I Ni Nb) /\ snd (fst e) < length (all_columns I)) /\
  (forall r c F x, nth_error (all_functions I Ni Nb) r = Some F -> nth_error (all_columns I) c = Some x ->
     (mget M r c == coef_value false I F x)%Q).
Proof. exact approx_coefficients. Qed.
Print Assumptions C27_coefficients.

Example C27_nonvacuous :
  nth_error (all_functions two_c1 two_Ni two_Nb) 15 = Some (FIface 0 (false, 2)) /\
  nth_error (all_columns two_c1) 117 = Some (1, 1, 1) /\ coef_value false two_c1 (FIface 0 (false, 2)) (1, 1, 1) = (221 # 1)%Q.
Proof. exact two_c1_entry. Qed.

(** Columns of different patches and pieces are different. *)
Theorem C27_columns_disjoint : forall I, NoDup (all_columns I).
Proof. exact columns_nodup. Qed.
Print Assumptions C27_columns_disjoint.

(** C46: the same for gsC1SurfSpline, when every edge space keeps at least six functions ... *)
Theorem C46_rows : forall I Ni Nb, surf_wf I -> surf_dims 6 I Ni Nb ->
  surfInit I = Ok (Z.of_nat (length (all_functions I Ni Nb)), length (all_columns I)) /\
  exists M, surfCompute I = Ok (length (all_functions I Ni Nb), M).
Proof. exact surf_rows. Qed.
Print Assumptions C46_rows.

Example C46_nonvacuous : surf_wf surf_two /\ surf_dims 6 surf_two (fun _ => 6) (fun _ => 6) /\
  length (all_functions surf_two (fun _ => 6) (fun _ => 6)) = 67.
Proof. exact surf_two_facts. Qed.

(** ... and only then: otherwise fewer rows are reserved than filled. *)
Theorem C46_rows_only_if : forall I Ni Nb, surf_wf I -> surf_dims 0 I Ni Nb ->
  exists rows, surfInit I = Ok (rows, length (all_columns I)) /\
    (rows <= Z.of_nat (length (all_functions I Ni Nb)))%Z /\
    (rows = Z.of_nat (length (all_functions I Ni Nb)) <-> surf_dims 6 I Ni Nb).
Proof. exact surf_rows_iff. Qed.
Print Assumptions C46_rows_only_if.

(** The size check of init() does not ensure it: degree 3 with one double inner knot. *)
Theorem C46_size_check_refuted : exists I M, surf_wf I /\ surf_dims 0 I (fun _ => 5) (fun _ => 5) /\
  surfInit I = Ok (24%Z, 36) /\ surfWrites I = Ok (28, M) /\ surfCompute I = Err.
Proof. exact surf_one_rows. Qed.
Print Assumptions C46_size_check_refuted.

(** C47: entries of the gsC1SurfSpline matrix (equal positions add up). *)
Theorem C47_coefficients : forall I Ni Nb M, surf_wf I -> surf_dims 6 I Ni Nb ->
  surfCompute I = Ok (length (all_functions I Ni Nb), M) ->
  (forall e, In e M -> fst (fst e) < length (all_functions I Ni Nb) /\ snd (fst e) < length (all_columns I)) /\
  (forall r c F x, nth_error (all_functions I Ni Nb) r = Some F -> nth_error (all_columns I) c = Some x ->
     (entry_sum M r c == coef_value true I F x)%Q).
Proof. exact surf_coefficients. Qed.
Print Assumptions C47_coefficients.

Example C47_nonvacuous :
  nth_error (all_functions surf_two (fun _ => 6) (fun _ => 6)) 24 = Some (FIface 0 (false, 2)) /\
  nth_error (all_columns surf_two) 60 = Some (1, 0, 4) /\ coef_value true surf_two (FIface 0 (false, 2)) (1, 0, 4) = (224 # 1)%Q.
Proof. exact surf_two_entry. Qed.
