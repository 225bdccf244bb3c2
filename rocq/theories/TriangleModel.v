(** The triangle construction of gsAlmostC1, src/gsAlmostC1.hpp:85-252 and 591-682.
    Floating-point numbers are replaced by real numbers. *)
From Coq Require Import Reals List.
From Verif Require Import Common.
Import ListNotations.
Open Scope R_scope.

(** gsVector<T,3>; the operations are those of Eigen *)
Record vec3 := V3 { vx : R; vy : R; vz : R }.
Definition vadd (a b : vec3) := V3 (vx a + vx b) (vy a + vy b) (vz a + vz b).
Definition vsub (a b : vec3) := V3 (vx a - vx b) (vy a - vy b) (vz a - vz b).
Definition vscale (s : R) (a : vec3) := V3 (s * vx a) (s * vy a) (s * vz a).
Definition vdot (a b : vec3) := vx a * vx b + vy a * vy b + vz a * vz b.
Definition vcross (a b : vec3) :=
  V3 (vy a * vz b - vz a * vy b) (vz a * vx b - vx a * vz b) (vx a * vy b - vy a * vx b).
Definition vnorm (a : vec3) := sqrt (vdot a a).
Definition vzero := V3 0 0 0.
(** Eigen's normalized(): a vector whose squared norm is not positive is returned unchanged *)
Definition vnormalized (a : vec3) : vec3 :=
  if Rlt_dec 0 (vdot a a) then V3 (vx a / vnorm a) (vy a / vnorm a) (vz a / vnorm a) else a.

(** gsMatrix<T,3,3> by rows *)
Record mat3 := M3 { row0 : vec3; row1 : vec3; row2 : vec3 }.
Definition mapply (A : mat3) (x : vec3) : vec3 := V3 (vdot (row0 A) x) (vdot (row1 A) x) (vdot (row2 A) x).
Definition mtrans (A : mat3) : mat3 :=
  M3 (V3 (vx (row0 A)) (vx (row1 A)) (vx (row2 A)))
     (V3 (vy (row0 A)) (vy (row1 A)) (vy (row2 A)))
     (V3 (vz (row0 A)) (vz (row1 A)) (vz (row2 A))).
Definition mident : mat3 := M3 (V3 1 0 0) (V3 0 1 0) (V3 0 0 1).
Definition mscale (s : R) (A : mat3) : mat3 := M3 (vscale s (row0 A)) (vscale s (row1 A)) (vscale s (row2 A)).
Definition madd (A B : mat3) : mat3 :=
  M3 (vadd (row0 A) (row0 B)) (vadd (row1 A) (row1 B)) (vadd (row2 A) (row2 B)).
Definition mdet (A : mat3) : R := vdot (row0 A) (vcross (row1 A) (row2 A)).

(** src/gsAlmostC1.hpp:224-252, _getRotationMatrix, with its three assertions *)
Definition rodrigues (v : vec3) (s c : R) : mat3 :=
  let X := M3 (V3 0 (- vz v) (vy v)) (V3 (vz v) 0 (- vx v)) (V3 (- vy v) (vx v) 0) in
  let W := M3 (vscale (vx v) v) (vscale (vy v) v) (vscale (vz v) v) in
  madd (madd (mscale c mident) (mscale s X)) (mscale (1 - c) W).

Definition getRotationMatrix (a b : vec3) : res mat3 :=
  if Rlt_dec (Rabs (vnorm a - 1)) (1 / 10 ^ 14) then
  if Rlt_dec (Rabs (vnorm b - 1)) (1 / 10 ^ 14) then
    let v := vnormalized (vcross a b) in
    let theta := acos (vdot a b / (vnorm a * vnorm b)) in
    let M := rodrigues v (sin theta) (cos theta) in
    if Rlt_dec (vnorm (vsub (mapply M a) b)) (1 / 10 ^ 12) then Ok M else Err
  else Err else Err.

(** src/gsAlmostC1.hpp:163-173: the point with the largest distance; the first one wins ties;
    without a point at positive distance umax stays empty *)
Definition maxPoint (up : list vec3) : R * option vec3 :=
  fold_left (fun acc p => if Rlt_dec (fst acc) (vnorm p) then (vnorm p, Some p) else acc) up (0, None).

(** colPivHouseholderQr().solve for a 3x3 system: Cramer's rule; singular systems are an error *)
Definition solve3 (A : mat3) (y : vec3) : res vec3 :=
  let B := mtrans A in
  let d := mdet B in
  if Req_EM_T d 0 then Err
  else Ok (V3 (mdet (M3 y (row1 B) (row2 B)) / d) (mdet (M3 (row0 B) y (row2 B)) / d) (mdet (M3 (row0 B) (row1 B) y) / d)).

(** src/gsAlmostC1.hpp:137-160: direction of the average normal *)
Definition avgNormal (normals : list vec3) : res vec3 :=
  let s := fold_left vadd normals vzero in
  let avg := vscale (1 / INR (length normals)) s in
  if Req_EM_T (vnorm avg) 0 then match normals with [] => Err | n :: _ => Ok n end else Ok avg.

Definition dropz (p : vec3) := V3 (vx p) (vy p) 0.

(** src/gsAlmostC1.hpp:85-222, _makeTriangle.  [um] is the vertex, [us] are the four control
    points (0,0),(0,1),(1,0),(1,1) of every patch around it, [normals] the unit normals there
    (evaluation of the geometry is external).  In two dimensions third coordinates are zero.
    Result: the corners Cg of the triangle and the barycentric coordinates ub of the points. *)
Definition makeTriangle (tdim : nat) (um : vec3) (us normals : list vec3) : res (list vec3 * list vec3) :=
  let lift := if Nat.eqb tdim 2 then dropz else fun p => p in
  let um := lift um in
  let us := map lift us in
  let up := map (fun p => vsub p um) us in
  do Rn <- (if Nat.eqb tdim 2 then Ok mident
            else if Nat.eqb tdim 3 then
              do n <- avgNormal normals; getRotationMatrix (vnormalized n) (V3 0 0 1)
            else Err);
  let up := if Nat.eqb tdim 3 then map (fun p => dropz (mapply Rn p)) up else up in
  let (r, umax) := maxPoint up in
  match umax with
  | None => Err
  | Some m =>
    do Rx <- getRotationMatrix (vnormalized m) (V3 1 0 0);
    let up := map (mapply Rx) up in
    let a := 1 / (1 / 6 * sqrt 3) * r in
    let rr := 1 / 3 * sqrt 3 * a in
    let A := M3 (V3 rr (- r) (- r)) (V3 0 (1 / 2 * a) (- (1 / 2) * a)) (V3 1 1 1) in
    do ub <- mapM (fun p =>
               do l <- solve3 A (V3 (vx p) (vy p) 1);
               if Rlt_dec (vnorm (vsub (dropz (mapply A l)) (dropz p))) (1 / 10 ^ 12) then Ok l else Err) up;
    let back := fun p => vadd (mapply (mtrans Rn) (mapply (mtrans Rx) p)) um in
    let Cg := map (fun p => lift (back p)) [V3 rr 0 0; V3 (- r) (1 / 2 * a) 0; V3 (- r) (- (1 / 2) * a) 0] in
    Ok (Cg, ub)
  end.

(** src/gsAlmostC1.hpp:653-674: the columns of the points are cleared, then the barycentric
    coordinates are written into the three rows of the vertex. *)
Definition ubat (l : vec3) (i : nat) : R := match i with O => vx l | 1%nat => vy l | _ => vz l end.

Definition pruneColumn (M : nat -> nat -> R) (col : nat) : nat -> nat -> R :=
  fun r c => if Nat.eqb c col then 0 else M r c.
Definition writeEntry (M : nat -> nat -> R) (row col : nat) (x : R) : nat -> nat -> R :=
  fun r c => if Nat.eqb r row && Nat.eqb c col then x else M r c.

Definition writeRow (i row : nat) (cols : list (nat * vec3)) (M : nat -> nat -> R) : nat -> nat -> R :=
  fold_left (fun M cu => writeEntry M row (fst cu) (ubat (snd cu) i)) cols M.

(** fewer than three row numbers: access past the end *)
Definition triangleStep (M : nat -> nat -> R) (rows : list nat) (uind : list nat) (ub : list vec3) : res (nat -> nat -> R) :=
  match rows with
  | r0 :: r1 :: r2 :: _ =>
    let M := fold_left pruneColumn uind M in
    let cols := combine uind ub in
    Ok (writeRow 2 r2 cols (writeRow 1 r1 cols (writeRow 0 r0 cols M)))
  | _ => Err
  end.
