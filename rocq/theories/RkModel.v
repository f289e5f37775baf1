(** Model of the relativistic kinematics library that the interactions use.
    Sources: vendor/rk/rk/geom3_Vector3.icc, geom3_UnitVector3.icc, geom3_Rotation3.icc,
             geom3.cc, rk_P4.icc, rk_Boost.icc, rk.cc. Doubles are real numbers.
    [Vector3] and [UnitVector3] share the record [vec] and its arithmetic (geom3_Vector3.icc:84-208,
    geom3_UnitVector3.icc:97-141); the cached length of a vector is always recomputed. A failed
    assertion is [None]. *)
From Coq Require Import Reals Bool.
From Verif Require Import VectorModel.
Open Scope R_scope.

(** geom3_Vector3.icc:72-75, [lengthSquared]. *)
Definition length_squared (v : vec) : R := vx v * vx v + vy v * vy v + vz v * vz v.
(** geom3_Vector3.icc:65-70, [length]. *)
Definition vlength (v : vec) : R := sqrt (length_squared v).

(** geom3_UnitVector3.icc:173-186, [xAxis], [yAxis], [zAxis]. *)
Definition x_axis : vec := mkv 1 0 0.
(** geom3_UnitVector3.icc:183-186. *)
Definition z_axis : vec := mkv 0 0 1.

(** geom3_Vector3.icc:77-82 and geom3_UnitVector3.icc:60-75, [direction]. *)
Definition direction (v : vec) : vec :=
  if Rlt_dec 0 (vlength v) then vdiv v (vlength v) else x_axis.

(** geom3.cc:281-300, [setLength]. *)
Definition set_length (v : vec) (value : R) : vec :=
  if Rlt_dec 0 (vlength v) then let rat := value / vlength v in mkv (vx v * rat) (vy v * rat) (vz v * rat)
  else mkv value 0 0.

(** ** Rotations *)

(** geom3.hh, class [Rotation3::Quaternion]; geom3_Rotation3.icc:2-17. *)
Record rquat := mkrq { rv : vec; rs : R }.

(** geom3_Rotation3.icc:50-56, product. *)
Definition rq_mul (q1 q2 : rquat) : rquat :=
  mkrq (vadd (vadd (vscale (rs q1) (rv q2)) (vscale (rs q2) (rv q1))) (vcross (rv q1) (rv q2)))
       (rs q1 * rs q2 - vdot (rv q1) (rv q2)).
(** geom3_Rotation3.icc:19-22, [norm]. *)
Definition rq_norm (q : rquat) : R := sqrt (length_squared (rv q) + rs q * rs q).
(** geom3_Rotation3.icc:24-31, [normalize]. *)
Definition rq_normalize (q : rquat) : rquat := let n := rq_norm q in mkrq (vdiv (rv q) n) (rs q / n).
(** geom3_Rotation3.icc:85-99: the conjugate kept beside the quaternion. *)
Definition rq_bar (q : rquat) : rquat := mkrq (vneg (rv q)) (rs q).

(** geom3_Rotation3.icc:85-91, the default rotation. *)
Definition rot_identity : rquat := mkrq (mkv 0 0 0) 1.
(** geom3_Rotation3.icc:106-112, from an axis and an angle. *)
Definition rot_axis (axis : vec) (angle : R) : rquat := mkrq (vscale (sin (angle / 2)) axis) (cos (angle / 2)).
(** geom3_Rotation3.icc:80-83, [rotate]; the product of lines 72 and 77. *)
Definition rot_raw (q : rquat) (v : vec) : vec := rv (rq_mul (rq_mul q (mkrq v 0)) (rq_bar q)).
(** geom3_Rotation3.icc:75-78, rotation times vector. *)
Definition rot_vec (q : rquat) (v : vec) : vec := set_length (rot_raw q v) (vlength v).

(** What the unqualified [abs] of geom3_Vector3.icc:294-299 means: [abs(double)] if the
    translation unit included math.h or stdlib.h before geom3.hh, otherwise the [abs(int)]
    of C, its argument being cut to an integer. *)
Inductive abs_overload := AbsDouble | AbsInt.
(** geom3_Vector3.icc:294-299; for [AbsInt] the conversion double to int drops the
    fraction and the result is converted back. *)
Definition c_abs (o : abs_overload) (x : R) : R :=
  match o with
  | AbsDouble => Rabs x
  | AbsInt => IZR (Int_part (Rabs x))
  end.

(** geom3_Vector3.icc:295, 297: [1e-9]. *)
Definition rot_eps : R := / 10 ^ 9.

(** geom3_Vector3.icc:287-312, [rotationBetween] for unit vectors. *)
Definition rotation_between (o : abs_overload) (v1 v2 : vec) : rquat :=
  let cross := vcross v1 v2 in
  let scalar := vdot v1 v2 in
  if Rlt_dec (c_abs o (1 - scalar)) rot_eps then rot_identity
  else if Rlt_dec (c_abs o (1 + scalar)) rot_eps then
    let x := c_abs o (vx v1) in let y := c_abs o (vy v1) in let z := c_abs o (vz v1) in
    let other := if Rlt_dec x y then (if Rlt_dec x z then x_axis else z_axis)
                 else (if Rlt_dec y z then z_axis else z_axis) in
    let vo := direction (vcross v1 other) in
    rq_normalize (mkrq vo 0)
  else rq_normalize (mkrq cross (1 + scalar)).

(** ** Four-momenta and boosts *)

(** rk.hh, class [P4]; rk_P4.icc:1-19. A negative mass means not known. The flag
    [msqIsNonNegative_] only matters for such masses and is left out. *)
Record p4 := mkp4 { pe : R; pp : vec; pm : R }.

(** rk_P4.icc:27-35: from momentum and mass; the energy is not negative. *)
Definition p4_of (p : vec) (m : R) : p4 := mkp4 (sqrt (m * m + length_squared p)) p m.

(** rk_P4.icc:60-69, [ensureMass_]: the mass used afterwards. *)
Definition ensure_mass (a : p4) : option R :=
  if Rle_dec (pm a) 0 then
    let msq := pe a * pe a - length_squared (pp a) in
    if Rlt_dec 0 msq then Some (sqrt msq) else None
  else Some (pm a).

(** rk_P4.icc:193-196, [dot]. *)
Definition p4_dot (a b : p4) : R := pe a * pe b - vdot (pp a) (pp b).
(** rk_P4.icc:213-217, [operator+]. *)
Definition p4_add (a b : p4) : p4 := mkp4 (pe a + pe b) (vadd (pp a) (pp b)) (- (1)).
(** rk_P4.icc:219-223, [operator-]. *)
Definition p4_sub (a b : p4) : p4 := mkp4 (pe a - pe b) (vsub (pp a) (pp b)) (- (1)).

(** rk_P4.icc:181-185, [gamma]. *)
Definition p4_gamma (a : p4) : option R :=
  match ensure_mass a with Some m => Some (Rabs (pe a) / m) | None => None end.
(** rk_P4.icc:166-173, [beta], of a four-momentum whose mass is known. *)
Definition p4_beta (a : p4) : option R :=
  if Req_EM_T (pe a) 0 then None
  else if Req_EM_T (pm a) 0 then Some (if Rlt_dec 0 (pe a) then 1 else - (1))
  else Some (vlength (pp a) / pe a).

(** rk.hh, class [Boost]: direction, hyperbolic cosine less one, hyperbolic sine; the
    rapidity is a cache. *)
Record boost := mkboost { bdir : vec; bc : R; bs : R }.

(** rk_Boost.icc:18-25: from direction, cosine and sine. *)
Definition boost_of (dir : vec) (ch sh : R) : boost := mkboost dir (ch - 1) sh.
(** rk_Boost.icc:27-36: from a velocity. *)
Definition boost_of_velocity (v : vec) : boost :=
  let beta := vlength v in let gamma := 1 / sqrt (1 - beta * beta) in
  mkboost (direction v) (gamma - 1) (beta * gamma).
(** rk_Boost.icc:69-75, [inverse]. *)
Definition boost_inverse (b : boost) : boost := mkboost (bdir b) (bc b) (- bs b).

(** rk_Boost.icc:111-115, [restBoost]. *)
Definition rest_boost (a : p4) : option boost :=
  match ensure_mass a with
  | Some m => Some (boost_of (direction (pp a)) (pe a / m) (vlength (pp a) / m))
  | None => None
  end.
(** rk_Boost.icc:117-121, [labBoost]. *)
Definition lab_boost (a : p4) : option boost :=
  match ensure_mass a with
  | Some m => Some (boost_of (direction (pp a)) (pe a / m) (- vlength (pp a) / m))
  | None => None
  end.

(** rk.cc:8-21, [P4::boost], of a four-momentum whose mass is known. *)
Definition p4_boost (b : boost) (a : p4) : p4 :=
  let par := vdot (bdir b) (pp a) in
  let p := vadd (pp a) (vscale (bc b * par - pe a * bs b) (bdir b)) in
  mkp4 (sqrt (pm a * pm a + length_squared p) * (if Rlt_dec (pe a) 0 then - (1) else 1)) p (pm a).
(** rk_Boost.icc:77-81, boost times four-momentum. *)
Definition boost_mul (b : boost) (a : p4) : p4 :=
  let par := vdot (bdir b) (pp a) in
  let p := vadd (vscale (bc b * par - pe a * bs b) (bdir b)) (pp a) in
  mkp4 (sqrt (pm a * pm a + length_squared p) * (if Rlt_dec (pe a) 0 then - (1) else 1)) p (pm a).

(** rk.cc:23-27, [P4::rotate]. *)
Definition p4_rotate (q : rquat) (a : p4) : p4 := mkp4 (pe a) (rot_vec q (pp a)) (pm a).
