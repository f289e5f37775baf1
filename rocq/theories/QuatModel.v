(** Model of quaternions, placements and the detector coordinate system.
    Sources: projects/math/private/Quaternion.cxx,
             projects/math/public/SIREN/math/EulerQuaternionConversions.h,
             projects/geometry/private/Placement.cxx,
             projects/detector/private/DetectorModel.cxx. Doubles are real numbers. *)
From Coq Require Import Reals Bool.
From Verif Require Import VectorModel.
Open Scope R_scope.

(** Quaternion.h:118-121. *)
Record quat := mkq { qx : R; qy : R; qz : R; qw : R }.

(** Quaternion.cxx:24-30: the default. *)
Definition qone : quat := mkq 0 0 0 1.
(** Quaternion.cxx:53-59: from a vector. *)
Definition qvec (v : vec) : quat := mkq (vx v) (vy v) (vz v) 0.

(** Quaternion.cxx:146-154, [operator*]. *)
Definition qmul (a b : quat) : quat :=
  mkq ((qw b * qx a) + (qx b * qw a) + (qy a * qz b) - (qz a * qy b))
      ((qw b * qy a) + (qy b * qw a) + (qz a * qx b) - (qx a * qz b))
      ((qw b * qz a) + (qz b * qw a) + (qx a * qy b) - (qy a * qx b))
      ((qw b * qw a) - (qx b * qx a) - (qy a * qy b) - (qz a * qz b)).
(** Quaternion.cxx:156-159, [operator*=]. *)
Definition qmul_assign (a b : quat) : quat := qmul b a.
(** Quaternion.cxx:161-173, [operator*] and [operator*=] with a number. *)
Definition qscale (a : quat) (k : R) : quat := mkq (k * qx a) (k * qy a) (k * qz a) (k * qw a).
(** Quaternion.cxx:166-173. *)
Definition qscale_assign (a : quat) (k : R) : quat := mkq (qx a * k) (qy a * k) (qz a * k) (qw a * k).
(** Quaternion.cxx:175-189, [operator+] and [operator+=]. *)
Definition qadd (a b : quat) : quat := mkq (qx b + qx a) (qy b + qy a) (qz b + qz a) (qw b + qw a).
(** Quaternion.cxx:185-189. *)
Definition qadd_assign (a b : quat) : quat := qadd b a.
(** Quaternion.cxx:191-194, [operator+] with a number. *)
Definition qplus (a : quat) (k : R) : quat := mkq (k * qx a) (k * qy a) (k * qz a) (k * qw a).
(** Quaternion.cxx:196-203, [operator+=] with a number. *)
Definition qplus_assign (a : quat) (k : R) : quat := mkq (qx a + k) (qy a + k) (qz a + k) (qw a + k).

(** Quaternion.cxx:404-412, [magnitudesq] and [magnitude]. *)
Definition qnorm2 (a : quat) : R := qw a * qw a + qx a * qx a + qy a * qy a + qz a * qz a.
(** Quaternion.cxx:409-412. *)
Definition qnorm (a : quat) : R := sqrt (qnorm2 a).
(** Quaternion.cxx:351-363, [conjugated]. *)
Definition qconj (a : quat) : quat := mkq (- qx a) (- qy a) (- qz a) (qw a).
(** Quaternion.cxx:365-378, [inverted]. *)
Definition qinv (a : quat) : quat :=
  let n := qnorm2 a in mkq (- qx a / n) (- qy a / n) (- qz a / n) (qw a / n).
(** Quaternion.cxx:388-402, [normalize]. *)
Definition qnormalize (a : quat) : quat :=
  let n := qx a * qx a + qy a * qy a + qz a * qz a + qw a * qw a in
  if Req_EM_T n 1 then a else qscale_assign a (1 / sqrt n).
(** Quaternion.cxx:414-417, [DotProduct]. *)
Definition qdot (a b : quat) : R := qx a * qx b + qy a * qy b + qz a * qz b + qw a * qw b.

(** Quaternion.cxx:230-252: the action on a quaternion; [rotate] with a quaternion. *)
Definition qrotate_q (a p : quat) (inv : bool) : quat :=
  let n := qnorm a in
  let w0 := qw a / n in
  let x0 := (if inv then - qx a else qx a) / n in
  let y0 := (if inv then - qy a else qy a) / n in
  let z0 := (if inv then - qz a else qz a) / n in
  let w1 := qw p in let x1 := qx p in let y1 := qy p in let z1 := qz p in
  let xx := x0 * x1 in let xy := x0 * y1 in let xz := x0 * z1 in
  let yx := y0 * x1 in let yy := y0 * y1 in let yz := y0 * z1 in
  let zx := z0 * x1 in let zy := z0 * y1 in let zz := z0 * z1 in
  let w2 := w0 * w0 in let x2 := x0 * x0 in let y2 := y0 * y0 in let z2 := z0 * z0 in
  mkq (x1 * (w2 + x2 - y2 - z2) + 2 * (x0 * (yy + zz) + w0 * (yz - zy)))
      (y1 * (w2 - x2 + y2 - z2) + 2 * (y0 * (xx + zz) + w0 * (zx - xz)))
      (z1 * (w2 - x2 - y2 + z2) + 2 * (z0 * (xx + yy) + w0 * (xy - yx)))
      (w1 * (w2 + x2 + y2 + z2)).

(** Quaternion.cxx:284-300: the last part of [rotate] with a vector. *)
Definition sandwich (x0 y0 z0 w0 : R) (p : vec) : vec :=
  let x1 := vx p in let y1 := vy p in let z1 := vz p in
  let xx := x0 * x1 in let xy := x0 * y1 in let xz := x0 * z1 in
  let yx := y0 * x1 in let yy := y0 * y1 in let yz := y0 * z1 in
  let zx := z0 * x1 in let zy := z0 * y1 in let zz := z0 * z1 in
  let w2 := w0 * w0 in let x2 := x0 * x0 in let y2 := y0 * y0 in let z2 := z0 * z0 in
  mkv (x1 * (w2 + x2 - y2 - z2) + 2 * (x0 * (yy + zz) + w0 * (yz - zy)))
      (y1 * (w2 - x2 + y2 - z2) + 2 * (y0 * (xx + zz) + w0 * (zx - xz)))
      (z1 * (w2 - x2 - y2 + z2) + 2 * (z0 * (xx + yy) + w0 * (xy - yx))).

(** Quaternion.cxx:255-301, [rotate] with a vector. *)
Definition qrotate (a : quat) (p : vec) (inv : bool) : vec :=
  let n := qnorm2 a in
  if Rlt_dec (Rabs (n - 1)) (1 / 10 ^ 12) then
    sandwich (if inv then - qx a else qx a) (if inv then - qy a else qy a) (if inv then - qz a else qz a) (qw a) p
  else
    let k := 1 / sqrt n in
    sandwich ((if inv then - qx a else qx a) * k) ((if inv then - qy a else qy a) * k) ((if inv then - qz a else qz a) * k) (qw a * k) p.

(** Matrix3D.h:110-118 and Quaternion.cxx:303-321, [GetMatrix]. *)
Record matrix := mkm { mxx : R; mxy : R; mxz : R; myx : R; myy : R; myz : R; mzx : R; mzy : R; mzz : R }.
(** Quaternion.cxx:316-321. *)
Definition get_matrix (a : quat) : matrix :=
  mkm (1 - 2 * qy a * qy a - 2 * qz a * qz a) (2 * qx a * qy a - 2 * qz a * qw a) (2 * qx a * qz a + 2 * qy a * qw a)
      (2 * qx a * qy a + 2 * qz a * qw a) (1 - 2 * qx a * qx a - 2 * qz a * qz a) (2 * qz a * qy a - 2 * qx a * qw a)
      (2 * qx a * qz a - 2 * qy a * qw a) (2 * qz a * qy a + 2 * qx a * qw a) (1 - 2 * qx a * qx a - 2 * qy a * qy a).

(** Quaternion.cxx:323-349, [SetMatrix]. *)
Definition set_matrix (m : matrix) : quat :=
  let trace := mxx m + myy m + mzz m in
  let M := Rmax (Rmax (mxx m) (myy m)) (Rmax (mzz m) trace) in
  let q := 2 * sqrt (1 - trace + 2 * M) in
  if Req_EM_T M (mxx m) then mkq (1 / 4 * q) ((mxy m + myx m) / q) ((mzx m + mxz m) / q) ((mzy m - myz m) / q)
  else if Req_EM_T M (myy m) then mkq ((mxy m + myx m) / q) (1 / 4 * q) ((myz m + mzy m) / q) ((mxz m - mzx m) / q)
  else if Req_EM_T M (mzz m) then mkq ((mxz m + mzx m) / q) ((myz m + mzy m) / q) (1 / 4 * q) ((myx m - mxy m) / q)
  else mkq ((mzy m - myz m) / q) ((mxz m - mzx m) / q) ((myx m - mxy m) / q) (1 / 4 * q).

(** Quaternion.cxx:441-451, [SetAxisAngle]. *)
Definition set_axis_angle (axis : vec) (angle : R) : quat :=
  let d := vnormalized axis in let x := angle / 2 in let s := sin x in
  mkq (s * vx d) (s * vy d) (s * vz d) (cos x).

(** EulerQuaternionConversions.h:19-34, [QFromZXZr]. *)
Definition q_from_zxzr (alpha beta gamma : R) : quat :=
  let a := alpha * / 2 in let b := beta * / 2 in let g := gamma * / 2 in
  let cb := cos b in let sb := sin b in
  mkq (sb * cos (a - g)) (sb * sin (a - g)) (cb * sin (a + g)) (cb * cos (a + g)).

(** EulerQuaternionConversions.h:66-90, [QFromXYZs]. *)
Definition q_from_xyzs (alpha beta gamma : R) : quat :=
  let a := alpha * / 2 in let b := beta * / 2 in let g := gamma * / 2 in
  let ca := cos a in let cb := cos b in let cg := cos g in let sa := sin a in let sb := sin b in let sg := sin g in
  let cc := ca * cg in let cs := ca * sg in let sc := sa * cg in let ss := sa * sg in
  mkq (cb * sc - sb * cs) (sb * cc + cb * ss) (cb * cs - sb * sc) (cb * cc + sb * ss).

(** Quaternion.cxx:508-536, [rotation_between]. [std::min_element] at line 526 runs over
    pointers to the array [dots], that is over one array and addresses behind it;
    comparing the decayed arrays compares addresses, so the first is the minimum
    and [idx] is 0 whatever the dot products are. *)
Definition rotation_between (v0 v1 : vec) : quat :=
  let d0 := vnormalized v0 in
  let d1 := vnormalized v1 in
  let dot := vdot d0 d1 in
  if Req_EM_T dot (-1) then qvec (vnormalized (vcross (mkv 1 0 0) d0))
  else let c := vcross d0 d1 in qnormalize (mkq (vx c) (vy c) (vz c) (1 + dot)).

(** ** Placements *)

(** Placement.h:86-95. *)
Record placement := mkplacement { p_position : vec; p_quat : quat; p_identity : bool }.

(** Placement.cxx:147-158, [UpdateIdentityFlag]. *)
Definition identity_flag (p : vec) (q : quat) : bool :=
  if Req_EM_T (vx p) 0 then if Req_EM_T (vy p) 0 then if Req_EM_T (vz p) 0 then
    (if Rlt_dec (Rabs (Rabs (qw q) - 1)) (1 / 10 ^ 12) then true else false) &&
    (if Rlt_dec (Rabs (qx q)) (1 / 10 ^ 12) then true else false) &&
    (if Rlt_dec (Rabs (qy q)) (1 / 10 ^ 12) then true else false) &&
    (if Rlt_dec (Rabs (qz q)) (1 / 10 ^ 12) then true else false)
  else false else false else false.

(** Placement.cxx:27-46: the constructors, for a position and a quaternion that default
    to the origin and [qone]. *)
Definition place (p : vec) (q : quat) : placement :=
  let q' := qnormalize q in mkplacement p q' (identity_flag p q').
(** Placement.cxx:156, [SetPosition]. *)
Definition set_position (s : placement) (p : vec) : placement := mkplacement p (p_quat s) (identity_flag p (p_quat s)).
(** Placement.cxx:158-162. *)
Definition set_quaternion (s : placement) (q : quat) : placement :=
  let q' := qnormalize q in mkplacement (p_position s) q' (identity_flag (p_position s) q').

(** Placement.cxx:169-174. *)
Definition local_to_global (s : placement) (p : vec) : vec := vadd (qrotate (p_quat s) p false) (p_position s).
(** Placement.cxx:176-180. *)
Definition local_to_global_dir (s : placement) (p : vec) : vec := qrotate (p_quat s) p false.
(** Placement.cxx:182-187. *)
Definition global_to_local (s : placement) (p : vec) : vec := qrotate (p_quat s) (vsub p (p_position s)) true.
(** Placement.cxx:189-193. *)
Definition global_to_local_dir (s : placement) (p : vec) : vec := qrotate (p_quat s) p true.

(** ** Detector coordinates *)

(** DetectorModel.h:75-76: the members that define the coordinate system; [ds_rest]
    is everything else. *)
Record frame (A : Type) := mkframe { ds_rest : A; ds_origin : vec; ds_rotation : quat }.
Arguments mkframe {A}. Arguments ds_rest {A}. Arguments ds_origin {A}. Arguments ds_rotation {A}.

(** DetectorModel.cxx:125-127, [ToDet] of a position. *)
Definition to_det {A} (m : frame A) (p : vec) : vec := qrotate (ds_rotation m) (vsub p (ds_origin m)) true.
(** DetectorModel.cxx:129-131. *)
Definition to_det_dir {A} (m : frame A) (d : vec) : vec := qrotate (ds_rotation m) d true.
(** DetectorModel.cxx:141-143, [ToGeo] of a position. *)
Definition to_geo {A} (m : frame A) (p : vec) : vec := vadd (qrotate (ds_rotation m) p false) (ds_origin m).
(** DetectorModel.cxx:145-147. *)
Definition to_geo_dir {A} (m : frame A) (d : vec) : vec := qrotate (ds_rotation m) d false.

(** DetectorModel.h:121-136, [serialize], into a newly constructed model, whose rotation
    is the default quaternion: what is loaded after saving [m]. *)
Definition save_and_load {A} (m : frame A) : frame A := mkframe (ds_rest m) (ds_origin m) qone.

(** DetectorModel.cxx:186-191, [operator==]; [eqa] compares the other members. The
    comparison of the origins is [Vector3D::operator==] for vectors without
    spherical part. *)
Definition frame_eqb {A} (eqa : A -> A -> bool) (m n : frame A) : bool :=
  eqa (ds_rest m) (ds_rest n) && vector_eqb (vector_new (ds_origin m)) (vector_new (ds_origin n)).
