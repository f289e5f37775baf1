(** Model of three-vectors.
    Sources: projects/math/private/Vector3D.cxx, projects/math/public/SIREN/math/Vector3D.h.
    Doubles are real numbers. *)
From Coq Require Import Reals Bool.
Open Scope R_scope.

(** The Cartesian part of a Vector3D, all that most of the code uses. Vector3D.h:109. *)
Record vec := mkv { vx : R; vy : R; vz : R }.

(** Vector3D.cxx:142-149, unary minus. *)
Definition vneg (a : vec) : vec := mkv (- vx a) (- vy a) (- vz a).
(** Vector3D.cxx:154-161, [operator+]. *)
Definition vadd (a b : vec) : vec := mkv (vx a + vx b) (vy a + vy b) (vz a + vz b).
(** Vector3D.cxx:171-178, [operator-]. *)
Definition vsub (a b : vec) : vec := mkv (vx a - vx b) (vy a - vy b) (vz a - vz b).
(** Vector3D.cxx:193-200, 210-217: product with a number. *)
Definition vscale (k : R) (a : vec) : vec := mkv (k * vx a) (k * vy a) (k * vz a).
(** Vector3D.cxx:219-226, [operator/]. *)
Definition vdiv (a : vec) (k : R) : vec := mkv (vx a / k) (vy a / k) (vz a / k).
(** Vector3D.cxx:236-239, [scalar_product]. *)
Definition vdot (a b : vec) : R := vx a * vx b + vy a * vy b + vz a * vz b.
(** Vector3D.cxx:241-253, [vector_product] and [cross_product]. *)
Definition vcross (a b : vec) : vec :=
  mkv (vy a * vz b - vz a * vy b) (vz a * vx b - vx a * vz b) (vx a * vy b - vy a * vx b).
(** Vector3D.cxx:260-263, [magnitude]. *)
Definition vmag (a : vec) : R := sqrt (vx a * vx a + vy a * vy a + vz a * vz a).
(** Vector3D.cxx:265-281, [normalized], Cartesian part. *)
Definition vnormalized (a : vec) : vec := if Req_EM_T (vmag a) 0 then a else vdiv a (vmag a).

(** ** The whole object *)

(** Vector3D.h:96-100, 196-197: Cartesian and spherical coordinates. *)
Record vector := mkvector { v_cart : vec; v_radius : R; v_azimuth : R; v_zenith : R }.

(** Vector3D.cxx:22-26 and 41-45: from three numbers. *)
Definition vector_new (a : vec) : vector := mkvector a 0 0 0.

(** Vector3D.cxx:79-95, equality of doubles. *)
Definition reqb (x y : R) : bool := if Req_EM_T x y then true else false.

(** Vector3D.cxx:79-95, [operator==]. *)
Definition vector_eqb (a b : vector) : bool :=
  if negb (reqb (vx (v_cart a)) (vx (v_cart b))) then false
  else if negb (reqb (vy (v_cart a)) (vy (v_cart b))) then false
  else if negb (reqb (vz (v_cart a)) (vz (v_cart b))) then false
  else if negb (reqb (v_radius a) (v_radius b)) then false
  else if negb (reqb (v_azimuth a) (v_azimuth b)) then false
  else if negb (reqb (v_zenith a) (v_zenith b)) then false
  else true.

(** What the functions of the class do to the object; binary operations give a new
    vector whose spherical part is zero (Vector3D.cxx:142-253). *)
Inductive vop :=
| OSum (b : vec) | ODifference (b : vec) | OScaled (k : R) | ONegated | OCross (b : vec)
| OAdd (b : vec)                                    (* += *)
| OSub (b : vec)                                    (* -= *)
| OScale (k : R)                                    (* *= *)
| ODiv (k : R)                                      (* /= *)
| ONormalize | OInvert
| OSetCartesian (a : vec) | OSetSpherical (r az ze : R)
| OCalcSpherical | OCalcCartesian.

Section Spherical.
(** std::atan2 and std::acos. Vector3D.cxx:340, 343. *)
Variable atan2 : R -> R -> R.
(** Vector3D.cxx:343. *)
Variable acos_ : R -> R.

(** Vector3D.cxx:330-335, [CalculateCartesianFromSpherical]. *)
Definition from_spherical (r az ze : R) : vec := mkv (r * cos az * sin ze) (r * sin az * sin ze) (r * cos ze).

(** Vector3D.cxx:163-191 (compound operators), 202-234, 265-275 (normalize), 314-318
    (invert), 330-352 (conversions), Vector3D.h:157-168 (setters). *)
Definition vapply (o : vop) (v : vector) : vector :=
  let keep c := mkvector c (v_radius v) (v_azimuth v) (v_zenith v) in
  match o with
  | OSum b => vector_new (vadd (v_cart v) b)
  | ODifference b => vector_new (vsub (v_cart v) b)
  | OScaled k => vector_new (vscale k (v_cart v))
  | ONegated => vector_new (vneg (v_cart v))
  | OCross b => vector_new (vcross (v_cart v) b)
  | OAdd b => keep (vadd (v_cart v) b)
  | OSub b => keep (vsub (v_cart v) b)
  | OScale k => keep (vscale k (v_cart v))
  | ODiv k => keep (vdiv (v_cart v) k)
  | ONormalize => if Req_EM_T (vmag (v_cart v)) 0 then v
                  else mkvector (vdiv (v_cart v) (vmag (v_cart v))) 1 (v_azimuth v) (v_zenith v)
  | OInvert => keep (vneg (v_cart v))
  | OSetCartesian a => keep a
  | OSetSpherical r az ze => mkvector (v_cart v) r az ze
  | OCalcSpherical =>
      let r := vmag (v_cart v) in
      mkvector (v_cart v) r (atan2 (vy (v_cart v)) (vx (v_cart v)))
        (if Rlt_dec 0 r then acos_ (vz (v_cart v) / r) else 0)
  | OCalcCartesian => mkvector (from_spherical (v_radius v) (v_azimuth v) (v_zenith v)) (v_radius v) (v_azimuth v) (v_zenith v)
  end.
End Spherical.
