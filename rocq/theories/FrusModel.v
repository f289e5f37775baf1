(** Model of the crossings of a line with the walls and the caps of a cone. Source:
    projects/geometry/private/Cone.cxx. Doubles are real numbers. The tip of a pointed cone (the if statements at 160 and 231) is
    not modelled. *)
From Coq Require Import Reals List Bool.
From Verif Require Import VectorModel GeometryModel PconeModel.
Import ListNotations.
Open Scope R_scope.

(** The members [z_], [rmin1_], [rmin2_], [rmax1_], [rmax2_] that Cone.cxx:96-97 and the lines below read. *)
Record cone := mkcone { co_z : R; co_min1 : R; co_min2 : R; co_max1 : R; co_max2 : R }.

(** Cone.cxx:178-190, 192-204, 213-225 (outer) and 286-296, 298-308, 315-325 (inner): a root, moved to zero if little ahead,
    is kept if it is between the caps up to the precision and on the right half of the double cone. *)
Definition side_hit (p d : vec) (lo hi a b : R) (invert : bool) (t : R) : list hit :=
  let t := snap t in
  let q := point_at p d t in
  if Rlt_dec (lo - precision) (vz q) then if Rlt_dec (vz q) (hi + precision) then if Rle_dec 0 (a + b * vz q) then
    let e := entering_cone d q a b in [mkhit t (if invert then negb e else e) q]
  else [] else [] else [].

(** Cone.cxx:118-124 and 133-158, 177-227 (outer), 268-327 (inner): the crossings with x^2 + y^2 = (a + b z)^2; [invert] for the inner wall. *)
Definition side_hits (p d : vec) (lo hi a b : R) (invert : bool) : list hit :=
  let shift := - (vx p * vx d + vy p * vy d + vz p * vz d) in
  let qx := vx p + shift * vx d in let qy := vy p + shift * vy d in let qz := vz p + shift * vz d in
  let A := vx d * vx d + vy d * vy d - b * b * vz d * vz d in
  let B := 2 * (qx * vx d + qy * vy d - b * vz d * (a + b * qz)) in
  let C := qx * qx + qy * qy - (a + b * qz) * (a + b * qz) in
  if (if Req_EM_T (vx d) 0 then if Req_EM_T (vy d) 0 then if Req_EM_T b 0 then true else false else false else false) then []
  else
    let det := B * B - 4 * A * C in
    if Rlt_dec precision (Rabs A) then
      if Rlt_dec 0 det then
        side_hit p d lo hi a b invert ((- B + sqrt det) / (2 * A) + shift) ++
        side_hit p d lo hi a b invert ((- B - sqrt det) / (2 * A) + shift)
      else []
    else if Rlt_dec precision (Rabs B) then side_hit p d lo hi a b invert (- C / B + shift)
    else [].

(** Cone.cxx:127-131, 262-266: mean radius and slope of a wall. *)
Definition mean_radius (r1 r2 : R) : R := (r1 + r2) * (1 / 2).
Definition slope (z r1 r2 : R) : R := if Rlt_dec 0 z then (r2 - r1) / z else 0.

(** Cone.cxx:126-158, 177-227: the outer wall, of a cone without tip. *)
Definition outer_hits (c : cone) (p d : vec) : list hit :=
  side_hits p d (- (1 / 2) * co_z c) (1 / 2 * co_z c) (mean_radius (co_max1 c) (co_max2 c)) (slope (co_z c) (co_max1 c) (co_max2 c)) false.

(** Cone.cxx:260-328: the inner wall. *)
Definition inner_hits (c : cone) (p d : vec) : list hit :=
  if (if Rlt_dec 0 (co_min1 c) then true else if Rlt_dec 0 (co_min2 c) then true else false) then
    side_hits p d (- (1 / 2) * co_z c) (1 / 2 * co_z c) (mean_radius (co_min1 c) (co_min2 c)) (slope (co_z c) (co_min1 c) (co_min2 c)) true
  else [].

(** Cone.cxx:332-347, 351-366: a cap at height [z] between the radii [rmin] and [rmax]; [enters] tells what direction enters. *)
Definition cap_hit (p d : vec) (z rmin rmax : R) (enters : bool) : list hit :=
  if Rlt_dec precision (Rabs (vz d)) then
    let t := snap ((z - vz p) / vz d) in
    let q := point_at p d t in
    let r2 := vx q * vx q + vy q * vy q in
    if Rle_dec r2 (rmax * rmax + precision) then if Rle_dec (rmin * rmin - precision) r2 then [mkhit t enters q] else [] else []
  else [].

(** Cone.cxx:115-116: a cone with a tip above or below; such a cap is passed over. *)
Definition tip (rmin rmax : R) : bool := if Rle_dec rmax 0 then if Rle_dec rmin 0 then true else false else false.

(** Cone.cxx:330-347, the upper cap. *)
Definition top_hits (c : cone) (p d : vec) : list hit :=
  if tip (co_min2 c) (co_max2 c) then [] else cap_hit p d (1 / 2 * co_z c) (co_min2 c) (co_max2 c) (if Rlt_dec (vz d) 0 then true else false).

(** Cone.cxx:349-366, the lower cap. *)
Definition bottom_hits (c : cone) (p d : vec) : list hit :=
  if tip (co_min1 c) (co_max1 c) then [] else cap_hit p d (- (1 / 2) * co_z c) (co_min1 c) (co_max1 c) (if Rlt_dec 0 (vz d) then true else false).
