(** Model of further solids: cylinders, ellipsoids, elliptical tubes, trapezoids and
    parallelepipeds, and their crossings with a line. Sources:
    projects/geometry/private/{Cylinder,Ellipsoid,EllipticalTube,Trd,Para,Trap}.cxx.
    Doubles are real numbers; the angular cut of cylinders is left out. *)
From Coq Require Import Reals List Bool.
From Verif Require Import VectorModel GeometryModel.
Import ListNotations.
Open Scope R_scope.

Section Sorted.
(** [std::sort] by distance: some arrangement in increasing order of distance,
    Cylinder.cxx:145-147, Ellipsoid.cxx:185-187, EllipticalTube.cxx:151-153, Trd.cxx:255-257. *)
Variable sort : forall A : Type, (A -> R) -> list A -> list A.
Local Arguments sort {A}.

(** Ellipsoid.cxx:188-197, Cylinder.cxx:150-160: hits closer than the precision to the
    last one kept are dropped. *)
Fixpoint dedup (last : option R) (l : list hit) : list hit :=
  match l with
  | [] => []
  | h :: r =>
      match last with
      | Some x => if Rlt_dec (Rabs (h_distance h - x)) precision then dedup last r else h :: dedup (Some (h_distance h)) r
      | None => h :: dedup (Some (h_distance h)) r
      end
  end.

(** ** Cylinder *)

(** Cylinder.cxx:88-92, [add_surface_hit]: the distance is moved to zero, the position not. *)
Definition surface_hit (p d : vec) (t : R) (entering : bool) : hit := mkhit (snap t) entering (point_at p d t).

(** Cylinder.cxx:109-118, one root of the barrel. *)
Definition barrel_hit (hz : R) (p d : vec) (invert : bool) (t : R) : list hit :=
  let iz := vz p + t * vz d in
  if Rlt_dec (- hz - precision) iz then if Rlt_dec iz (hz + precision) then
    let radial := if Rlt_dec ((vx p + t * vx d) * vx d + (vy p + t * vy d) * vy d) 0 then true else false in
    [surface_hit p d t (if invert then negb radial else radial)]
  else [] else [].

(** Cylinder.cxx:97: the line is parallel to the axis. *)
Definition upright (d : vec) : bool := if Req_EM_T (vx d) 0 then if Req_EM_T (vy d) 0 then true else false else false.

(** Cylinder.cxx:96-119, [test_barrel]. *)
Definition test_barrel (hz : R) (p d : vec) (r2 : R) (invert : bool) : list hit :=
  if upright d then [] else
    let c := vx d * vx d + vy d * vy d in let b := vx p * vx d + vy p * vy d in
    let cross := vx p * vy d - vy p * vx d in let det := c * r2 - cross * cross in
    if Rle_dec det 0 then [] else
      barrel_hit hz p d invert ((- b - sqrt det) * (1 / c)) ++ barrel_hit hz p d invert ((- b + sqrt det) * (1 / c)).

(** Cylinder.cxx:122-131, [test_cap]. *)
Definition test_cap (p d : vec) (cap lo hi : R) (enter : bool) : list hit :=
  if Req_EM_T (vz d) 0 then [] else
    let t := (cap - vz p) / vz d in
    let ix := vx p + t * vx d in let iy := vy p + t * vy d in let r2 := ix * ix + iy * iy in
    if Rle_dec r2 (hi + precision) then if Rle_dec (lo - precision) r2 then [surface_hit p d t enter] else [] else [].

(** Cylinder.cxx:66-162, [ComputeIntersections] of a cylinder without angular cut;
    [height] is the full height. *)
Definition cylinder_hits (radius inner height : R) (p d : vec) : list hit :=
  let hz := 1 / 2 * height in let ro := radius * radius in let ri := inner * inner in
  dedup None (sort h_distance
    (test_barrel hz p d ro false ++
     test_cap p d hz ri ro (if Rlt_dec (vz d) 0 then true else false) ++
     test_cap p d (- hz) ri ro (if Rlt_dec 0 (vz d) then true else false) ++
     (if Rlt_dec 0 inner then test_barrel hz p d ri true else []))).

(** Cylinder.cxx:223-229, [GetBoundingBox]. *)
Definition cylinder_bounds (radius height : R) : aabb :=
  mkaabb (mkv (- radius) (- radius) (- (height * (1 / 2)))) (mkv radius radius (height * (1 / 2))).

(** Cylinder.cxx:40-45: the constructor swaps radii given in the wrong order. *)
Definition make_cylinder (radius inner : R) : R * R := if Rlt_dec radius inner then (inner, radius) else (radius, inner).

(** ** Ellipsoid *)

(** Ellipsoid.cxx:160, 158 and 181: the quadratic form of the surface. *)
Definition level (a b c : R) (q : vec) : R := vx q * vx q * a + vy q * vy q * b + vz q * vz q * c.

(** Ellipsoid.cxx:107-134, one root. *)
Definition ellipsoid_root (a b c z1 z2 : R) (p d : vec) (t : R) : list hit :=
  let t := snap t in let q := point_at p d t in
  if Rle_dec (z1 - precision) (vz q) then if Rle_dec (vz q) (z2 + precision) then
    [mkhit t (if Rlt_dec (vx q * a * vx d + vy q * b * vy d + vz q * c * vz d) 0 then true else false) q]
  else [] else [].

(** Ellipsoid.cxx:139-160 (and 163-183), one plane. *)
Definition ellipsoid_cut (a b c z : R) (p d : vec) (entering : bool) : list hit :=
  if Rlt_dec precision (Rabs (vz d)) then
    let t := snap ((z - vz p) / vz d) in let q := point_at p d t in
    if Rle_dec (level a b c q) (1 + precision) then [mkhit t entering q] else []
  else [].

(** Ellipsoid.cxx:62-198, [ComputeIntersections]. *)
Definition ellipsoid_hits (ax by_ cz z1 z2 : R) (p d : vec) : list hit :=
  let a := 1 / (ax * ax) in let b := 1 / (by_ * by_) in let c := 1 / (cz * cz) in
  let shift := - (vx p * vx d + vy p * vy d + vz p * vz d) in
  let q := point_at p d shift in
  let A := vx d * vx d * a + vy d * vy d * b + vz d * vz d * c in
  let B := vx q * vx d * a + vy q * vy d * b + vz q * vz d * c in
  let C := level a b c q - 1 in
  let disc := B * B - A * C in
  dedup None (sort h_distance
    ((if Rle_dec 0 disc then
        ellipsoid_root a b c z1 z2 p d ((- B - sqrt disc) * (1 / A) + shift) ++
        ellipsoid_root a b c z1 z2 p d ((- B + sqrt disc) * (1 / A) + shift)
      else []) ++
     ellipsoid_cut a b c z1 p d (if Rlt_dec 0 (vz d) then true else false) ++
     ellipsoid_cut a b c z2 p d (if Rlt_dec (vz d) 0 then true else false))).

(** Ellipsoid.cxx:25-34, the constructor with cuts; [None] is its exception. *)
Definition make_ellipsoid (ax by_ cz z1 z2 : R) : option (R * R * R * R * R) :=
  if Rle_dec ax 0 then None else if Rle_dec by_ 0 then None else if Rle_dec cz 0 then None else
    let z1 := if Rlt_dec z1 (- cz) then - cz else z1 in
    let z1 := if Rlt_dec cz z1 then cz else z1 in
    let z2 := if Rlt_dec z2 (- cz) then - cz else z2 in
    let z2 := if Rlt_dec cz z2 then cz else z2 in
    if Rle_dec z2 z1 then None else Some (ax, by_, cz, z1, z2).

(** Ellipsoid.cxx:201-215, [GetBoundingBox]; [std::clamp] of zero. *)
Definition ellipsoid_bounds (ax by_ cz z1 z2 : R) : aabb :=
  let zm := if Rlt_dec 0 z1 then z1 else if Rlt_dec z2 0 then z2 else 0 in
  let s := sqrt (Rmax 0 (1 - zm * zm / (cz * cz))) in
  mkaabb (mkv (- (ax * s)) (- (by_ * s)) z1) (mkv (ax * s) (by_ * s) z2).

(** ** Elliptical tube *)

(** EllipticalTube.cxx:81-96 (and 98-112), one root. *)
Definition tube_root (a b hz : R) (p d : vec) (t : R) : list hit :=
  let q := point_at p d t in
  if Rle_dec (Rabs (vz q)) (hz + precision) then
    [mkhit t (if Rlt_dec (vx q * vx d * a + vy q * vy d * b) 0 then true else false) q]
  else [].

(** EllipticalTube.cxx:117-131 (and 132-146), one cap. *)
Definition tube_cap (a b z : R) (p d : vec) (entering : bool) : list hit :=
  let t := (z - vz p) / vz d in
  let ix := vx p + t * vx d in let iy := vy p + t * vy d in
  if Rle_dec (ix * ix * a + iy * iy * b) (1 + precision) then [mkhit t entering (mkv ix iy z)] else [].

(** EllipticalTube.cxx:42-156, [ComputeIntersections]. *)
Definition tube_hits (dx dy hz : R) (p d : vec) : list hit :=
  let a := 1 / (dx * dx) in let b := 1 / (dy * dy) in
  let shift := - (vx p * vx d + vy p * vy d + vz p * vz d) in
  let qx := vx p + shift * vx d in let qy := vy p + shift * vy d in
  let A := vx d * vx d * a + vy d * vy d * b in
  let B := qx * vx d * a + qy * vy d * b in
  let C := qx * qx * a + qy * qy * b - 1 in
  let disc := B * B - A * C in
  sort h_distance
    ((if Rlt_dec 0 disc then if Rlt_dec (precision * precision) A then
        tube_root a b hz p d ((- B - sqrt disc) * (1 / A) + shift) ++
        tube_root a b hz p d ((- B + sqrt disc) * (1 / A) + shift)
      else [] else []) ++
     (if Rlt_dec precision (Rabs (vz d)) then
        tube_cap a b hz p d (if Rlt_dec (vz d) 0 then true else false) ++
        tube_cap a b (- hz) p d (if Rlt_dec 0 (vz d) then true else false)
      else [])).

(** EllipticalTube.cxx:159-164, [GetBoundingBox]. *)
Definition tube_bounds (dx dy hz : R) : aabb := mkaabb (mkv (- dx) (- dy) (- hz)) (mkv dx dy hz).

(** ** Trapezoid with parallel faces *)

(** Trd.cxx:75-113: the face at height [z], a rectangle of half widths [hx] and [hy]. *)
Definition trd_cap (z hx hy : R) (p d : vec) (entering : bool) : list hit :=
  if Rlt_dec precision (Rabs (vz d)) then
    let t := snap ((z - vz p) / vz d) in let q := point_at p d t in
    if Rle_dec (- hx) (vx q) then if Rle_dec (vx q) hx then if Rle_dec (- hy) (vy q) then if Rle_dec (vy q) hy then
      [mkhit t entering q]
    else [] else [] else [] else []
  else [].

(** Trd.cxx:133-161 (and 164-190, 198-224, 227-253): a side. [c], [e] and [other] give the
    coordinate across the side, of direction and the other one; [n] is the normal across,
    [k] the normal along z, [w] the place of the side at the bottom. *)
Definition trd_side (hz inv : R) (c other : vec -> R) (n k w o1 o2 : R) (p d : vec) : list hit :=
  let denom := n * c d + k * vz d in
  if Rlt_dec precision (Rabs denom) then
    let t := snap ((n * (w - c p) + k * (- hz - vz p)) / denom) in let q := point_at p d t in
    if Rle_dec (- hz) (vz q) then if Rle_dec (vz q) hz then
      let h := o1 + (o2 - o1) * (vz q + hz) * inv in
      if Rle_dec (- h) (other q) then if Rle_dec (other q) h then
        [mkhit t (if Rlt_dec denom 0 then true else false) q]
      else [] else []
    else [] else []
  else [].

(** Trd.cxx:44-259, [ComputeIntersections]. *)
Definition trd_hits (dx1 dx2 dy1 dy2 hz : R) (p d : vec) : list hit :=
  let inv := if Rlt_dec 0 hz then 1 / (2 * hz) else 0 in
  sort h_distance
    (trd_cap hz dx2 dy2 p d (if Rlt_dec (vz d) 0 then true else false) ++
     trd_cap (- hz) dx1 dy1 p d (if Rlt_dec 0 (vz d) then true else false) ++
     trd_side hz inv vx vy (2 * hz) (dx1 - dx2) dx1 dy1 dy2 p d ++
     trd_side hz inv vx vy (- (2) * hz) (dx1 - dx2) (- dx1) dy1 dy2 p d ++
     trd_side hz inv vy vx (2 * hz) (dy1 - dy2) dy1 dx1 dx2 p d ++
     trd_side hz inv vy vx (- (2) * hz) (dy1 - dy2) (- dy1) dx1 dx2 p d).

(** Trd.cxx:262-269, [GetBoundingBox]. *)
Definition trd_bounds (dx1 dx2 dy1 dy2 hz : R) : aabb :=
  mkaabb (mkv (- Rmax dx1 dx2) (- Rmax dy1 dy2) (- hz)) (mkv (Rmax dx1 dx2) (Rmax dy1 dy2) hz).
End Sorted.
