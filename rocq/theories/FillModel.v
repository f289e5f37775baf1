(** Model of vertices drawn uniformly in a cylinder or a spherical shell.
    Sources: projects/distributions/private/primary/vertex/CylinderVolumePositionDistribution.cxx
    and SphereVolumePositionDistribution.cxx.  Doubles are real numbers; the numbers drawn are
    arguments ([g1], [g2], ... for the variates behind the calls of [Uniform]). *)
From Coq Require Import Reals List.
From Verif Require Import TraversalModel VectorModel QuatModel GeometryModel SolidModel RandomModel.
Import ListNotations.
Open Scope R_scope.

(** ** Cylinders *)

(** Cylinder.h:80-86, the members: the placement of the base class, the radii (in order, see
    [make_cylinder]), the height and the range of azimuths. *)
Record cylinder := mkcyl { c_place : placement; c_radius : R; c_inner : R; c_height : R; c_start : R; c_delta : R }.

(** CylinderVolumePositionDistribution.cxx:25-31: the point in the frame of the cylinder. *)
Definition cylinder_point (c : cylinder) (g1 g2 g3 : R) : vec :=
  let t := uniform 0 (2 * PI) g1 in
  let r := sqrt (uniform (c_inner c * c_inner c) (c_radius c * c_radius c) g2) in
  let z := uniform (- c_height c / 2) (c_height c / 2) g3 in
  mkv (r * cos t) (r * sin t) z.

(** CylinderVolumePositionDistribution.cxx:38-46 and SphereVolumePositionDistribution.cxx:53-61:
    the initial position from the sorted intersections. *)
Definition start_of (final : vec) (l : list hit) : outcome vec :=
  match l with
  | [] => Ok final
  | [_] => Throw
  | h :: _ => Ok (h_position h)
  end.

(** CylinderVolumePositionDistribution.cxx:81-87 and SphereVolumePositionDistribution.cxx:96-102:
    the bounds from the sorted intersections. *)
Definition bounds_of (l : list hit) : outcome (vec * vec) :=
  match l with
  | [] => Ok (mkv 0 0 0, mkv 0 0 0)
  | [_] => Throw
  | h :: _ => Ok (h_position h, h_position (last l h))
  end.

Section Sorted.
(** [std::sort], see GeometryModel; also DetectorModel.cxx:1755-1782, whose comparison looks
    at the distances first. *)
Variable sort : forall A : Type, (A -> R) -> list A -> list A.
Local Arguments sort {A}.

(** CylinderVolumePositionDistribution.cxx:35-36: the sorted intersections of a cylinder
    without angular cut. *)
Definition cylinder_crossings (c : cylinder) (p d : vec) : list hit :=
  sort h_distance (intersections (cylinder_hits (@sort) (c_radius c) (c_inner c) (c_height c)) (c_place c) p d).

(** CylinderVolumePositionDistribution.cxx:24-49, [SamplePosition]; [d] is the direction of
    the record. *)
Definition sample_cylinder (c : cylinder) (d : vec) (g1 g2 g3 : R) : outcome (vec * vec) :=
  let final := local_to_global (c_place c) (cylinder_point c g1 g2 g3) in
  match start_of final (cylinder_crossings c final d) with
  | Ok init => Ok (init, final)
  | Throw => Throw
  | UB => UB
  end.

(** CylinderVolumePositionDistribution.cxx:75-88, [InjectionBounds]; [m] is the momentum. *)
Definition cylinder_bounds_of (c : cylinder) (m vertex : vec) : outcome (vec * vec) :=
  bounds_of (cylinder_crossings c vertex (vnormalized m)).

(** SphereVolumePositionDistribution.cxx:50-51: the sorted intersections of a shell without
    angular cuts. *)
Definition sphere_crossings (pl : placement) (radius inner : R) (p d : vec) : list hit :=
  sort h_distance (intersections (sphere_hits (@sort) radius inner) pl p d).

(** SphereVolumePositionDistribution.cxx:33, [std::cbrt]. *)
Definition cbrt (x : R) : R :=
  if Rlt_dec 0 x then Rpower x (1/3) else if Rlt_dec x 0 then - Rpower (- x) (1/3) else 0.

(** SphereVolumePositionDistribution.cxx:26-45: the point in the frame of the sphere. *)
Definition sphere_point (radius inner g1 g2 g3 : R) : vec :=
  let r := cbrt (uniform (inner * inner * inner) (radius * radius * radius) g1) in
  let phi := uniform 0 (2 * PI) g2 in
  let c := uniform (- (1)) 1 g3 in
  let s := sqrt (1 - c * c) in
  mkv (r * s * cos phi) (r * s * sin phi) (r * c).

(** SphereVolumePositionDistribution.cxx:23-64, [SamplePosition]. *)
Definition sample_sphere (pl : placement) (radius inner : R) (d : vec) (g1 g2 g3 : R) : outcome (vec * vec) :=
  let final := local_to_global pl (sphere_point radius inner g1 g2 g3) in
  match start_of final (sphere_crossings pl radius inner final d) with
  | Ok init => Ok (init, final)
  | Throw => Throw
  | UB => UB
  end.

(** SphereVolumePositionDistribution.cxx:90-103, [InjectionBounds]. *)
Definition sphere_bounds_of (pl : placement) (radius inner : R) (m vertex : vec) : outcome (vec * vec) :=
  bounds_of (sphere_crossings pl radius inner vertex (vnormalized m)).
End Sorted.

(** CylinderVolumePositionDistribution.cxx:51-62, [GenerationProbability].  The call of [abs]
    at line 55 is taken to be the one for doubles. *)
Definition cylinder_probability (c : cylinder) (vertex : vec) : R :=
  let pos := global_to_local (c_place c) vertex in
  let z := vz pos in
  let r := sqrt (vx pos * vx pos + vy pos * vy pos) in
  if Rle_dec (1/2 * c_height c) (Rabs z) then 0
  else if Rle_dec r (c_inner c) then 0
  else if Rle_dec (c_radius c) r then 0
  else 1 / (PI * (c_radius c * c_radius c - c_inner c * c_inner c) * c_height c).

(** SphereVolumePositionDistribution.cxx:66-78, [GenerationProbability]. *)
Definition sphere_probability (pl : placement) (radius inner : R) (vertex : vec) : R :=
  let r := vmag (global_to_local pl vertex) in
  if Rle_dec r inner then 0
  else if Rle_dec radius r then 0
  else
    let outer_volume := 4 / 3 * PI * radius * radius * radius in
    let inner_volume := 4 / 3 * PI * inner * inner * inner in
    1 / (outer_volume - inner_volume).
