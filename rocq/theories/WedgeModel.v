(** Model of solids cut by two half planes through the axis: a cylinder with a range of azimuths.
    Sources: projects/geometry/private/PhiUtils.h, projects/geometry/private/Cylinder.cxx:40-51 and 66-222.
    The same code decides the cut in Cone.cxx, Torus.cxx, CutTube.cxx, Polycone.cxx and Polyhedra.cxx.
    Doubles are real numbers. *)
From Coq Require Import Reals ZArith List Bool.
From Verif Require Import VectorModel GeometryModel EulerModel SolidModel.
Import ListNotations.
Open Scope R_scope.

(** The integer part towards zero, in [std::fmod] at PhiUtils.h:19. *)
Definition truncate (x : R) : R := if Rlt_dec x 0 then - IZR (Int_part (- x)) else IZR (Int_part x).

(** [std::fmod] of the C library, PhiUtils.h:19. *)
Definition fmod (x y : R) : R := x - y * truncate (x / y).

(** PhiUtils.h:15, [TWO_PI]. *)
Definition two_pi : R := 2 * PI.

(** PhiUtils.h:18-22, [NormalizePhi]. *)
Definition normalize_phi (phi : R) : R :=
  let phi := fmod phi two_pi in if Rlt_dec phi 0 then phi + two_pi else phi.

(** PhiUtils.h:26-35, [PhiInRange]. *)
Definition phi_in_range (x y start delta : R) : bool :=
  let phi := normalize_phi (atan2 y x) in
  let sp := normalize_phi start in
  let ep := sp + delta in
  if Rle_dec ep (two_pi + 1 / 10 ^ 9) then
    if Rle_dec (sp - 1 / 10 ^ 9) phi then if Rle_dec phi (ep + 1 / 10 ^ 9) then true else false else false
  else if Rle_dec (sp - 1 / 10 ^ 9) phi then true
       else if Rle_dec phi (normalize_phi ep + 1 / 10 ^ 9) then true else false.

(** PhiUtils.h:43-54, [InitialPhiState]. *)
Definition initial_phi_state (px py dx dy start delta : R) : bool :=
  if Rlt_dec (1 / 10 ^ 20) (dx * dx + dy * dy) then phi_in_range (- dx) (- dy) start delta
  else if Rlt_dec (1 / 10 ^ 20) (px * px + py * py) then phi_in_range px py start delta
  else if Rlt_dec (1 / 10 ^ 9) delta then true else false.

(** PhiUtils.h:61-67, [ZAxisWedgeEntering]. *)
Definition z_axis_wedge_entering (dx dy start delta : R) : bool :=
  if Rlt_dec (1 / 10 ^ 20) (dx * dx + dy * dy) then phi_in_range dx dy start delta else true.

(** Cylinder.cxx:167-190: one of the two half planes; [emitted] is [z_axis_hit_emitted] and is returned
    with the hits. *)
Definition face_hits (start delta : R) (p d : vec) (second emitted : bool) : list hit * bool :=
  let alpha := start + (if second then 1 else 0) * delta in
  let ca := cos alpha in let sa := sin alpha in
  let nx := if second then - sa else sa in let ny := if second then ca else - ca in
  let nd := nx * vx d + ny * vy d in
  if Rlt_dec (Rabs nd) precision then ([], emitted) else
  let np := nx * vx p + ny * vy p in
  let t := - np / nd in
  let t := if Rlt_dec 0 t then if Rlt_dec t precision then 0 else t else t in
  let hx := vx p + t * vx d in let hy := vy p + t * vy d in let hz := vz p + t * vz d in
  if Rlt_dec (hx * ca + hy * sa) (- precision) then ([], emitted) else
  if Rlt_dec (hx * hx + hy * hy) (precision * 10 ^ 3 * precision * 10 ^ 3) then
    if emitted then ([], true)
    else ([mkhit t (z_axis_wedge_entering (vx d) (vy d) start delta) (mkv hx hy hz)], true)
  else ([mkhit t (if Rlt_dec nd 0 then true else false) (mkv hx hy hz)], emitted).

(** Cylinder.cxx:166-190: both. *)
Definition wedge_hits (start delta : R) (p d : vec) : list hit :=
  let '(a, e) := face_hits start delta p d false false in
  let '(b, _) := face_hits start delta p d true e in a ++ b.

(** Cylinder.cxx:203-221: the crossings of the common part; a hit is marked by whether it belongs to the
    half planes ([source], line 82). *)
Fixpoint merge_loop (in_surface in_wedge was_inside : bool) (l : list (bool * hit)) : list hit :=
  match l with
  | [] => []
  | (source, h) :: r =>
      let in_surface := if source then in_surface else h_entering h in
      let in_wedge := if source then h_entering h else in_wedge in
      let now_inside := in_surface && in_wedge in
      if Bool.eqb now_inside was_inside then merge_loop in_surface in_wedge now_inside r
      else mkhit (h_distance h) now_inside (h_position h) :: merge_loop in_surface in_wedge now_inside r
  end.

(** Cylinder.cxx:192-221, from the hits of the surface and those of the half planes. *)
Definition cut_hits (sort : forall A : Type, (A -> R) -> list A -> list A) (start delta : R) (p d : vec)
  (surface : list hit) : list hit :=
  let all := sort _ (fun x => h_distance (snd x))
               (map (fun h => (false, h)) surface ++ map (fun h => (true, h)) (wedge_hits start delta p d)) in
  let in_wedge := initial_phi_state (vx p) (vy p) (vx d) (vy d) start delta in
  merge_loop false in_wedge false all.

(** Cylinder.cxx:133-141: the hits of the surface before sorting. *)
Definition surface_hits (radius inner height : R) (p d : vec) : list hit :=
  let hz := 1 / 2 * height in let ro := radius * radius in let ri := inner * inner in
  test_barrel hz p d ro false ++
  test_cap p d hz ri ro (if Rlt_dec (vz d) 0 then true else false) ++
  test_cap p d (- hz) ri ro (if Rlt_dec 0 (vz d) then true else false) ++
  (if Rlt_dec 0 inner then test_barrel hz p d ri true else []).

(** Cylinder.cxx:40-51, the angular part of the constructors; [None] is the exception. The result is the
    extent and [has_phi_cut_]. *)
Definition make_wedge (delta : R) : option (R * bool) :=
  if Rle_dec delta 0 then None
  else let delta := if Rlt_dec two_pi delta then two_pi else delta in
       Some (delta, if Rlt_dec delta (two_pi - 1 / 10 ^ 9) then true else false).

(** Cylinder.cxx:66-222, [ComputeIntersections]. *)
Definition cut_cylinder_hits (sort : forall A : Type, (A -> R) -> list A -> list A)
  (radius inner height start delta : R) (has_cut : bool) (p d : vec) : list hit :=
  if has_cut then cut_hits sort start delta p d (surface_hits radius inner height p d)
  else cylinder_hits sort radius inner height p d.
