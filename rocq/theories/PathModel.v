(** Model of [Path], a stretch of a straight line that can be extended, shrunk, clipped and
    turned around. Source: projects/detector/private/Path.cxx and
    projects/detector/public/SIREN/detector/Path.h:30-54. *)
From Coq Require Import Reals List Bool ZArith.
From Verif Require Import TraversalModel VectorModel QuatModel DepthModel.
Import ListNotations.
Open Scope R_scope.

(** ** Numbers and points that need not be finite *)
(** A [double]: finite, an infinity, or NaN (for instance [distance_], Path.h:39). *)
Inductive num := Num (x : R) | Inf (neg : bool) | NaN.

(** [-distance], Path.cxx:350. *)
Definition nneg (a : num) : num := match a with Num x => Num (- x) | Inf b => Inf (negb b) | NaN => NaN end.

(** [distance_ += distance], Path.cxx:328. *)
Definition nadd (a b : num) : num :=
  match a, b with
  | Num x, Num y => Num (x + y)
  | Inf b, Num _ | Num _, Inf b => Inf b
  | Inf b, Inf c => if eqb b c then Inf b else NaN
  | _, _ => NaN
  end.

(** [a < b], for instance Path.cxx:330, 423 and 556; false when one of them is NaN. *)
Definition nltb (a b : num) : bool :=
  match a, b with
  | Num x, Num y => if Rlt_dec x y then true else false
  | Num _, Inf neg => negb neg
  | Inf neg, Num _ => neg
  | Inf x, Inf y => x && negb y
  | _, _ => false
  end.

(** [a <= b], for instance Path.cxx:558. *)
Definition nleb (a b : num) : bool :=
  match a, b with NaN, _ | _, NaN => false | _, _ => negb (nltb b a) end.

(** std::copysign, Path.cxx:583; a NaN sign is taken to be positive. *)
Definition ncopysign (a s : num) : num :=
  let neg := nltb s (Num 0) in
  match a with
  | Num x => Num (if neg then - Rabs x else Rabs x)
  | Inf _ => Inf neg
  | NaN => NaN
  end.

(** A position (Coordinates.h:52 and 54): finite, with an infinite coordinate, or with a NaN
    coordinate and no infinite one. *)
Inductive pt := At (v : vec) | Far | Lost.

(** Path.cxx:31-33, [IsInfinite]. *)
Definition is_infinite (p : pt) : bool := match p with Far => true | _ => false end.

(** [p + d * k], Path.cxx:205 and 329. Simplified: the sign of an infinite coordinate is not
    kept, so an infinite step from an infinite point gives a NaN coordinate. *)
Definition move (p : pt) (d : vec) (k : num) : pt :=
  match p, k with
  | At v, Num x => At (vadd v (vscale x d))
  | At _, Inf _ => if Req_EM_T (vmag d) 0 then Lost else Far
  | Far, Num _ => Far
  | _, _ => Lost
  end.

(** [(last - first).magnitude()], Path.cxx:305. *)
Definition span (p q : pt) : num :=
  match p, q with
  | At a, At b => Num (vmag (vsub b a))
  | Far, At _ | At _, Far => Inf false
  | _, _ => NaN
  end.

(** The distance of a crossing (Geometry.h:82) as a [double]. *)
Definition from_ext (e : ext) : num := match e with MInf => Inf true | Fin x => Num x | PInf => Inf false end.

(** [Intersection::position], Geometry.h:86: the crossing at its distance along the ray.
    Simplified: lists whose positions disagree with their distances are not considered. *)
Definition hit_position (l : line) (h : ix ext) : pt := move (At (l_position l)) (l_direction l) (from_ext (dist h)).

Section Paths.
(** What a depth is measured in: column depth, or interaction depth for some targets, cross
    sections and decay length. The code has each function twice, for instance Path.cxx:529 and
    540. *)
Context {Q : Type}.

(** What is used of a detector model: its frame (DetectorModel.cxx:125-155), [GetIntersections],
    [GetColumnDepthInCGS] or [GetInteractionDepthInCGS], and [DistanceForColumnDepthFromPoint] or
    [DistanceForInteractionDepthFromPoint], for instance Path.cxx:19, 268, 533 and 689. *)
Record detector := mkdetector {
  d_frame : frame Datatypes.unit;
  d_cast : pt -> vec -> line;
  d_depth : Q -> line -> pt -> pt -> num;
  d_reach : Q -> line -> pt -> vec -> num -> num }.

(** First and last point and direction in one of the two frames, Path.h:36-38 and 44-46. *)
Record ends := mkends { first : pt; last : pt; dir : vec }.

(** Path.h:33-50. *)
Record path := mkpath {
  model : option detector;
  geo : ends;
  len : num;
  set_geo : bool;
  first_inf : bool;
  last_inf : bool;
  det : ends;
  set_det : bool;
  cached : line;
  set_cached : bool }.

(** Path.h:36-38 and 44-46, Vector3D.cxx:15-20: what a new path holds. *)
Definition no_ends : ends := mkends (At (mkv 0 0 0)) (At (mkv 0 0 0)) (mkv 0 0 0).

(** Path.cxx:55-57, [Path()]. *)
Definition new_path : path :=
  mkpath None no_ends (Num 0) false false false no_ends false (mkline (mkv 0 0 0) (mkv 0 0 0) []) false.

(** Conversion of a point, DetectorModel.cxx:125-155. Simplified: a rotation of a point with
    an infinite coordinate counts as such. *)
Definition on_pt (f : vec -> vec) (p : pt) : pt := match p with At v => At (f v) | o => o end.

(** Path.cxx:19-21. *)
Definition ends_to_geo (m : detector) (e : ends) : ends :=
  mkends (on_pt (to_geo (d_frame m)) (first e)) (on_pt (to_geo (d_frame m)) (last e)) (to_geo_dir (d_frame m) (dir e)).
(** Path.cxx:24-26. *)
Definition ends_to_det (m : detector) (e : ends) : ends :=
  mkends (on_pt (to_det (d_frame m)) (first e)) (on_pt (to_det (d_frame m)) (last e)) (to_det_dir (d_frame m) (dir e)).

(** Path.cxx:17-29, [UpdatePoints]. *)
Definition update (p : path) : path :=
  match model p with
  | None => p
  | Some m =>
      if negb (set_geo p) && set_det p then
        mkpath (model p) (ends_to_geo m (det p)) (len p) true (first_inf p) (last_inf p) (det p) (set_det p) (cached p) (set_cached p)
      else if negb (set_det p) && set_geo p then
        mkpath (model p) (geo p) (len p) (set_geo p) (first_inf p) (last_inf p) (ends_to_det m (geo p)) true (cached p) (set_cached p)
      else p
  end.

(** ** Reading a path *)
(** Path.cxx:100-113: [GetFirstPoint], [GetLastPoint] and [GetDirection]. *)
Definition get_ends (p : path) : ends := det (update p).
(** Path.cxx:115-128: [GetGeoFirstPoint], [GetGeoLastPoint] and [GetGeoDirection]. *)
Definition get_geo_ends (p : path) : ends := geo (update p).
(** Path.cxx:130-132, [GetDistance]. *)
Definition get_distance (p : path) : num := len p.

(** ** Setting a path *)
(** Path.cxx:138-145, [SetDetectorModel]. *)
Definition set_model (m : detector) (p : path) : path :=
  let keep := match model p with Some _ => negb (set_det p) | None => true end in
  update (mkpath (Some m) (geo p) (len p) (set_geo p && keep) (first_inf p) (last_inf p) (det p) (set_det p) (cached p) (set_cached p)).

(** Path.cxx:59-61, [Path(detector_model)]. *)
Definition new_with (m : detector) : path := set_model m new_path.

(** Path.cxx:153-166, [SetPoints] in the geometry frame. A path whose points were not finite
    is not modelled after the exception; NaN coordinates are not considered. *)
Definition set_points (a b : pt) (p : path) : outcome path :=
  match a, b with
  | At u, At v =>
      let d := vsub v u in
      Ok (update (mkpath (model p) (mkends a b (vnormalized d)) (Num (vmag d)) true false false (det p) false (cached p) false))
  | _, _ => Throw
  end.

(** Path.cxx:168-181, [SetPoints] in the detector frame. *)
Definition set_points_det (a b : pt) (p : path) : outcome path :=
  match a, b with
  | At u, At v =>
      let d := vsub v u in
      Ok (update (mkpath (model p) (geo p) (Num (vmag d)) false false false (mkends a b (vnormalized d)) true (cached p) false))
  | _, _ => Throw
  end.

(** Path.cxx:189-198 and 225-234: whether crossings can be used for another ray. *)
Definition reusable (l : line) (position direction : vec) : bool :=
  let dot := Rabs (vdot (vnormalized direction) (l_direction l)) in
  if Rlt_dec (1 - 1 / 10 ^ 9) dot then
    let offset := vsub position (l_position l) in
    let perp := vcross offset (l_direction l) in
    if Rlt_dec (vmag perp) (1 / 10 ^ 6 * (1 + vmag offset)) then true else false
  else false.

(** Path.cxx:183-215, [SetPointsWithRay] in the geometry frame. *)
Definition set_ray (a : pt) (direction : vec) (k : num) (p : path) : outcome path :=
  match a with
  | At u =>
      let reuse := set_cached p && reusable (cached p) u direction in
      let d := vnormalized direction in
      let b := move a d k in
      Ok (update (mkpath (model p) (mkends a b d) k true false (is_infinite b) (det p) false (cached p) reuse))
  | _ => Throw
  end.

(** Path.cxx:217-251, [SetPointsWithRay] in the detector frame. *)
Definition set_ray_det (a : pt) (direction : vec) (k : num) (p : path) : outcome path :=
  match a with
  | At u =>
      let reuse := set_cached p && match model p with
                                   | Some m => reusable (cached p) (to_geo (d_frame m) u) (to_geo_dir (d_frame m) direction)
                                   | None => false
                                   end in
      let d := vnormalized direction in
      let b := move a d k in
      Ok (update (mkpath (model p) (geo p) k false false (is_infinite b) (mkends a b d) true (cached p) reuse))
  | _ => Throw
  end.

(** Sequencing of calls that may throw, for instance Path.cxx:266-268. *)
Definition bind {A B : Type} (x : outcome A) (f : A -> outcome B) : outcome B :=
  match x with Ok a => f a | Throw => Throw | UB => UB end.

(** Path.cxx:253-258, [EnsurePoints]. *)
Definition ensure_points (p : path) : outcome path :=
  let q := update p in if set_geo q then Ok q else Throw.

(** Path.cxx:260-263, [SetIntersections]. *)
Definition set_crossings (l : line) (p : path) : path :=
  mkpath (model p) (geo p) (len p) (set_geo p) (first_inf p) (last_inf p) (det p) (set_det p) l true.

(** Path.cxx:265-270, [ComputeIntersections]. *)
Definition compute_crossings (p : path) : outcome path :=
  match model p with
  | None => Throw
  | Some m => bind (ensure_points p) (fun q => Ok (set_crossings (d_cast m (first (geo q)) (dir (geo q))) q))
  end.

(** Path.cxx:272-276, [EnsureIntersections]. *)
Definition ensure_crossings (p : path) : outcome path := if set_cached p then Ok p else compute_crossings p.

(** [std::numeric_limits<int>::min()], DetectorModel.cxx:1788. *)
Definition int_min : Z := (-2147483648)%Z.

(** [(a - b) * d], Path.cxx:293-294; [None] when a coordinate is not finite. *)
Definition ahead (a b : pt) (d : vec) : option R :=
  match a, b with At u, At v => Some (vdot (vsub u v) d) | _, _ => None end.

(** Path.cxx:278-311, [ClipToOuterBounds]. Failed assertions are [UB], as are bounds with
    coordinates that are not finite; a comparison with such a point is taken to be false. *)
Definition clip (p : path) : outcome path :=
  bind (bind (ensure_crossings p) ensure_points) (fun q =>
  let bounds := outer_bounds int_min (l_hits (cached q)) in
  match bounds with
  | [] => Ok q
  | [h0; h1] =>
      match hit_position (cached q) h0, hit_position (cached q) h1 with
      | At u0, At u1 =>
          let dot := vdot (dir (geo q)) (vnormalized (vsub u1 u0)) in
          if Rlt_dec (Rabs (1 - Rabs dot)) (1 / 10 ^ 6) then
            let '(p0, p1) := if Rlt_dec dot 0 then (At u1, At u0) else (At u0, At u1) in
            let clip_0 := first_inf q || match ahead p0 (first (geo q)) (dir (geo q)) with
                                         | Some x => if Rlt_dec 0 x then true else false | None => false end in
            let clip_1 := last_inf q || match ahead p1 (last (geo q)) (dir (geo q)) with
                                        | Some x => if Rlt_dec x 0 then true else false | None => false end in
            let a := if clip_0 then p0 else first (geo q) in
            let b := if clip_1 then p1 else last (geo q) in
            Ok (mkpath (model q) (mkends a b (dir (geo q))) (if clip_0 || clip_1 then span a b else len q) (set_geo q)
                  (if clip_0 then is_infinite a else first_inf q) (if clip_1 then is_infinite b else last_inf q)
                  (det q) false (cached q) (set_cached q))
          else UB
      | _, _ => UB
      end
  | _ => UB
  end).

(** Path.cxx:313-319: the swaps and the change of sign in one frame. *)
Definition flip_ends (e : ends) : ends := mkends (last e) (first e) (vscale (-1) (dir e)).

(** Path.cxx:313-319, [Flip]. *)
Definition flip (p : path) : path :=
  mkpath (model p) (flip_ends (geo p)) (len p) (set_geo p) (last_inf p) (first_inf p) (flip_ends (det p)) (set_det p) (cached p) (set_cached p).

(** ** Extending and shrinking *)
(** Path.cxx:325-335, [ExtendFromEndByDistance]. *)
Definition extend_end (k : num) (p : path) : outcome path :=
  bind (ensure_points p) (fun q =>
  if last_inf q then Throw
  else
    let distance := nadd (len q) k in
    let b := move (last (geo q)) (dir (geo q)) k in
    let '(distance, b) := if nltb distance (Num 0) then (Num 0, first (geo q)) else (distance, b) in
    Ok (mkpath (model q) (mkends (first (geo q)) b (dir (geo q))) distance (set_geo q) (first_inf q) (last_inf q) (det q) false (cached q) (set_cached q))).

(** Path.cxx:337-347, [ExtendFromStartByDistance]. *)
Definition extend_start (k : num) (p : path) : outcome path :=
  bind (ensure_points p) (fun q =>
  if first_inf q then Throw
  else
    let distance := nadd (len q) k in
    let a := move (first (geo q)) (dir (geo q)) (nneg k) in
    let '(distance, a) := if nltb distance (Num 0) then (Num 0, last (geo q)) else (distance, a) in
    Ok (mkpath (model q) (mkends a (last (geo q)) (dir (geo q))) distance (set_geo q) (first_inf q) (last_inf q) (det q) false (cached q) (set_cached q))).

(** Path.cxx:349-351, [ShrinkFromEndByDistance]. *)
Definition shrink_end (k : num) (p : path) : outcome path := extend_end (nneg k) p.
(** Path.cxx:353-355, [ShrinkFromStartByDistance]. *)
Definition shrink_start (k : num) (p : path) : outcome path := extend_start (nneg k) p.

(** Path.cxx:421-426, [ExtendFromEndToDistance]. *)
Definition extend_end_to (k : num) (p : path) : outcome path :=
  let shift := nadd k (nneg (len p)) in if nltb (Num 0) shift then extend_end shift p else Ok p.
(** Path.cxx:428-433, [ExtendFromStartToDistance]. *)
Definition extend_start_to (k : num) (p : path) : outcome path :=
  let shift := nadd k (nneg (len p)) in if nltb (Num 0) shift then extend_start shift p else Ok p.
(** Path.cxx:435-440, [ShrinkFromEndToDistance]. *)
Definition shrink_end_to (k : num) (p : path) : outcome path :=
  let shift := nadd (len p) (nneg k) in if nltb (Num 0) shift then shrink_end shift p else Ok p.
(** Path.cxx:442-447, [ShrinkFromStartToDistance]. *)
Definition shrink_start_to (k : num) (p : path) : outcome path :=
  let shift := nadd (len p) (nneg k) in if nltb (Num 0) shift then shrink_start shift p else Ok p.

(** ** Depths and distances *)
(** The beginning of each of the functions at Path.cxx:529-821: crossings, then points. *)
Definition prepare (p : path) : outcome path := bind (ensure_crossings p) ensure_points.

(** Path.cxx:35-48: the three requirements. *)
Definition require (bad : bool) (p : path) : outcome path := if bad then Throw else Ok p.

(** A call through [detector_model_], for instance Path.cxx:533; a null pointer is [UB]. *)
Definition ask {A : Type} (f : detector -> A) (p : path) : outcome (path * A) :=
  match model p with None => UB | Some m => Ok (p, f m) end.

(** Path.cxx:529-534 and 540-549: [GetColumnDepthInBounds] and [GetInteractionDepthInBounds]. *)
Definition depth_in_bounds (q : Q) (p : path) : outcome (path * num) :=
  bind (prepare p) (fun p => bind (require (first_inf p || last_inf p) p)
    (ask (fun m => d_depth m q (cached p) (first (geo p)) (last (geo p))))).

(** Path.cxx:579-584 and 641-649: [...FromStartAlongPath]. *)
Definition depth_start_along (q : Q) (k : num) (p : path) : outcome (path * num) :=
  bind (prepare p) (fun p => bind (require (first_inf p) p)
    (ask (fun m => ncopysign (d_depth m q (cached p) (first (geo p)) (move (first (geo p)) (dir (geo p)) k)) k))).

(** Path.cxx:586-591 and 651-659: [...FromEndAlongPath]. *)
Definition depth_end_along (q : Q) (k : num) (p : path) : outcome (path * num) :=
  bind (prepare p) (fun p => bind (require (last_inf p) p)
    (ask (fun m => ncopysign (d_depth m q (cached p) (last (geo p)) (move (last (geo p)) (dir (geo p)) k)) k))).

(** Path.cxx:593-598 and 661-669: [...FromStartInReverse]. *)
Definition depth_start_reverse (q : Q) (k : num) (p : path) : outcome (path * num) :=
  bind (prepare p) (fun p => bind (require (first_inf p) p)
    (ask (fun m => ncopysign (d_depth m q (cached p) (first (geo p)) (move (first (geo p)) (dir (geo p)) (nneg k))) k))).

(** Path.cxx:600-605 and 671-679: [...FromEndInReverse]. *)
Definition depth_end_reverse (q : Q) (k : num) (p : path) : outcome (path * num) :=
  bind (prepare p) (fun p => bind (require (last_inf p) p)
    (ask (fun m => ncopysign (d_depth m q (cached p) (last (geo p)) (move (last (geo p)) (dir (geo p)) (nneg k))) k))).

(** Path.cxx:555-565 and 611-624: [...FromStartInBounds]. *)
Definition depth_start_bounds (q : Q) (k : num) (p : path) : outcome (path * num) :=
  let go k := bind (prepare p) (fun p => bind (require (first_inf p) p)
    (ask (fun m => d_depth m q (cached p) (first (geo p)) (move (first (geo p)) (dir (geo p)) k)))) in
  if nltb (len p) k then go (len p) else if nleb k (Num 0) then Ok (p, Num 0) else go k.

(** Path.cxx:567-577 and 626-639: [...FromEndInBounds]. *)
Definition depth_end_bounds (q : Q) (k : num) (p : path) : outcome (path * num) :=
  let go k := bind (prepare p) (fun p => bind (require (last_inf p) p)
    (ask (fun m => d_depth m q (cached p) (last (geo p)) (move (last (geo p)) (dir (geo p)) (nneg k))))) in
  if nltb (len p) k then go (len p) else if nleb k (Num 0) then Ok (p, Num 0) else go k.

(** Path.cxx:711-717 and 779-788: [GetDistanceFromStartAlongPath]. *)
Definition reach_start_along (q : Q) (x : num) (p : path) : outcome (path * num) :=
  bind (prepare p) (fun p => bind (require (first_inf p) p)
    (ask (fun m => d_reach m q (cached p) (first (geo p)) (dir (geo p)) x))).

(** Path.cxx:719-725 and 790-799: [GetDistanceFromEndAlongPath]. *)
Definition reach_end_along (q : Q) (x : num) (p : path) : outcome (path * num) :=
  bind (prepare p) (fun p => bind (require (last_inf p) p)
    (ask (fun m => d_reach m q (cached p) (last (geo p)) (dir (geo p)) x))).

(** Path.cxx:727-733 and 801-810: [GetDistanceFromStartInReverse]. *)
Definition reach_start_reverse (q : Q) (x : num) (p : path) : outcome (path * num) :=
  bind (prepare p) (fun p => bind (require (first_inf p) p)
    (ask (fun m => d_reach m q (cached p) (first (geo p)) (vneg (dir (geo p))) x))).

(** Path.cxx:735-741 and 812-821: [GetDistanceFromEndInReverse]. *)
Definition reach_end_reverse (q : Q) (x : num) (p : path) : outcome (path * num) :=
  bind (prepare p) (fun p => bind (require (last_inf p) p)
    (ask (fun m => d_reach m q (cached p) (last (geo p)) (vneg (dir (geo p))) x))).

(** Path.cxx:690-695, 703-708, 755-760 and 771-776: a distance kept within the path. *)
Definition bounded (x d : num) (p : path) : num :=
  if nltb (len p) d then len p else if nleb x (Num 0) then Num 0 else d.

(** Path.cxx:685-696 and 747-761: [GetDistanceFromStartInBounds]. *)
Definition reach_start_bounds (q : Q) (x : num) (p : path) : outcome (path * num) :=
  bind (reach_start_along q x p) (fun r => Ok (fst r, bounded x (snd r) (fst r))).

(** Path.cxx:698-709 and 763-777: [GetDistanceFromEndInBounds]. *)
Definition reach_end_bounds (q : Q) (x : num) (p : path) : outcome (path * num) :=
  bind (reach_end_reverse q x p) (fun r => Ok (fst r, bounded x (snd r) (fst r))).

(** ** Extending and shrinking by depth *)
(** Path.cxx:361-364 and 385-391: [ExtendFromEndByColumnDepth] and [...ByInteractionDepth]. *)
Definition extend_end_by (q : Q) (x : num) (p : path) : outcome path :=
  bind (reach_end_along q x p) (fun r => extend_end (snd r) (fst r)).
(** Path.cxx:366-369 and 393-399: [ExtendFromStartBy...]. *)
Definition extend_start_by (q : Q) (x : num) (p : path) : outcome path :=
  bind (reach_start_reverse q x p) (fun r => extend_start (snd r) (fst r)).
(** Path.cxx:371-374 and 401-407: [ShrinkFromEndBy...]. *)
Definition shrink_end_by (q : Q) (x : num) (p : path) : outcome path :=
  bind (reach_end_reverse q x p) (fun r => shrink_end (snd r) (fst r)).
(** Path.cxx:376-379 and 409-415: [ShrinkFromStartBy...]. *)
Definition shrink_start_by (q : Q) (x : num) (p : path) : outcome path :=
  bind (reach_start_along q x p) (fun r => shrink_start (snd r) (fst r)).

(** Path.cxx:453-458 and 485-493: [ExtendFromEndTo...]. *)
Definition extend_end_upto (q : Q) (x : num) (p : path) : outcome path :=
  bind (depth_in_bounds q p) (fun r =>
  let shift := nadd x (nneg (snd r)) in if nltb (Num 0) shift then extend_end_by q shift (fst r) else Ok (fst r)).
(** Path.cxx:460-465 and 495-503: [ExtendFromStartTo...]. *)
Definition extend_start_upto (q : Q) (x : num) (p : path) : outcome path :=
  bind (depth_in_bounds q p) (fun r =>
  let shift := nadd x (nneg (snd r)) in if nltb (Num 0) shift then extend_start_by q shift (fst r) else Ok (fst r)).
(** Path.cxx:467-472 and 505-513: [ShrinkFromEndTo...]. *)
Definition shrink_end_upto (q : Q) (x : num) (p : path) : outcome path :=
  bind (depth_in_bounds q p) (fun r =>
  let shift := nadd (snd r) (nneg x) in if nltb (Num 0) shift then shrink_end_by q shift (fst r) else Ok (fst r)).
(** Path.cxx:474-479 and 515-523: [ShrinkFromStartTo...]. *)
Definition shrink_start_upto (q : Q) (x : num) (p : path) : outcome path :=
  bind (depth_in_bounds q p) (fun r =>
  let shift := nadd (snd r) (nneg x) in if nltb (Num 0) shift then shrink_start_by q shift (fst r) else Ok (fst r)).

(** ** Sequences of calls *)
(** One call of a public member function, Path.h:98-162. *)
Inductive op :=
| SetPoints (a b : pt) | SetPointsDet (a b : pt)
| SetRay (a : pt) (d : vec) (k : num) | SetRayDet (a : pt) (d : vec) (k : num)
| Compute | Clip | Flip
| ExtendEnd (k : num) | ExtendStart (k : num) | ShrinkEnd (k : num) | ShrinkStart (k : num)
| ExtendEndTo (k : num) | ExtendStartTo (k : num) | ShrinkEndTo (k : num) | ShrinkStartTo (k : num)
| ExtendEndBy (q : Q) (x : num) | ExtendStartBy (q : Q) (x : num) | ShrinkEndBy (q : Q) (x : num) | ShrinkStartBy (q : Q) (x : num)
| ExtendEndUpto (q : Q) (x : num) | ExtendStartUpto (q : Q) (x : num) | ShrinkEndUpto (q : Q) (x : num) | ShrinkStartUpto (q : Q) (x : num)
| GetEnds | GetGeoEnds | GetDepth (q : Q).

(** The function called, Path.cxx:100-549. *)
Definition apply (o : op) (p : path) : outcome path :=
  match o with
  | SetPoints a b => set_points a b p
  | SetPointsDet a b => set_points_det a b p
  | SetRay a d k => set_ray a d k p
  | SetRayDet a d k => set_ray_det a d k p
  | Compute => compute_crossings p
  | Clip => clip p
  | Flip => Ok (flip p)
  | ExtendEnd k => extend_end k p
  | ExtendStart k => extend_start k p
  | ShrinkEnd k => shrink_end k p
  | ShrinkStart k => shrink_start k p
  | ExtendEndTo k => extend_end_to k p
  | ExtendStartTo k => extend_start_to k p
  | ShrinkEndTo k => shrink_end_to k p
  | ShrinkStartTo k => shrink_start_to k p
  | ExtendEndBy q x => extend_end_by q x p
  | ExtendStartBy q x => extend_start_by q x p
  | ShrinkEndBy q x => shrink_end_by q x p
  | ShrinkStartBy q x => shrink_start_by q x p
  | ExtendEndUpto q x => extend_end_upto q x p
  | ExtendStartUpto q x => extend_start_upto q x p
  | ShrinkEndUpto q x => shrink_end_upto q x p
  | ShrinkStartUpto q x => shrink_start_upto q x p
  | GetEnds | GetGeoEnds => Ok (update p)
  | GetDepth q => bind (depth_in_bounds q p) (fun r => Ok (fst r))
  end.

(** Calls of the functions at Path.cxx:100-549 one after the other; an exception ends the
    sequence. *)
Definition run (ops : list op) (p : path) : outcome path :=
  fold_left (fun r o => bind r (apply o)) ops (Ok p).

(** ** Points relative to a path *)
(** Path.cxx:824-835, [IsWithinBounds] in the geometry frame. *)
Definition is_within_geo (x : vec) (p : path) : outcome (path * bool) :=
  let p := update p in
  bind (require (first_inf p || last_inf p) p) (fun p =>
  if set_geo p then
    match first (geo p), last (geo p) with
    | At a, At b =>
        let d0 := vdot (dir (geo p)) (vsub a x) in
        let d1 := vdot (dir (geo p)) (vsub b x) in
        Ok (p, (if Rle_dec d0 0 then true else false) && (if Rle_dec 0 d1 then true else false))
    | _, _ => Ok (p, false)
    end
  else Throw).

(** Path.cxx:849-868, [IsWithinBounds] in the detector frame. *)
Definition is_within_det (x : vec) (p : path) : outcome (path * bool) :=
  let p := update p in
  bind (require (first_inf p || last_inf p) p) (fun p =>
  if set_det p then
    match first (det p), last (det p) with
    | At a, At b =>
        let d0 := vdot (dir (det p)) (vsub a x) in
        let d1 := vdot (dir (det p)) (vsub b x) in
        let d0 := if Rlt_dec 0 d0 then (if Rlt_dec d0 (1 / 10 ^ 3) then 0 else d0) else d0 in
        let d1 := if Rlt_dec d1 0 then (if Rlt_dec (- (1 / 10 ^ 3)) d1 then 0 else d1) else d1 in
        Ok (p, (if Rle_dec d0 0 then true else false) && (if Rle_dec 0 d1 then true else false))
    | _, _ => Ok (p, false)
    end
  else
    match set_geo p, model p with
    | true, Some m => is_within_geo (to_geo (d_frame m) x) p
    | _, _ => Throw
    end).

(** Path.cxx:837-847, [GetDistanceFromStartInBounds] of a point in the geometry frame. *)
Definition distance_geo (x : vec) (p : path) : outcome (path * num) :=
  let p := update p in
  bind (require (first_inf p) p) (fun p =>
  if set_geo p then
    match first (geo p) with At a => Ok (p, Num (Rmax 0 (vdot (dir (geo p)) (vsub x a)))) | _ => Ok (p, NaN) end
  else Throw).

(** Path.cxx:870-881, [GetDistanceFromStartInBounds] of a point in the detector frame. *)
Definition distance_det (x : vec) (p : path) : outcome (path * num) :=
  let p := update p in
  bind (require (first_inf p) p) (fun p =>
  if set_det p then
    match first (det p) with At a => Ok (p, Num (Rmax 0 (vdot (dir (det p)) (vsub x a)))) | _ => Ok (p, NaN) end
  else
    match set_geo p, model p with
    | true, Some m => distance_geo (to_geo (d_frame m) x) p
    | _, _ => Throw
    end).
End Paths.
Arguments detector : clear implicits.
Arguments path : clear implicits.
Arguments op : clear implicits.
