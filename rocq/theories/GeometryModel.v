(** Model of shapes: intersections with a line, membership and bounding boxes.
    Sources: projects/geometry/private/{Box,Sphere,BooleanGeometry,Geometry}.cxx,
    projects/geometry/public/SIREN/geometry/{AABB,Geometry}.h. Doubles are real numbers. *)
From Coq Require Import Reals List Bool.
From Verif Require Import VectorModel QuatModel.
Import ListNotations.
Open Scope R_scope.

(** Geometry.h:79, [GEOMETRY_PRECISION]. *)
Definition precision : R := 1 / 10 ^ 9.

(** Geometry.h:80-100, [Intersection]; [hierarchy] and [matID] are not set by shapes and
    left out. *)
Record hit := mkhit { h_distance : R; h_entering : bool; h_position : vec }.

(** The point at parameter [t]: Box.cxx:100 and 105, Sphere.cxx:116. *)
Definition point_at (p d : vec) (t : R) : vec := mkv (vx p + t * vx d) (vy p + t * vy d) (vz p + t * vz d).

(** Box.cxx:93-94, Sphere.cxx:115: distances just in front of the origin become zero. *)
Definition snap (t : R) : R := if Rlt_dec 0 t then if Rlt_dec t precision then 0 else t else t.

(** ** Box *)

(** Box.cxx:46-50: the range of parameters still possible; [None] is minus or plus
    infinity. *)
Definition range := (option R * option R)%type.

(** Box.cxx:58-59: [if(t1 > t_enter)], [if(t2 < t_exit)]. *)
Definition narrow (r : range) (t1 t2 : R) : range :=
  (match fst r with None => Some t1 | Some e => Some (if Rlt_dec e t1 then t1 else e) end,
   match snd r with None => Some t2 | Some x => Some (if Rlt_dec t2 x then t2 else x) end).

(** Box.cxx:52-62 (and 64-74, 76-86): one slab of half width [h]; [None] when the line
    runs outside and parallel to it. *)
Definition slab (p d h : R) (r : range) : option range :=
  if Req_EM_T d 0 then
    if Rlt_dec p (- h) then None else if Rlt_dec h p then None else Some r
  else
    let inv := 1 / d in
    let t1 := (- h - p) * inv in
    let t2 := (h - p) * inv in
    if Rlt_dec t2 t1 then Some (narrow r t2 t1) else Some (narrow r t1 t2).

(** What [ComputeIntersections] of a box gives: [Infinite] stands for hits at infinite
    distance, which happens only for the zero direction. Box.cxx:38-108. *)
Inductive box_result := Infinite | Hits (l : list hit).

(** Box.cxx:38-108, [ComputeIntersections]; [wx], [wy], [wz] are the full widths. *)
Definition box_hits (wx wy wz : R) (p d : vec) : box_result :=
  match slab (vx p) (vx d) (1 / 2 * wx) (None, None) with
  | None => Hits []
  | Some r1 =>
      match slab (vy p) (vy d) (1 / 2 * wy) r1 with
      | None => Hits []
      | Some r2 =>
          match slab (vz p) (vz d) (1 / 2 * wz) r2 with
          | None => Hits []
          | Some (Some te, Some tx) =>
              if Rlt_dec tx te then Hits []
              else Hits [mkhit (snap te) true (point_at p d (snap te)); mkhit (snap tx) false (point_at p d (snap tx))]
          | Some _ => Infinite
          end
      end
  end.

(** ** Sphere and spherical shell without angular cuts *)
Section Sorted.
(** [std::sort] by distance (Sphere.cxx:239-241, BooleanGeometry.cxx:171-178): some
    arrangement in increasing order of distance. *)
Variable sort : forall A : Type, (A -> R) -> list A -> list A.
Local Arguments sort {A}.

(** Sphere.cxx:128-140, [solve_shell]; [perp2] is the squared distance of the line from
    the centre. *)
Definition solve_shell (p d : vec) (r : R) (outer : bool) : list hit :=
  let c := vcross p d in
  let perp2 := vx c * vx c + vy c * vy c + vz c * vz c in
  let det := r * r - perp2 in
  if Rle_dec det 0 then []
  else
    let sq := sqrt det in
    let pd := vx p * vx d + vy p * vy d + vz p * vz d in
    let t1 := snap (- pd - sq) in
    let t2 := snap (- pd + sq) in
    [mkhit t1 outer (point_at p d t1); mkhit t2 (negb outer) (point_at p d t2)].

(** Sphere.cxx:90-144 and 235-253: shells without phi and theta cuts. *)
Definition sphere_hits (radius inner : R) (p d : vec) : list hit :=
  sort h_distance (solve_shell p d radius true ++ (if Rlt_dec 0 inner then solve_shell p d inner false else [])).

(** Sphere.cxx:45-48: the constructor swaps radii given in the wrong order. *)
Definition make_sphere (radius inner : R) : R * R := if Rlt_dec radius inner then (inner, radius) else (radius, inner).

(** ** Boolean combinations *)

(** BooleanGeometry.h:27, [BooleanOperation]. *)
Inductive bool_op := Union | Intersection | Subtraction.

(** BooleanGeometry.cxx:21-31, [IsInsideResult]. *)
Definition inside_result (op : bool_op) (l r : bool) : bool :=
  match op with
  | Union => l || r
  | Intersection => l && r
  | Subtraction => l && negb r
  end.

(** BooleanGeometry.cxx:123-127, [TaggedHit]: a hit and whether it is of the left child. *)
Definition tagged := (hit * bool)%type.

(** BooleanGeometry.cxx:214-219: the hits that belong to the batch starting at distance
    [from], and the rest. *)
Fixpoint batch (from : R) (l : list tagged) : list tagged * list tagged :=
  match l with
  | [] => ([], [])
  | h :: r =>
      if Rlt_dec (h_distance (fst h) - from) precision then let '(a, b) := batch from r in (h :: a, b)
      else ([], l)
  end.

(** BooleanGeometry.cxx:221-228: the states of the two children after a batch. *)
Definition apply_batch (l : list tagged) (s : bool * bool) : bool * bool :=
  fold_left (fun (s : bool * bool) (h : tagged) => if snd h then (h_entering (fst h), snd s) else (fst s, h_entering (fst h))) l s.

(** BooleanGeometry.cxx:213-243, the walk; [fuel] bounds the number of batches. The
    stack buffers of the code only save allocations. *)
Fixpoint bool_walk (fuel : nat) (op : bool_op) (l : list tagged) (s : bool * bool) (was : bool) : list hit :=
  match fuel with
  | O => []
  | S k =>
      match l with
      | [] => []
      | h :: r =>
          let '(b, rest) := batch (h_distance (fst h)) r in
          let s' := apply_batch (h :: b) s in
          let now := inside_result op (fst s') (snd s') in
          let final := fst (last (h :: b) h) in
          (if Bool.eqb was now then [] else [mkhit (h_distance final) now (h_position final)])
          ++ bool_walk k op rest s' now
      end
  end.

(** BooleanGeometry.cxx:117-249, [ComputeIntersections], from the hits of the children. *)
Definition bool_hits (op : bool_op) (left right : list hit) : list hit :=
  let all := sort (fun h : tagged => h_distance (fst h)) (map (fun h => (h, true)) left ++ map (fun h => (h, false)) right) in
  bool_walk (length all) op all (false, false) (inside_result op false false).
End Sorted.

(** ** Membership *)

(** Geometry.cxx:129-134: the loop of [IsInside] over the hits. *)
Fixpoint first_forward (l : list hit) : bool :=
  match l with
  | [] => false
  | h :: r => if Rlt_dec precision (h_distance h) then negb (h_entering h) else first_forward r
  end.

(** Geometry.cxx:121-135, [IsInside] with a direction; [compute] is the shape's
    ComputeIntersections. *)
Definition is_inside (compute : vec -> vec -> list hit) (pl : placement) (p d : vec) : bool :=
  first_forward (compute (global_to_local pl p) (global_to_local_dir pl d)).

(** Geometry.cxx:137-140, [IsInside] along z. *)
Definition is_inside_default (compute : vec -> vec -> list hit) (pl : placement) (p : vec) : bool :=
  is_inside compute pl p (mkv 0 0 1).

(** Geometry.cxx:217-228, [Intersections]. *)
Definition intersections (compute : vec -> vec -> list hit) (pl : placement) (p d : vec) : list hit :=
  if p_identity pl then compute p d
  else map (fun h => mkhit (h_distance h) (h_entering h) (local_to_global pl (h_position h)))
         (compute (global_to_local pl p) (global_to_local_dir pl d)).

(** ** Bounding boxes *)

(** AABB.h:16-18: the corners. *)
Record aabb := mkaabb { b_min : vec; b_max : vec }.

(** AABB.h:20-26: the empty box; [big] is the largest double. *)
Definition empty_aabb (big : R) : aabb := mkaabb (mkv big big big) (mkv (- big) (- big) (- big)).

(** AABB.h:32-43, [ExpandToInclude] a point. *)
Definition expand_point (b : aabb) (p : vec) : aabb :=
  mkaabb (mkv (Rmin (vx (b_min b)) (vx p)) (Rmin (vy (b_min b)) (vy p)) (Rmin (vz (b_min b)) (vz p)))
         (mkv (Rmax (vx (b_max b)) (vx p)) (Rmax (vy (b_max b)) (vy p)) (Rmax (vz (b_max b)) (vz p))).

(** AABB.h:46-49, [ExpandToInclude] a box. *)
Definition expand_box (b o : aabb) : aabb := expand_point (expand_point b (b_min o)) (b_max o).

(** AABB.h:99-103, [IsValid]. *)
Definition aabb_valid (b : aabb) : bool :=
  (if Rle_dec (vx (b_min b)) (vx (b_max b)) then true else false) &&
  (if Rle_dec (vy (b_min b)) (vy (b_max b)) then true else false) &&
  (if Rle_dec (vz (b_min b)) (vz (b_max b)) then true else false).

(** AABB.h:106-110, [Contains]. *)
Definition aabb_contains (b : aabb) (p : vec) : bool :=
  (if Rle_dec (vx (b_min b)) (vx p) then true else false) && (if Rle_dec (vx p) (vx (b_max b)) then true else false) &&
  (if Rle_dec (vy (b_min b)) (vy p) then true else false) && (if Rle_dec (vy p) (vy (b_max b)) then true else false) &&
  (if Rle_dec (vz (b_min b)) (vz p) then true else false) && (if Rle_dec (vz p) (vz (b_max b)) then true else false).

(** AABB.h:130-139 (and 141-150, 152-161): one axis of [RayAABBIntersect]; the direction component is given
    instead of its inverse, whose infinity stands for zero. [None]: rejected. *)
Definition aabb_axis (o d lo hi : R) (r : range) : option range :=
  if Req_EM_T d 0 then
    if Rlt_dec 0 (lo - o) then None else if Rlt_dec (hi - o) 0 then None else Some r
  else
    let t1 := (lo - o) * (1 / d) in
    let t2 := (hi - o) * (1 / d) in
    Some (match fst r with None => Some (Rmin t1 t2) | Some e => Some (Rmax e (Rmin t1 t2)) end,
          match snd r with None => Some (Rmax t1 t2) | Some x => Some (Rmin x (Rmax t1 t2)) end).

(** AABB.h:119-167, [RayAABBIntersect]. *)
Definition ray_aabb (o d : vec) (b : aabb) : bool :=
  match aabb_axis (vx o) (vx d) (vx (b_min b)) (vx (b_max b)) (None, None) with
  | None => false
  | Some r1 =>
      match aabb_axis (vy o) (vy d) (vy (b_min b)) (vy (b_max b)) r1 with
      | None => false
      | Some r2 =>
          match aabb_axis (vz o) (vz d) (vz (b_min b)) (vz (b_max b)) r2 with
          | None => false
          | Some (Some tmin, Some tmax) => if Rle_dec tmin tmax then true else false
          | Some _ => true
          end
      end
  end.

(** Box.cxx:111-119, [GetBoundingBox]. *)
Definition box_bounds (wx wy wz : R) : aabb :=
  let hx := wx * (1 / 2) in let hy := wy * (1 / 2) in let hz := wz * (1 / 2) in
  mkaabb (mkv (- hx) (- hy) (- hz)) (mkv hx hy hz).

(** Sphere.cxx:301-306, [GetBoundingBox]. *)
Definition sphere_bounds (r : R) : aabb := mkaabb (mkv (- r) (- r) (- r)) (mkv r r r).

(** Geometry.cxx:170-208, [RecomputeWorldAABB]. Corners are finite in the model; infinite
    boxes are returned unchanged by the code (lines 178-189). *)
Definition world_bounds (big : R) (pl : placement) (b : aabb) : aabb :=
  if aabb_valid b then
    fold_left (fun r p => expand_point r (local_to_global pl p))
      [mkv (vx (b_min b)) (vy (b_min b)) (vz (b_min b)); mkv (vx (b_min b)) (vy (b_min b)) (vz (b_max b));
       mkv (vx (b_min b)) (vy (b_max b)) (vz (b_min b)); mkv (vx (b_min b)) (vy (b_max b)) (vz (b_max b));
       mkv (vx (b_max b)) (vy (b_min b)) (vz (b_min b)); mkv (vx (b_max b)) (vy (b_min b)) (vz (b_max b));
       mkv (vx (b_max b)) (vy (b_max b)) (vz (b_min b)); mkv (vx (b_max b)) (vy (b_max b)) (vz (b_max b))]
      (empty_aabb big)
  else empty_aabb big.

(** BooleanGeometry.cxx:252-300, [GetBoundingBox]; [l] and [r] are the world boxes of the
    children, [None] for a missing child. *)
Definition bool_bounds (big : R) (op : bool_op) (l r : option aabb) : aabb :=
  match op with
  | Union =>
      let a := match l with Some b => expand_box (empty_aabb big) b | None => empty_aabb big end in
      match r with Some b => expand_box a b | None => a end
  | Intersection =>
      match l, r with
      | Some a, Some b =>
          let mn := mkv (Rmax (vx (b_min a)) (vx (b_min b))) (Rmax (vy (b_min a)) (vy (b_min b))) (Rmax (vz (b_min a)) (vz (b_min b))) in
          let mx := mkv (Rmin (vx (b_max a)) (vx (b_max b))) (Rmin (vy (b_max a)) (vy (b_max b))) (Rmin (vz (b_max a)) (vz (b_max b))) in
          if aabb_valid (mkaabb mn mx) then mkaabb mn mx else empty_aabb big
      | _, _ => empty_aabb big
      end
  | Subtraction => match l with Some a => a | None => empty_aabb big end
  end.

(** ** Shapes built from boxes and spheres *)

(** Box.h, Sphere.h, BooleanGeometry.h: the members. Both children of a combination are
    present, and spheres have no angular cuts. The other shapes are not modelled.
    Box.h:72-74, Sphere.h:84-85, BooleanGeometry.h:71-73. *)
Inductive shape :=
| SBox (pl : placement) (wx wy wz : R)
| SSphere (pl : placement) (radius inner : R)
| SBool (pl : placement) (op : bool_op) (l r : shape).

(** Geometry.h, [placement_]. Geometry.h:212. *)
Definition shape_placement (s : shape) : placement :=
  match s with SBox pl _ _ _ | SSphere pl _ _ | SBool pl _ _ _ => pl end.

(** Box.cxx:38-108, Sphere.cxx:90-297, BooleanGeometry.cxx:117-249: the virtual
    [ComputeIntersections]. A box has no finite hits for the zero direction. *)
Fixpoint shape_compute (sort : forall A : Type, (A -> R) -> list A -> list A) (s : shape) : vec -> vec -> list hit :=
  match s with
  | SBox _ wx wy wz => fun p d => match box_hits wx wy wz p d with Hits l => l | Infinite => [] end
  | SSphere _ radius inner => fun p d => sphere_hits sort radius inner p d
  | SBool _ op l r => fun p d =>
      bool_hits sort op (intersections (shape_compute sort l) (shape_placement l) p d)
                        (intersections (shape_compute sort r) (shape_placement r) p d)
  end.

(** Geometry.cxx:217-228, [Intersections] of a shape. *)
Definition shape_hits sort (s : shape) : vec -> vec -> list hit := intersections (shape_compute sort s) (shape_placement s).

(** Geometry.cxx:121-135, [IsInside] of a shape. *)
Definition shape_inside sort (s : shape) (p d : vec) : bool := is_inside (shape_compute sort s) (shape_placement s) p d.

(** Geometry.cxx:210-215, [GetWorldBoundingBox]. *)
Fixpoint shape_bounds (big : R) (s : shape) : aabb :=
  match s with
  | SBox pl wx wy wz => world_bounds big pl (box_bounds wx wy wz)
  | SSphere pl radius _ => world_bounds big pl (sphere_bounds radius)
  | SBool pl op l r => world_bounds big pl (bool_bounds big op (Some (shape_bounds big l)) (Some (shape_bounds big r)))
  end.
