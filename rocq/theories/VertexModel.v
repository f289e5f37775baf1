(** Model of the one-dimensional sampling along a path and of the probabilities used when
    weighting.  Sources: projects/distributions/private/primary/vertex/*.cxx,
    projects/distributions/private/secondary/vertex/*.cxx and
    projects/injection/public/SIREN/injection/Weighter.tcc.  Doubles are real numbers. *)
From Coq Require Import Reals Bool.
From Verif Require Import VectorModel QuatModel.
Open Scope R_scope.

(** ** 1 - exp(-x) *)

(** Weighter.tcc:43 and 51 (and the same line in every vertex distribution, e.g.
    ColumnDepthPositionDistribution.cxx:33): the series below 0.1. *)
Definition small_series (x : R) : R := ln x - x / 2 + x * x / 24 - x * x * x * x / 2880.

(** Weighter.tcc:41-47, [one_minus_exp_of_negative]. *)
Definition one_minus_exp (x : R) : R :=
  if Rlt_dec x (1 / 10) then exp (small_series x) else 1 - exp (- x).

(** Weighter.tcc:53-59: the series above 3. *)
Definition large_series (x : R) : R :=
  let ex := exp (- x) in
  let ex2 := ex * ex in
  let ex3 := ex2 * ex in
  let ex4 := ex3 * ex in
  let ex5 := ex4 * ex in
  let ex6 := ex5 * ex in
  - (ex + ex2 / 2 + ex3 / 3 + ex4 / 4 + ex5 / 5 + ex6 / 6).

(** Weighter.tcc:49-63, [log_one_minus_exp_of_negative]; repeated in
    ColumnDepthPositionDistribution.cxx:31-45, FixedTargetPositionDistribution.cxx:28-42,
    PointSourcePositionDistribution.cxx:29-43, PrimaryBoundedVertexDistribution.cxx:31-45,
    PrimaryPhysicalVertexDistribution.cxx:31-45, RangePositionDistribution.cxx:31-45,
    SecondaryBoundedVertexDistribution.cxx:33-47 and
    SecondaryPhysicalVertexDistribution.cxx:31-45. *)
Definition log_one_minus_exp (x : R) : R :=
  if Rlt_dec x (1 / 10) then small_series x
  else if Rlt_dec 3 x then large_series x
  else ln (1 - exp (- x)).

(** Weighter.tcc:136-142, the end of [InteractionProbability], from the total interaction
    depth between the bounds. *)
Definition interaction_probability (T : R) : R :=
  if Rlt_dec T (1 / 1000000) then T else one_minus_exp T.

(** Weighter.tcc:146-152, [SurvivalProbability]. *)
Definition survival_probability (T : R) : R :=
  let s := 1 - interaction_probability T in
  let s := if Rlt_dec s 0 then 0 else s in
  if Rlt_dec 1 s then 1 else s.

(** ** Depth of the vertex *)

(** ColumnDepthPositionDistribution.cxx:95-103 (and PrimaryPhysicalVertexDistribution.cxx:82-90,
    PrimaryBoundedVertexDistribution.cxx:100-108, RangePositionDistribution.cxx:94-102,
    PointSourcePositionDistribution.cxx:81-89, FixedTargetPositionDistribution.cxx:108-116,
    SecondaryPhysicalVertexDistribution.cxx:81-89, SecondaryBoundedVertexDistribution.cxx:101-109):
    the traversed interaction depth from the total one and a uniform variate [y]. *)
Definition traversed_depth (T y : R) : R :=
  if Rlt_dec T (1 / 1000000) then y * T
  else
    let e := exp (- T) in
    - ln (y * e + (1 - y)).

(** ColumnDepthPositionDistribution.cxx:164-169 (and PrimaryPhysicalVertexDistribution.cxx:136-141,
    PrimaryBoundedVertexDistribution.cxx:172-177, RangePositionDistribution.cxx:154-159,
    PointSourcePositionDistribution.cxx:135-140, FixedTargetPositionDistribution.cxx:185-190,
    SecondaryPhysicalVertexDistribution.cxx:133-138, SecondaryBoundedVertexDistribution.cxx:171-176)
    and Weighter.tcc:199-205: the density of the position, [mu] being the interaction density
    there, [T] the total and [t] the traversed depth. *)
Definition position_density (mu T t : R) : R :=
  if Rlt_dec T (1 / 1000000) then mu / T else mu * exp (- log_one_minus_exp T - t).

(** ** Decay in flight *)

(** DecayRangePositionDistribution.cxx:51-53: the distance along the path from the variate,
    [L] being the decay length and [D] the length of the path. *)
Definition decay_distance (L D y : R) : R := - L * ln (y * (exp (- D / L) - 1) + 1).

(** DecayRangePositionDistribution.cxx:85: the density per length; 86 divides it by the area of
    the disk. *)
Definition decay_density (L D d : R) : R := exp (- d / L) / (L * (1 - exp (- D / L))).

(** ** Vertex positions in a cylinder around the axis *)

(** DecayRangePositionDistribution.cxx:28-34 and ColumnDepthPositionDistribution.cxx:51-57,
    [SampleFromDisk], [u] and [w] being the two variates in the unit interval. *)
Definition sample_disk (radius u w : R) (dir : vec) : vec :=
  let t := u * (2 * PI) in
  let r := radius * sqrt w in
  qrotate (rotation_between (mkv 0 0 1) dir) (mkv (r * cos t) (r * sin t) 0) false.

(** DecayRangePositionDistribution.cxx:65 and ColumnDepthPositionDistribution.cxx:124: the point
    of the line through the vertex closest to the origin. *)
Definition closest (dir v : vec) : vec := vsub v (vscale (vdot dir v) dir).

(** The part of Path.cxx the two distributions use: DecayRangePositionDistribution.cxx:43-48 and
    72-77, ColumnDepthPositionDistribution.cxx:66-71 and 131-136. The path starts at the lower
    endcap; extending it backwards and clipping it to the detector moves the start by [fst trim]
    along the direction and leaves the length [snd trim]. How far is left open. *)
Definition path_of (trim : vec -> vec -> R * R) (endcap : R) (pca dir : vec) : vec * R :=
  let '(a, len) := trim pca dir in
  (vadd (vsub pca (vscale endcap dir)) (vscale a dir), len).

(** Path.cxx:849-868, [IsWithinBounds] for a point in detector coordinates. *)
Definition within_bounds (first dir : vec) (len : R) (p : vec) : bool :=
  let last := vadd first (vscale len dir) in
  let d0 := vdot dir (vsub first p) in
  let d1 := vdot dir (vsub last p) in
  let d0 := if Rlt_dec 0 d0 then if Rlt_dec d0 (1 / 1000) then 0 else d0 else d0 in
  let d1 := if Rlt_dec d1 0 then if Rlt_dec (- (1 / 1000)) d1 then 0 else d1 else d1 in
  (if Rle_dec d0 0 then true else false) && (if Rle_dec 0 d1 then true else false).

(** Path.cxx:870-881, [GetDistanceFromStartInBounds]. *)
Definition distance_in_bounds (first dir : vec) (p : vec) : R := Rmax 0 (vdot dir (vsub p first)).

(** DecayRangePositionDistribution.cxx:36-59, [SamplePosition]: initial position and vertex. *)
Definition decay_sample trim (radius endcap L u w y : R) (direction : vec) : vec * vec :=
  let dir := vnormalized direction in
  let pca := sample_disk radius u w dir in
  let '(first, len) := path_of trim endcap pca dir in
  (first, vadd first (vscale (decay_distance L len y) dir)).

(** DecayRangePositionDistribution.cxx:61-88, [GenerationProbability]. *)
Definition decay_generation trim (radius endcap L : R) (direction vertex : vec) : R :=
  let dir := vnormalized direction in
  let pca := closest dir vertex in
  if Rle_dec radius (vmag pca) then 0
  else
    let '(first, len) := path_of trim endcap pca dir in
    if negb (within_bounds first dir len vertex) then 0
    else decay_density L len (vdot dir (vsub vertex first)) / (PI * radius * radius).

(** ColumnDepthPositionDistribution.cxx:59-110, [SamplePosition]. [depth first dir d] is the
    interaction depth of the first [d] metres of the ray and [reach first dir t] the distance at
    which the depth is [t] (Path.cxx; both are modelled in DepthModel.v). [None] is the exception
    of line 92. *)
Definition depth_sample trim (depth reach : vec -> vec -> R -> R) (radius endcap u w y : R)
    (direction : vec) : option (vec * vec) :=
  let dir := vnormalized direction in
  let pca := sample_disk radius u w dir in
  let '(first, len) := path_of trim endcap pca dir in
  let T := depth first dir len in
  if Req_EM_T T 0 then None
  else Some (first, vadd first (vscale (reach first dir (traversed_depth T y)) dir)).

(** ColumnDepthPositionDistribution.cxx:120-174, [GenerationProbability]; [mu] is the
    interaction density at a point. *)
Definition depth_generation trim (depth : vec -> vec -> R -> R) (mu : vec -> R) (radius endcap : R)
    (direction vertex : vec) : R :=
  let dir := vnormalized direction in
  let pca := closest dir vertex in
  if Rle_dec radius (vmag pca) then 0
  else
    let '(first, len) := path_of trim endcap pca dir in
    if negb (within_bounds first dir len vertex) then 0
    else
      let T := depth first dir len in
      let t := depth first dir (distance_in_bounds first dir vertex) in
      position_density (mu vertex) T t / (PI * radius * radius).
