(** What a path should be: a stretch of a straight line, known in two frames. *)
From Coq Require Import Reals List Bool ZArith.
From Verif Require Import TraversalModel VectorModel QuatModel QuatSpec DepthModel PathModel.
Import ListNotations.
Open Scope R_scope.

(** The point a signed distance [t] from [a] along [d]. *)
Definition along_by (a d : vec) (t : R) : vec := vadd a (vscale t d).

(** [lies e k i j]: the ends are joined by a straight line of length [k] in their direction;
    [i] and [j] tell whether the first and the last point are at infinity. *)
Inductive lies (e : ends) : num -> bool -> bool -> Prop :=
| lies_between a x : vdot (dir e) (dir e) = 1 -> 0 <= x -> first e = At a -> last e = At (along_by a (dir e) x) ->
    lies e (Num x) false false
| lies_forward a : vdot (dir e) (dir e) = 1 -> first e = At a -> last e = Far -> lies e (Inf false) false true
| lies_backward b : vdot (dir e) (dir e) = 1 -> first e = Far -> last e = At b -> lies e (Inf false) true false.

(** One of the ends. *)
Definition end_of (e : ends) (a : vec) : Prop := first e = At a \/ last e = At a.

(** The line through [a] in direction [d], either way, is the line on which [l] was cast. *)
Definition same_line (l : line) (a d : vec) : Prop :=
  (l_direction l = d \/ l_direction l = vneg d) /\ exists t, a = along_by (l_position l) (l_direction l) t.

(** The same stretch in the two frames of a detector. *)
Definition same_place {Q} (m : detector Q) (g d : ends) : Prop :=
  (forall a, first d = At a -> first g = At (to_geo (d_frame m) a)) /\ (first d = Far -> first g = Far) /\
  (forall a, last d = At a -> last g = At (to_geo (d_frame m) a)) /\ (last d = Far -> last g = Far) /\
  dir g = to_geo_dir (d_frame m) (dir d).

(** A detector whose frame is a rotation and a shift, and whose crossings remember the ray. *)
Definition proper {Q} (m : detector Q) : Prop :=
  nonzero (ds_rotation (d_frame m)) /\ exact (ds_rotation (d_frame m)) /\
  forall a d, l_position (d_cast m (At a) d) = a /\ l_direction (d_cast m (At a) d) = d.

Definition finite (k : num) : Prop := exists x, k = Num x.

(** Rays that are nearly, by the tolerances of the code, on the line [l]. *)
Definition nearly (l : line) (a d : vec) : Prop :=
  1 - 1 / 10 ^ 9 < Rabs (vdot (vnormalized d) (l_direction l)) /\
  vmag (vcross (vsub a (l_position l)) (l_direction l)) < 1 / 10 ^ 6 * (1 + vmag (vsub a (l_position l))).

(** [w] is a point of the stretch. *)
Definition member (e : ends) (w : vec) : Prop :=
  exists t, (forall a, first e = At a -> w = along_by a (dir e) t /\ 0 <= t) /\
            (forall b, last e = At b -> exists s, b = along_by w (dir e) s /\ 0 <= s).

Section Fair.
Context {Q : Type}.
Variable m : detector Q.

(** Crossings are known, or can be computed from a finite first point. *)
Definition castable (p : path Q) : Prop := set_cached p = false -> exists a, first (get_geo_ends p) = At a.

(** Crossings are not taken over from a line that is only nearly the same. *)
Definition clear (p : path Q) (a d : vec) : Prop :=
  set_cached p = true -> nearly (cached p) a d -> same_line (cached p) a (vnormalized d).

Definition ray_length (k : num) : Prop := k = Inf false \/ exists x, k = Num x /\ 0 <= x.

(** The path shares a point with the stretch between the outermost crossings. *)
Definition overlaps (p : path Q) : Prop :=
  forall q h0 h1 u0 u1, prepare p = Ok q -> outer_bounds int_min (l_hits (cached q)) = [h0; h1] ->
    hit_position (cached q) h0 = At u0 -> hit_position (cached q) h1 = At u1 ->
    exists s, 0 <= s <= 1 /\ member (get_geo_ends q) (along_by u0 (vsub u1 u0) s).

(** The distances found for a depth are finite. *)
Definition reached (f : Q -> num -> path Q -> outcome (path Q * num)) (q : Q) (x : num) (p : path Q) : Prop :=
  forall r, f q x p = Ok r -> finite (snd r).

(** Calls that are within reason: finite amounts, distinct points, directions other than zero. *)
Definition fair (o : op Q) (p : path Q) : Prop :=
  match o with
  | SetPoints a b | SetPointsDet a b => forall u v, a = At u -> b = At v -> u <> v
  | SetRay a d k => d <> mkv 0 0 0 /\ ray_length k /\ forall u, a = At u -> clear p u d
  | SetRayDet a d k => d <> mkv 0 0 0 /\ ray_length k /\
      forall u, a = At u -> clear p (to_geo (d_frame m) u) (to_geo_dir (d_frame m) d)
  | Compute => exists a, first (get_geo_ends p) = At a
  | GetDepth _ => castable p
  | Clip => castable p /\ overlaps p
  | Flip | GetEnds | GetGeoEnds => True
  | ExtendEnd k | ExtendStart k | ShrinkEnd k | ShrinkStart k | ExtendEndTo k | ExtendStartTo k => finite k
  | ShrinkEndTo k | ShrinkStartTo k => finite k /\ finite (get_distance p)
  | ExtendEndBy q x => castable p /\ reached reach_end_along q x p
  | ExtendStartBy q x => castable p /\ reached reach_start_reverse q x p
  | ShrinkEndBy q x => castable p /\ reached reach_end_reverse q x p
  | ShrinkStartBy q x => castable p /\ reached reach_start_along q x p
  | ExtendEndUpto q x => castable p /\ forall r, depth_in_bounds q p = Ok r -> reached reach_end_along q (nadd x (nneg (snd r))) (fst r)
  | ExtendStartUpto q x => castable p /\ forall r, depth_in_bounds q p = Ok r -> reached reach_start_reverse q (nadd x (nneg (snd r))) (fst r)
  | ShrinkEndUpto q x => castable p /\ forall r, depth_in_bounds q p = Ok r -> reached reach_end_reverse q (nadd (snd r) (nneg x)) (fst r)
  | ShrinkStartUpto q x => castable p /\ forall r, depth_in_bounds q p = Ok r -> reached reach_start_along q (nadd (snd r) (nneg x)) (fst r)
  end.

(** What a sequence of such calls can lead to. *)
Inductive history : path Q -> Prop :=
| history_new : history (new_with m)
| history_step p o p' : history p -> fair o p -> apply o p = Ok p' -> history p'.
End Fair.

(** Same points, direction and length, in both frames. *)
Definition alike {Q} (p p' : path Q) : Prop :=
  get_ends p = get_ends p' /\ get_geo_ends p = get_geo_ends p' /\ get_distance p = get_distance p' /\
  first_inf p = first_inf p' /\ last_inf p = last_inf p' /\ set_cached p = set_cached p' /\ cached p = cached p'.
