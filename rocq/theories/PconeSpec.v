(** What the planes of a polycone have to be, and what its walls and steps are; nothing here refers to
    how crossings are computed. *)
From Coq Require Import Reals List Bool ZArith.
From Verif Require Import VectorModel GeometryModel GeometrySpec SolidSpec PconeModel.
Import ListNotations.
Open Scope R_scope.

(** Heights that never fall, or never rise, along the list. *)
Definition rising (l : list plane) : Prop := forall a u b v c, l = a ++ u :: b ++ v :: c -> pl_z u <= pl_z v.
Definition falling (l : list plane) : Prop := forall a u b v c, l = a ++ u :: b ++ v :: c -> pl_z v <= pl_z u.

(** Radii that make sense. *)
Definition proper (u : plane) : Prop := 0 <= pl_min u <= pl_max u.

(** The planes of a document in metres. *)
Definition scaled (lscale : R) (e : R * R * R) : plane := mkplane (fst (fst e) * lscale) (snd (fst e) * lscale) (snd e * lscale).

(** The azimuths of a document in radians. *)
Definition range_given (delta : option R) (ascale : R) : R := match delta with Some x => x * ascale | None => 2 * PI end.
Definition start_given (start : option R) (ascale : R) : R := match start with Some x => x * ascale | None => 0 end.

(** The radius at height [z] of the cone with radius [rlo] at [lo] and [rhi] at [hi]. *)
Definition radius_at (lo hi rlo rhi z : R) : R := rlo + (rhi - rlo) * (z - lo) / (hi - lo).

(** How far a point of the line is out of the cone, as a difference of squares. *)
Definition outside_by (p d : vec) (lo hi rlo rhi t : R) : R :=
  radial (on_line p d t) - radius_at lo hi rlo rhi (vz (on_line p d t)) * radius_at lo hi rlo rhi (vz (on_line p d t)).

(** The line goes from outside to inside at [t], or the other way round. *)
Definition goes_in (f : R -> R) (t : R) : Prop := exists e, 0 < e /\ (forall u, t - e < u < t -> 0 < f u) /\ (forall u, t < u < t + e -> f u < 0).
Definition goes_out (f : R -> R) (t : R) : Prop := goes_in (fun u => - f u) t.

(** The line bends away from the cone (second difference), or runs parallel to it with slope [s]. *)
Definition bend (d : vec) (lo hi rlo rhi : R) : R :=
  vx d * vx d + vy d * vy d - ((rhi - rlo) / (hi - lo)) ^ 2 * vz d * vz d.

(** The point at squared distance [r2] from the axis is between the two radii. *)
Definition between_radii (u : plane) (r2 : R) : bool :=
  if Rle_dec (pl_min u * pl_min u) r2 then if Rlt_dec r2 (pl_max u * pl_max u) then true else false else false.

(** Entries less exits. *)
Definition net (l : list hit) : Z := fold_right (fun h n => ((if h_entering h then 1 else -1) + n)%Z) 0%Z l.

(** The hits at one distance. *)
Definition at_time (t : R) (l : list hit) : list hit := filter (fun h => if Req_EM_T (h_distance h) t then true else false) l.
