(** Specification of the solids: which points they hold, and what a list of crossings has
    to be. Nothing here refers to how crossings are computed. *)
From Coq Require Import Reals List Bool.
From Verif Require Import VectorModel GeometryModel GeometrySpec.
Import ListNotations.
Open Scope R_scope.

(** At a crossing one is inside on one side and outside on the other. *)
Definition crosses (inside : R -> Prop) (h : hit) : Prop := exists e, 0 < e /\
  (forall u, h_distance h - e < u < h_distance h -> (inside u <-> h_entering h = false)) /\
  (forall u, h_distance h < u < h_distance h + e -> (inside u <-> h_entering h = true)).

(** The crossings are exactly those of the part of the line that [inside] describes: in
    order, entering and leaving by turns, beginning and ending outside, each of them real,
    and between them the last one tells whether one is inside. *)
Record traces (inside : R -> Prop) (l : list hit) : Prop := {
  tr_strict : strict l;
  tr_alternating : alternating true l;
  tr_closed : closed l;
  tr_real : forall h, In h l -> crosses inside h;
  tr_state : forall t, (forall h, In h l -> h_distance h <> t) -> (inside t <-> state l t = true)
}.

(** ** Cylinders *)

(** Squared distance from the axis. *)
Definition radial (q : vec) : R := vx q * vx q + vy q * vy q.

(** A hollow cylinder with radii [r] and [i] and half height [h]. *)
Definition in_cylinder (r i h : R) (q : vec) : Prop :=
  radial q < r * r /\ (0 < i -> i * i <= radial q) /\ Rabs (vz q) <= h.

(** The walls and the planes of the lids. *)
Definition on_wall (r i : R) (q : vec) : Prop := radial q = r * r \/ (0 < i /\ radial q = i * i).
Definition on_lid (h : R) (q : vec) : Prop := Rabs (vz q) = h.

(** Lines that keep clear of the rims, and whose points on walls and lids are not closer
    to one another than the precision, nor less than that ahead of the origin. *)
Record clear_cylinder (r i h : R) (p d : vec) : Prop := {
  cc_apart : forall t u, let on t := on_wall r i (on_line p d t) \/ on_lid h (on_line p d t) in
    on t -> on u -> t <> u -> precision <= Rabs (t - u);
  cc_ahead : forall t, on_wall r i (on_line p d t) \/ on_lid h (on_line p d t) -> ~ 0 < t < precision;
  cc_wall : forall t, on_wall r i (on_line p d t) -> ~ h <= Rabs (vz (on_line p d t)) <= h + precision;
  cc_lid : forall t, on_lid h (on_line p d t) -> let s := radial (on_line p d t) in
    ~ r * r <= s <= r * r + precision /\ (0 < i -> ~ i * i - precision <= s <= i * i)
}.

(** ** Ellipsoids *)

(** Points between two heights of the ellipsoid with half axes [a], [b], [c]. *)
Definition quadric (a b c : R) (q : vec) : R := (vx q / a) ^ 2 + (vy q / b) ^ 2 + (vz q / c) ^ 2.
Definition in_ellipsoid (a b c z1 z2 : R) (q : vec) : Prop := quadric a b c q < 1 /\ z1 <= vz q <= z2.
Definition on_cut (z1 z2 : R) (q : vec) : Prop := vz q = z1 \/ vz q = z2.

(** Lines that do not touch the ellipsoid, are not nearly parallel to the cuts, keep clear
    of the rims, and whose points on the surfaces keep apart. *)
Record clear_ellipsoid (a b c z1 z2 : R) (p d : vec) : Prop := {
  ce_level : vz d = 0 \/ precision < Rabs (vz d);
  ce_touch : forall t, quadric a b c (on_line p d t) = 1 -> exists u, u <> t /\ quadric a b c (on_line p d u) = 1;
  ce_apart : forall t u, let on t := quadric a b c (on_line p d t) = 1 \/ on_cut z1 z2 (on_line p d t) in
    on t -> on u -> t <> u -> precision <= Rabs (t - u);
  ce_ahead : forall t, quadric a b c (on_line p d t) = 1 \/ on_cut z1 z2 (on_line p d t) -> ~ 0 < t < precision;
  ce_surface : forall t, quadric a b c (on_line p d t) = 1 -> let z := vz (on_line p d t) in
    ~ z1 - precision <= z <= z1 /\ ~ z2 <= z <= z2 + precision;
  ce_cut : forall t, on_cut z1 z2 (on_line p d t) -> ~ 1 <= quadric a b c (on_line p d t) <= 1 + precision
}.

(** ** Elliptical tubes *)
Definition ellipse (a b : R) (q : vec) : R := (vx q / a) ^ 2 + (vy q / b) ^ 2.
Definition in_tube (a b h : R) (q : vec) : Prop := ellipse a b q < 1 /\ Rabs (vz q) <= h.

(** Lines neither nearly parallel to the axis nor to the lids that keep clear of the rims. *)
Record clear_tube (a b h : R) (p d : vec) : Prop := {
  ct_upright : (vx d = 0 /\ vy d = 0) \/ precision * precision < ellipse a b d;
  ct_level : vz d = 0 \/ precision < Rabs (vz d);
  ct_wall : forall t, ellipse a b (on_line p d t) = 1 -> ~ h <= Rabs (vz (on_line p d t)) <= h + precision;
  ct_lid : forall t, on_lid h (on_line p d t) -> ~ 1 <= ellipse a b (on_line p d t) <= 1 + precision
}.

(** ** Trapezoids *)

(** Half widths at the height of [q]. *)
Definition width (w1 w2 h : R) (q : vec) : R := w1 + (w2 - w1) * ((vz q + h) / (2 * h)).
Definition in_trd (x1 x2 y1 y2 h : R) (q : vec) : Prop :=
  Rabs (vz q) <= h /\ Rabs (vx q) <= width x1 x2 h q /\ Rabs (vy q) <= width y1 y2 h q.

(** How far [q] is beyond each of the six planes, up to a factor. *)
Definition trd_faces (x1 x2 y1 y2 h : R) : list (vec -> R) :=
  [fun q => vz q - h; fun q => - vz q - h;
   fun q => vx q - width x1 x2 h q; fun q => - vx q - width x1 x2 h q;
   fun q => vy q - width y1 y2 h q; fun q => - vy q - width y1 y2 h q].

(** Lines that avoid the edges and are not nearly parallel to a face. *)
Record clear_trd (x1 x2 y1 y2 h : R) (p d : vec) : Prop := {
  ck_level : vz d = 0 \/ precision < Rabs (vz d);
  ck_sides : forall s k, (k = x1 - x2 /\ s = vx d) \/ (k = x1 - x2 /\ s = - vx d) \/ (k = y1 - y2 /\ s = vy d) \/ (k = y1 - y2 /\ s = - vy d) ->
    2 * h * s + k * vz d = 0 \/ precision < Rabs (2 * h * s + k * vz d);
  ck_edges : forall t i j, in_trd x1 x2 y1 y2 h (on_line p d t) ->
    nth i (trd_faces x1 x2 y1 y2 h) (fun _ => 1) (on_line p d t) = 0 -> nth j (trd_faces x1 x2 y1 y2 h) (fun _ => 1) (on_line p d t) = 0 -> i = j;
  ck_ahead : forall t i, nth i (trd_faces x1 x2 y1 y2 h) (fun _ => 1) (on_line p d t) = 0 -> ~ 0 < t < precision
}.
