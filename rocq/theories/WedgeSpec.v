(** What a range of azimuths means for points, and which lines keep clear of its edges. *)
From Coq Require Import Reals List Bool.
From Verif Require Import VectorModel GeometryModel GeometrySpec SolidSpec.
Import ListNotations.
Open Scope R_scope.

(** The points whose azimuth is between [start] and [start + delta]. *)
Definition in_wedge (start delta x y : R) : Prop :=
  exists r phi, 0 <= r /\ 0 <= phi <= delta /\ x = r * cos (start + phi) /\ y = r * sin (start + phi).

(** How far the vector is to the left of the ray at the angle [a], and how far along it. *)
Definition across (a x y : R) : R := - x * sin a + y * cos a.
Definition along (a x y : R) : R := x * cos a + y * sin a.

(** Lines that are not nearly parallel to a half plane and pass the axis at a distance. *)
Record clear_wedge (start delta : R) (p d : vec) : Prop := {
  cw_slope : forall a, a = start \/ a = start + delta -> precision < Rabs (across a (vx d) (vy d));
  cw_axis : forall a t, a = start \/ a = start + delta ->
    across a (vx (on_line p d t)) (vy (on_line p d t)) = 0 ->
    10 ^ 3 * precision < Rabs (along a (vx (on_line p d t)) (vy (on_line p d t)));
  cw_ahead : forall a t, a = start \/ a = start + delta ->
    across a (vx (on_line p d t)) (vy (on_line p d t)) = 0 -> ~ 0 < t < precision
}.

(** Points on the two half planes. *)
Definition on_face (start delta : R) (q : vec) : Prop :=
  (across start (vx q) (vy q) = 0 /\ 0 <= along start (vx q) (vy q)) \/
  (across (start + delta) (vx q) (vy q) = 0 /\ 0 <= along (start + delta) (vx q) (vy q)).
