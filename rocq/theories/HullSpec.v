(** Specification of parallelepipeds and general trapezoids: the points between their
    corners. Nothing here refers to how crossings are computed. *)
From Coq Require Import Reals List Bool.
From Verif Require Import VectorModel GeometryModel GeometrySpec.
Import ListNotations.
Open Scope R_scope.

(** Sums of corners with weights. *)
Fixpoint weighted (ws : list R) (vs : list vec) : vec :=
  match ws, vs with w :: ws, v :: vs => vadd (vscale w v) (weighted ws vs) | _, _ => mkv 0 0 0 end.
Fixpoint total (ws : list R) : R := match ws with [] => 0 | w :: r => w + total r end.

(** The points between the points [vs]. *)
Definition between_points (vs : list vec) (q : vec) : Prop :=
  exists ws, length ws = length vs /\ Forall (fun w => 0 <= w) ws /\ total ws = 1 /\ weighted ws vs = q.

(** What a convex solid does to a line: nothing of it is inside, or the part between an
    entry and an exit. *)
Definition clips (inside : R -> Prop) (e x : R) : Prop := e <= x /\ forall t, inside t <-> e <= t <= x.

(** A parallelepiped around the origin with half edges along x, in the plane of x and y,
    and with a third one that rises by [dz]. *)
Definition in_para (dx dy dz alpha theta phi : R) (q : vec) : Prop := exists a b c,
  Rabs a <= 1 /\ Rabs b <= 1 /\ Rabs c <= 1 /\
  vx q = a * dx + b * (dy * tan alpha) + c * (dz * tan theta * cos phi) /\
  vy q = b * dy + c * (dz * tan theta * sin phi) /\ vz q = c * dz.

(** The direction is in the plane with normal [n], or off it by the precision. *)
Definition oblique (n d : vec) : Prop := vdot n d = 0 \/ precision * sqrt (vdot n n) <= Rabs (vdot n d).

(** The normals of a parallelepiped. *)
Definition para_normals (dy dz alpha theta phi : R) : list vec :=
  [mkv dy (- (dy * tan alpha)) (tan theta * (tan alpha * sin phi - cos phi) * dy); mkv 0 dz (- (dz * tan theta * sin phi)); mkv 0 0 1].

(** Corners of a general trapezoid: the two ends are at heights [-dz] and [dz], with centres
    along the direction of polar angle [theta] and azimuth [phi]; each has two sides along x,
    at distance [dy] from its centre, with the given half lengths, and whose centres are on a line
    at the angle [alpha] to the y axis. *)
Definition corner (dz theta phi dy alpha : R) (sx sy sz dx : R) : vec :=
  mkv (sz * (dz * tan theta * cos phi) + sy * (dy * tan alpha) + sx * dx) (sz * (dz * tan theta * sin phi) + sy * dy) (sz * dz).

(** The four sides are flat: both ends have the same slopes on both sides. *)
Definition flat_sides (dy1 dx1 dx2 alpha1 dy2 dx3 dx4 alpha2 : R) : Prop :=
  tan alpha1 = tan alpha2 /\ dy2 * (dx2 - dx1) = dy1 * (dx4 - dx3).

(** No side has shrunk to a point or a line that the planes are computed from. *)
Definition full_sides (dz dy1 dx1 dx2 dy2 dx3 dx4 : R) : Prop :=
  0 < dz /\ 0 < dy1 /\ 0 < dy2 /\ 0 < dx1 /\ 0 < dx2 /\ 0 <= dx3 /\ 0 < dx4.
Definition trap_corners (dz theta phi dy1 dx1 dx2 alpha1 dy2 dx3 dx4 alpha2 : R) : list vec :=
  [corner dz theta phi dy1 alpha1 (- (1)) (- (1)) (- (1)) dx1; corner dz theta phi dy1 alpha1 1 (- (1)) (- (1)) dx1;
   corner dz theta phi dy1 alpha1 1 1 (- (1)) dx2; corner dz theta phi dy1 alpha1 (- (1)) 1 (- (1)) dx2;
   corner dz theta phi dy2 alpha2 (- (1)) (- (1)) 1 dx3; corner dz theta phi dy2 alpha2 1 (- (1)) 1 dx3;
   corner dz theta phi dy2 alpha2 1 1 1 dx4; corner dz theta phi dy2 alpha2 (- (1)) 1 1 dx4].

(** The direction is not nearly parallel to the plane through three corners of a face. *)
Definition clear_trap (vs : list vec) (d : vec) : Prop := forall i j k,
  In (i, j, k) [(0, 1, 2); (7, 6, 5); (0, 1, 5); (3, 2, 6); (0, 3, 7); (1, 2, 6)]%nat ->
  let v i := nth i vs (mkv 0 0 0) in oblique (vcross (vsub (v j) (v i)) (vsub (v k) (v i))) d.
