(** What uniform sampling of a volume means, without reference to the code. *)
From Coq Require Import Reals.
From Verif Require Import VectorModel.
Open Scope R_scope.

(** [f] is the share of the interval from [a] to [b] that lies below [x]. *)
Definition share (a b x f : R) : Prop := f * (b - a) = x - a.

(** The volume of the part of a cylinder around the axis with radii from [i] to [r], heights
    from [a] to [b] and azimuths from 0 to [t]. *)
Definition ring_volume (i r a b t : R) : R := t / 2 * (r * r - i * i) * (b - a).

(** The volume of the part of a ball with radii from [i] to [r], azimuths from 0 to [t] and
    cosines of the zenith from -1 to [c]. *)
Definition cap_volume (i r t c : R) : R := t * (c + 1) * (r * r * r - i * i * i) / 3.

(** [q] has the distance [r] from the axis, the azimuth [t] and the height [z]. *)
Definition cylindrical (q : vec) (r t z : R) : Prop :=
  0 <= r /\ vx q = r * cos t /\ vy q = r * sin t /\ vz q = z.

(** [q] has the distance [r] from the centre, the azimuth [t] and the cosine [c] of the zenith. *)
Definition spherical (q : vec) (r t c : R) : Prop :=
  0 <= r /\ -1 <= c <= 1 /\ vz q = r * c /\ exists s, 0 <= s /\ s * s + c * c = 1 /\ vx q = r * s * cos t /\ vy q = r * s * sin t.

(** [v] is [a] moved along [d] by some positive distance. *)
Definition ahead_of (v a d : vec) : Prop := exists s, 0 < s /\ v = vadd a (vscale s d).
