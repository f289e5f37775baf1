(** What a two-body decay into massless particles should be. *)
From Coquelicot Require Import Coquelicot.
From Coq Require Import Reals Bool List.
From Verif Require Import VectorModel RkModel RkSpec DipoleModel.
Import ListNotations.
Open Scope R_scope.

(** Energy of a particle of momentum [p] and mass [m]. *)
Definition energy (p : vec) (m : R) : R := sqrt (m * m + vdot p p).

(** The products are massless and carry the energy and momentum of the parent. *)
Definition conserved (p : vec) (m : R) (a b : p4) : Prop :=
  pm a = 0 /\ pm b = 0 /\ pe a = vlen (pp a) /\ pe b = vlen (pp b) /\
  pe a + pe b = energy p m /\ vadd (pp a) (pp b) = p.

(** The angular density of the photon in the rest frame: flat for a Majorana particle,
    tilted by the polarisation for a Dirac particle. *)
Definition angular_density (n : nature) (alpha c : R) : R :=
  match n with Majorana => 1 / 2 | Dirac => (1 + alpha * c) / 2 end.
Definition angular_cdf (n : nature) (alpha t : R) : R := RInt (angular_density n alpha) (-1) t.

(** Polarisation: minus the helicity for the particle, the helicity for the antiparticle. *)
Definition polarisation (primary : ptype) (h : R) : R :=
  match primary with
  | N4 => if Rlt_dec h 0 then 1 else - (1)
  | _ => if Rlt_dec h 0 then - (1) else 1
  end.

Definition two_body (s : signature) : Prop :=
  exists nu, nu <> Gamma /\ (sig_secondary s = [Gamma; nu] \/ sig_secondary s = [nu; Gamma]).

(** The direction of [p] is the x axis, its opposite, or not almost one of them. *)
Definition clear_of_x (p : vec) : Prop :=
  (vy p = 0 /\ vz p = 0) \/ (/ 10 ^ 9 <= 1 - vx p / vlen p /\ / 10 ^ 9 <= 1 + vx p / vlen p).
