(** Scattering of two particles into two, one of them at rest before. *)
From Coq Require Import Reals.
From Verif Require Import VectorModel RkModel.
Open Scope R_scope.

(** A particle of mass [m], energy [e] and momentum [p]. *)
Definition shell (m e : R) (p : vec) : Prop := 0 <= e /\ e * e = m * m + vdot p p.

(** One of mass [m1] and momentum [p] hits one of mass [m2] at rest; those that come out have masses [m3] and [m4] and
    the momentum transfer squared is minus [q2]. *)
Definition two_to_two (p : vec) (m1 m2 m3 m4 q2 e3 : R) (p3 : vec) (e4 : R) (p4 : vec) : Prop :=
  exists e1, shell m1 e1 p /\ shell m3 e3 p3 /\ shell m4 e4 p4 /\ e3 + e4 = e1 + m2 /\ vadd p3 p4 = p /\
  q2 = vdot (vsub p p3) (vsub p p3) - (e1 - e3) * (e1 - e3).

(** The momentum transfer of a scattering, from energies and momenta before and after. *)
Definition transfer (m1 : R) (p : vec) (m3 : R) (p3 : vec) : R :=
  let e1 := sqrt (m1 * m1 + vdot p p) in let e3 := sqrt (m3 * m3 + vdot p3 p3) in
  vdot (vsub p p3) (vsub p p3) - (e1 - e3) * (e1 - e3).
