(** What a decay into a massless particle and two others should be. *)
From Coquelicot Require Import Coquelicot.
From Coq Require Import Reals List.
From Verif Require Import VectorModel RkModel RkSpec DipoleSpec Hnl3Model.
Open Scope R_scope.

(** The square of the invariant mass of two particles. *)
Definition pair_mass2 (a b : p4) : R :=
  (pe a + pe b) * (pe a + pe b) - vdot (vadd (pp a) (pp b)) (vadd (pp a) (pp b)).

(** Energy and momentum of a particle of mass [m]. *)
Definition has_mass (m : R) (a : p4) : Prop := 0 <= pe a /\ pe a * pe a = m * m + vdot (pp a) (pp a).

(** A parent of mass [M] and momentum [p] becomes a massless particle and two of masses [ma], [mb]. *)
Definition decay3 (M : R) (p : vec) (ma mb : R) (k2 k3 k4 : p4) : Prop :=
  has_mass 0 k2 /\ has_mass ma k3 /\ has_mass mb k4 /\
  pe k2 + pe k3 + pe k4 = energy p M /\ vadd (vadd (pp k2) (pp k3)) (pp k4) = p.

(** The density of the image of the unit square under a map whose first component depends on the
    first number only is constant if its Jacobian is. *)
Definition flat_density (s1 : R -> R) (s2 : R -> R -> R) : Prop :=
  exists k, forall u1 u2, 0 < u1 < 1 -> 0 < u2 < 1 -> Derive s1 u1 * Derive (s2 u1) u2 = k.
