(** Deep inelastic scattering of a massless particle on one at rest, without the formulae of
    the model. *)
From Coq Require Import Reals.
From Verif Require Import VectorModel RkModel RkSpec.
Open Scope R_scope.

(** The massless particle of momentum [p] hits a particle of mass [M] at rest; a lepton [k]
    of mass [m] and a system [X] come out. *)
Definition scattering (p : vec) (M m : R) (k X : p4) : Prop :=
  on_shell k /\ pm k = m /\ on_shell X /\ pe k + pe X = vlen p + M /\ vadd (pp k) (pp X) = p.

(** What the lepton has lost: energy, and the square of the four-momentum with changed sign. *)
Definition lost_energy (p : vec) (k : p4) : R := vlen p - pe k.
Definition virtuality (p : vec) (k : p4) : R :=
  let q := vsub p (pp k) in vdot q q - lost_energy p k ^ 2.

(** Bjorken's variables: y is the part of the energy lost, x is Q2 over twice the target mass
    times the energy lost. *)
Definition bjorken (p : vec) (M : R) (k : p4) (x y : R) : Prop :=
  lost_energy p k = y * vlen p /\ virtuality p k = x * (2 * M * lost_energy p k).
