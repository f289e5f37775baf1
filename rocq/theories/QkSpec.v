(** Charm production, from the four-momenta. *)
From Coq Require Import Reals.
From Verif Require Import VectorModel.
Open Scope R_scope.

(** A massless neutrino of momentum [p] turns into a lepton of mass [m] and momentum [k], giving the fraction [y] of its energy to a
    target of mass [M]; the squared momentum transfer goes with the rescaled variable [xi] for a charm quark of mass [mc]. *)
Definition charged (p : vec) (m M mc xi y : R) (k : vec) : Prop :=
  let e1 := sqrt (vdot p p) in let e3 := sqrt (m * m + vdot k k) in
  e1 - e3 = y * e1 /\ vdot (vsub p k) (vsub p k) - (e1 - e3) * (e1 - e3) = 2 * M * e1 * y * xi - mc * mc.

(** Squared mass of all that is not the lepton. *)
Definition hadronic (p : vec) (m M : R) (k : vec) : R :=
  let e1 := sqrt (vdot p p) in let e3 := sqrt (m * m + vdot k k) in
  (M + (e1 - e3)) * (M + (e1 - e3)) - vdot (vsub p k) (vsub p k).

(** The rule of the trapezium for the nodes 0 to [n]. *)
Fixpoint trapezia (x f : nat -> R) (n : nat) : R :=
  match n with O => 0 | S k => trapezia x f k + (f k + f (S k)) / 2 * (x (S k) - x k) end.
