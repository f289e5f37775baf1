(** Production of a heavy neutral lepton by a neutrino, without the formulae of the model. *)
From Coq Require Import Reals ZArith.
Open Scope R_scope.

(** The neutrino of the family [i] (0, 1, 2) or its antiparticle. *)
Definition family (t : Z) (i : nat) : Prop := (i < 3)%nat /\ Z.abs t = (12 + 2 * Z.of_nat i)%Z.

(** A massless particle of energy [E] on a mass [M] at rest can make [m] and [M]: the invariant mass is at least their sum. *)
Definition can_make (E M m : R) : Prop := m + M <= sqrt ((E + M) ^ 2 - E ^ 2).

(** A lepton of mass [m], energy [e] and momentum [(kl, kt)] (along and across the neutrino) takes the part [1 - y] of the energy [E]
    and leaves the momentum transfer of the values [x] and [y] to a target of mass [M]. *)
Definition leaves (E M m x y e kl kt : R) : Prop :=
  e = (1 - y) * E /\ e ^ 2 = m ^ 2 + kl ^ 2 + kt ^ 2 /\ (E - kl) ^ 2 + kt ^ 2 - (E - e) ^ 2 = 2 * M * E * x * y.
