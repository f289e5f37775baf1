(** Kinematics of a massless particle of energy [E] that hits one of mass [M] at rest and becomes one of mass [m]. *)
From Coq Require Import Reals.
Open Scope R_scope.

(** The fraction [y] of the energy can go to the target: there is an outgoing momentum [q] at an angle with cosine [c] such that
    the recoil has the mass of the target. *)
Definition allowed (E m M y : R) : Prop :=
  exists q c, 0 <= q /\ - (1) <= c <= 1 /\ m <= E * (1 - y) /\ q * q = (E * (1 - y)) * (E * (1 - y)) - m * m /\
    (M + E * y) * (M + E * y) - (E * E + q * q - 2 * E * q * c) = M * M.
