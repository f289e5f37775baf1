(** Elastic scattering of a massless particle on one at rest, without the model's formulae. *)
From Coq Require Import Reals.
From Verif Require Import VectorModel RkModel RkSpec.
Open Scope R_scope.

(** A massless particle of momentum [p] hits a particle of mass [m] at rest; [k] and [nu]
    come out: energy and momentum are kept. *)
Definition elastic (p : vec) (m : R) (k nu : p4) : Prop :=
  on_shell k /\ pm k = m /\ on_shell nu /\ pm nu = 0 /\
  pe k + pe nu = vlen p + m /\ vadd (pp k) (pp nu) = p.

(** The density of a number whose logarithm is uniform between those of [a] and [b]. *)
Definition log_density (a b y : R) : R := / (y * (ln b - ln a)).
Definition log_cdf (a b y : R) : R := (ln y - ln a) / (ln b - ln a).

(** Balance of a chain that proposes by [d] and accepts by [acc], between two points. *)
Definition balanced (target d : R -> R) (acc : R -> R -> R) (x y : R) : Prop :=
  target x * (d y * acc x y) = target y * (d x * acc y x).
