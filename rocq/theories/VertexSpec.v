(** What sampling a position along a path should mean. *)
From Coquelicot Require Import Coquelicot.
From Coq Require Import Reals.
From Verif Require Import VectorModel.
Open Scope R_scope.

(** [f] maps the unit interval onto [0, b], one to one and in order. *)
Record onto_interval (f : R -> R) (b : R) : Prop := {
  oi_start : f 0 = 0;
  oi_end : f 1 = b;
  oi_order : forall y z, 0 <= y -> y < z -> z <= 1 -> f y < f z;
  oi_onto : forall t, 0 <= t <= b -> exists y, 0 <= y <= 1 /\ f y = t
}.

(** [f] of a uniform variate has density [rho] on [0, b]: the probability collected up to [f y] is
    [y]. *)
Definition has_density (f : R -> R) (rho : R -> R) : Prop :=
  forall y, 0 <= y <= 1 -> is_RInt rho 0 (f y) y.

(** The law of an interaction at depth [t] given that there is one before depth [T]. *)
Definition truncated_exponential (T t : R) : R := exp (- t) / (1 - exp (- T)).

(** [approx e a b]: [a] agrees with [b] up to the relative error [e]. *)
Definition approx (e a b : R) : Prop := Rabs (a - b) <= e * Rabs b.

(** The point at distance [d] along a ray. *)
Definition point_at (first dir : vec) (d : R) : vec := vadd first (vscale d dir).
