(** What drawing an energy or a direction should mean. *)
From Coquelicot Require Import Coquelicot.
From Coq Require Import Reals.
From Verif Require Import VectorModel.
Open Scope R_scope.

(** [f] maps the unit interval onto [a, b], one to one and in order. *)
Record onto_range (f : R -> R) (a b : R) : Prop := {
  or_start : f 0 = a;
  or_end : f 1 = b;
  or_order : forall y z, 0 <= y -> y < z -> z <= 1 -> f y < f z;
  or_onto : forall t, a <= t <= b -> exists y, 0 <= y <= 1 /\ f y = t
}.

(** [f] of a uniform variate has density [rho] from [a] on. *)
Definition density_from (f rho : R -> R) (a : R) : Prop :=
  forall y, 0 <= y <= 1 -> is_RInt rho a (f y) y.

(** The angle between two vectors. *)
Definition angle (a b : vec) : R := acos (vdot a b / (sqrt (vdot a a) * sqrt (vdot b b))).

(** The error function: its derivative and its value at zero. *)
Definition error_function (erf : R -> R) : Prop :=
  erf 0 = 0 /\ forall x, is_derive erf x (2 / sqrt PI * exp (- (x * x))).
