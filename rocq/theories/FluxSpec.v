(** What is expected of the sampling of a tabulated flux, without reference to how the
    cumulative table is filled. *)
From Coq Require Import Reals List.
From Verif Require Import TableSpec.
Import ListNotations.
Open Scope R_scope.

(** The area of the trapezoid over an interval. *)
Definition trapezoid_area (p : R -> R) (a b : R) : R := (p a + p b) / 2 * (b - a).

(** [s] is the sum of the trapezoids over the intervals between successive energies. *)
Inductive area_of (p : R -> R) : list R -> R -> Prop :=
| area_one a : area_of p [a] 0
| area_more a b l s : area_of p (b :: l) s -> area_of p (a :: b :: l) (trapezoid_area p a b + s).

(** An interval with some flux at an end. *)
Definition supported (p : R -> R) (a b : R) : Prop := 0 < p a + p b.

(** The point at the fraction of the way from [a] to [b] at which [u] is between [c] and [d]. *)
Definition proportional (c d a b u v : R) : Prop := (v - a) * (d - c) = (u - c) * (b - a).
