(** What is expected of coordinate transforms and interpolation, apart from how they are computed. *)
From Coq Require Import Reals List.
Import ListNotations.
Open Scope R_scope.

(** [f] is strictly increasing where it is defined. *)
Definition rising (f : R -> option R) : Prop :=
  forall x y u v, f x = Some u -> f y = Some v -> x < y -> u < v.
(** [f] is strictly decreasing where it is defined. *)
Definition falling (f : R -> option R) : Prop :=
  forall x y u v, f x = Some u -> f y = Some v -> x < y -> v < u.

(** [g] takes every value of [f] back, and [f] every value of [g] on the whole line. *)
Definition undoes (f : R -> option R) (g : R -> R) : Prop :=
  (forall x y, f x = Some y -> g y = x) /\ (forall y, f (g y) = Some y).

(** [m] is the least absolute value of the entries that are not zero. *)
Definition least_size (l : list R) (m : R) : Prop :=
  (exists x, In x l /\ x <> 0 /\ m = Rabs x) /\ forall x, In x l -> x <> 0 -> m <= Rabs x.

(** [z] is between [a] and [b]. *)
Definition amid (a b z : R) : Prop := Rmin a b <= z <= Rmax a b.

(** [z] is between the least and the greatest of four. *)
Definition between_corners (z00 z01 z10 z11 z : R) : Prop :=
  Rmin (Rmin z00 z01) (Rmin z10 z11) <= z <= Rmax (Rmax z00 z01) (Rmax z10 z11).
