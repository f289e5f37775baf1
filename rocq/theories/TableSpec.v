(** What is expected of a tabulated function.  A table is a list of pairs of abscissa and
    value; nothing here refers to bins, indices or to how values are looked up. *)
From Coq Require Import Reals List Sorted.
Import ListNotations.
Open Scope R_scope.

(** Strictly increasing abscissae. *)
Definition increasing (t : list (R * R)) : Prop := StronglySorted Rlt (map fst t).

(** [p] and [q] are consecutive entries. *)
Definition neighbours {A} (l : list A) (p q : A) : Prop := exists before after, l = before ++ p :: q :: after.

(** All steps are the same. *)
Definition even (xs : list R) : Prop := exists d, forall a b, neighbours xs a b -> b - a = d.

(** All steps agree with the mean step to better than one part in ten thousand. *)
Definition nearly_even (xs : list R) : Prop :=
  forall a b, neighbours xs a b ->
    let mean := (last xs 0 - hd 0 xs) / INR (length xs - 1) in
    Rabs ((b - a) - mean) < mean / 10000.

(** All numbers are positive, and their logarithms are nearly evenly spaced. *)
Definition nearly_log_even (xs : list R) : Prop :=
  (forall x, In x xs -> 0 < x) /\ nearly_even (map ln xs).

Definition values_nonneg (t : list (R * R)) : Prop := forall x f, In (x, f) t -> 0 <= f.
Definition values_positive (t : list (R * R)) : Prop := forall x f, In (x, f) t -> 0 < f.

(** [f] is the last value the table gives for [x]. *)
Definition last_given (t : list (R * R)) (x f : R) : Prop :=
  exists before after, t = before ++ (x, f) :: after /\ forall g, ~ In (x, g) after.

(** [v] lies between [a] and [b], in either order. *)
Definition in_between (v a b : R) : Prop := Rmin a b <= v <= Rmax a b.

(** [f] is the piecewise-linear function through the points (x_i, y_i), and zero outside.
    Nothing is said about [f] at the abscissae themselves, which may repeat (a step). *)
Definition piecewise_linear (pts : list (R * R)) (f : R -> R) : Prop :=
  (forall p q, neighbours pts p q -> forall t, fst p < t < fst q ->
     f t = snd p + (snd q - snd p) * (t - fst p) / (fst q - fst p)) /\
  (forall t, (forall p, In p pts -> t < fst p) -> f t = 0) /\
  (forall t, (forall p, In p pts -> fst p < t) -> f t = 0).
