(** What is expected of an indexer: nothing here refers to how a bin is found. *)
From Coq Require Import Reals List Sorted.
Import ListNotations.
Open Scope R_scope.

(** Ascending, perhaps with repetitions. *)
Definition ascending (l : list R) : Prop := StronglySorted Rle l.

(** [i] and [j] are neighbouring places of the ascending list [l] between whose values [x] lies;
    for [x] outside the list, the first two or the last two. *)
Definition located (l : list R) (x : R) (i j : nat) : Prop :=
  j = S i /\ (j < length l)%nat /\
  (hd 0 l <= x <= last l 0 -> nth i l 0 <= x <= nth j l 0) /\
  (x < hd 0 l -> i = O) /\ (last l 0 < x -> (j + 1 = length l)%nat).

(** The same in any list: [x] lies between the values at neighbouring places, in either order. *)
Definition brackets (l : list R) (x : R) (i j : nat) : Prop :=
  j = S i /\ (j < length l)%nat /\ (nth i l 0 <= x <= nth j l 0 \/ nth j l 0 <= x <= nth i l 0).

(** The values from the first in equal steps. *)
Definition equal_steps (l : list R) : Prop :=
  exists d, 0 < d /\ forall i, (i < length l)%nat -> nth i l 0 = hd 0 l + INR i * d.

(** Every combination of an abscissa and an ordinate of the points is a point. *)
Definition full_grid (pts : list (R * R)) : Prop :=
  forall p q, In p pts -> In q pts -> In (fst p, snd q) pts.

(** [a] and [b] are different values of [l] with none between, and [x] lies between them if it
    lies within the list. *)
Definition cell (l : list R) (x a b : R) : Prop :=
  In a l /\ In b l /\ a < b /\ (forall c, In c l -> c <= a \/ b <= c) /\
  ((exists c, In c l /\ c <= x) -> (exists c, In c l /\ x <= c) -> a <= x <= b).
