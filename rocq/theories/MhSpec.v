(** Markov chains on finitely many points, without the model's sampler. *)
From Coq Require Import Reals List.
Import ListNotations.
Open Scope R_scope.

(** The set of numbers in [0,1) with the property is exactly those below [t], so [t] is its probability. *)
Definition probability_is (P : R -> Prop) (t : R) : Prop :=
  0 <= t <= 1 /\ forall u, 0 <= u < 1 -> (P u <-> u < t).

Fixpoint total {A} (f : A -> R) (l : list A) : R :=
  match l with [] => 0 | x :: r => f x + total f r end.

(** The probability to go from [x] to [y] in one step, if [y] is proposed with probability
    [q y] and then accepted with probability [acc x y]; [x] is kept otherwise. *)
Definition step {A} (dec : forall x y : A, {x = y} + {x <> y}) (states : list A) (q : A -> R) (acc : A -> A -> R) (x y : A) : R :=
  q y * acc x y + (if dec x y then 1 - total (fun z => q z * acc x z) states else 0).

Definition stationary {A} (states : list A) (move : A -> A -> R) (p : A -> R) : Prop :=
  forall y, In y states -> total (fun x => p x * move x y) states = p y.
