(** What the quadratures should give, without reference to the model. *)
From Coq Require Import Reals List.
From Coquelicot Require Import Coquelicot.
Import ListNotations.
Open Scope R_scope.

(** The sum of the areas of [n] trapezia of width [h] under [f], from [a] on. *)
Fixpoint trapezia (f : R -> R) (a h : R) (n : nat) : R :=
  match n with
  | O => 0
  | S n' => trapezia f a h n' +
            h * (f (a + INR n' * h) + f (a + INR n' * h + h)) / 2
  end.

(** The trapezium rule with [n] equal panels. *)
Definition trapezium_rule (f : R -> R) (a b : R) (n : nat) : R :=
  trapezia f a ((b - a) / INR n) n.

(** The polynomial with the coefficients [cs], lowest first. *)
Fixpoint poly (cs : list R) (x : R) : R :=
  match cs with
  | [] => 0
  | c :: cs' => c + x * poly cs' x
  end.

(** The polynomial in two variables; [rows] are its coefficients as polynomials of the
    second. *)
Fixpoint poly2 (rows : list (list R)) (x y : R) : R :=
  match rows with
  | [] => 0
  | r :: rows' => poly r y + x * poly2 rows' x y
  end.

(** [v] is the iterated integral of [f] over the rectangle. *)
Definition double_integral (f : R -> R -> R) (a1 b1 a2 b2 v : R) : Prop :=
  exists g : R -> R, (forall x, is_RInt (f x) a2 b2 (g x)) /\ is_RInt g a1 b1 v.
