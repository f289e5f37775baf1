(** The composition of GDML materials: specification. *)
From Coq Require Import Reals ZArith List Ascii.
From Verif Require Import MixModel.
Import ListNotations.
Open Scope R_scope.

(** The sum of the second components. *)
Fixpoint sum {A : Type} (l : list (A * R)) : R := match l with [] => 0 | (_, x) :: r => x + sum r end.

(** How much of a nucleus is in a list. *)
Fixpoint amount (m : list (Z * R)) (p : Z) : R :=
  match m with [] => 0 | (q, x) :: r => (if Z.eq_dec q p then x else 0) + amount r p end.

Section Share.
Variable find : list ascii -> option component.

(** The nuclei in a component by mass: a simple one is its own nucleus, none if it has no proper numbers;
    a mixture is the mixture of its parts. *)
Inductive share : list ascii -> (Z -> R) -> Prop :=
| share_simple : forall n c, find n = Some c -> c_composition c = [] ->
    share n (fun p => if Z.eq_dec p (1000000000 + c_Z c * 10000 + c_A c * 10)%Z
                      then (if Z_lt_dec 0 (c_Z c) then if Z_lt_dec 0 (c_A c) then 1 else 0 else 0) else 0)
| share_mixture : forall n c s, find n = Some c -> c_composition c <> [] -> shares (c_composition c) s -> share n s
with shares : list (list ascii * R) -> (Z -> R) -> Prop :=
| shares_nil : shares [] (fun _ => 0)
| shares_cons : forall n f l s t, share n s -> shares l t -> shares ((n, f) :: l) (fun p => f * s p + t p).

(** [m] is [k] steps below [n]. *)
Inductive below : nat -> list ascii -> list ascii -> Prop :=
| below_0 : forall n, below 0 n n
| below_S : forall k n c m f q, find n = Some c -> In (m, f) (c_composition c) -> below k m q -> below (S k) n q.

(** Every mixture adds up to one and every simple component is a nucleus. *)
Definition proper : Prop := forall n c, find n = Some c ->
  (c_composition c = [] -> (0 < c_Z c)%Z /\ (0 < c_A c)%Z) /\ (c_composition c <> [] -> sum (c_composition c) = 1).
End Share.
