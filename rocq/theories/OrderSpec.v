(** What a usable ordering is. *)
From Coq Require Import Bool.
From Verif Require Import OrderModel.

(** [operator<] is a strict weak order whose equivalence is [operator==], so that
    ordered containers identify exactly the equal values. *)
Record ordered {A : Type} (c : cmp A) : Prop := {
  ord_irrefl : forall x, lt_ c x x = false;
  ord_trans : forall x y z, lt_ c x y = true -> lt_ c y z = true -> lt_ c x z = true;
  ord_eq : forall x y, eq_ c x y = true <-> lt_ c x y = false /\ lt_ c y x = false;
  ord_eq_trans : forall x y z, eq_ c x y = true -> eq_ c y z = true -> eq_ c x z = true
}.
