(** What the <define> sections of a GDML file mean: the elements take effect in the order of the
    document, and a loop repeats its body. No stack and no limit. *)
From Coq Require Import Reals Bool List String.
From Verif Require Import VectorModel DefModel.
Import ListNotations.
Open Scope R_scope.

Inductive means {Q T : Type} (t : texts Q T) : bool -> list dnode -> data Q T -> data Q T -> Prop :=
| means_nil : forall b d, means t b [] d d
| means_leaf : forall b l ns d d1 d2, effect t b l d = Some d1 -> means t b ns d1 d2 -> means t b (Leaf l :: ns) d d2
| means_skip : forall b v f e s body ns d d1, head t d v f e s body = Skipped -> means t b ns d d1 ->
    means t b (Loop v f e s body :: ns) d d1
| means_loop : forall b v f e s body ns d d1 d2 x y z, head t d v f e s body = Runs x y z ->
    repeats t v y z body (put_constant v x d) d1 -> means t b ns d1 d2 -> means t b (Loop v f e s body :: ns) d d2
with repeats {Q T : Type} (t : texts Q T) : string -> R -> R -> list dnode -> data Q T -> data Q T -> Prop :=
| repeats_last : forall v y z body d d1, means t true body d d1 -> in_range (value_of d1 v + z) y z = false ->
    repeats t v y z body d d1
| repeats_more : forall v y z body d d1 d2, means t true body d d1 -> in_range (value_of d1 v + z) y z = true ->
    repeats t v y z body (put_constant v (value_of d1 v + z) d1) d2 -> repeats t v y z body d d2.

(** The sections one after the other. *)
Inductive document {Q T : Type} (t : texts Q T) : list (list dnode) -> data Q T -> data Q T -> Prop :=
| document_nil : forall d, document t [] d d
| document_cons : forall s l d d1 d2, means t false s d d1 -> document t l d1 d2 -> document t (s :: l) d d2.

(** How deeply loops are nested. *)
Fixpoint nesting (n : dnode) : nat :=
  match n with
  | Leaf _ => 0
  | Loop _ _ _ _ body => S (fold_right Nat.max 0%nat (map nesting body))
  end.
Definition deepest (ns : list dnode) : nat := fold_right Nat.max 0%nat (map nesting ns).

(** No element in the node gives a value to the constant [v], whatever the data. *)
Fixpoint spares {Q T : Type} (t : texts Q T) (v : string) (n : dnode) : Prop :=
  match n with
  | Leaf l => forall b d d', effect t b l d = Some d' -> constants d' v = constants d v
  | Loop w _ _ _ body => w <> v /\ (fix all ns := match ns with [] => True | n :: ns => spares t v n /\ all ns end) body
  end.
(** No loop in the node has its variable changed by its own body. *)
Fixpoint orderly {Q T : Type} (t : texts Q T) (n : dnode) : Prop :=
  match n with
  | Leaf _ => True
  | Loop v _ _ _ body =>
      Forall (spares t v) body /\ (fix all ns := match ns with [] => True | n :: ns => orderly t n /\ all ns end) body
  end.

(** The two maps agree on the names for which [p] holds. *)
Definition agrees {A : Type} (p : string -> bool) (f g : string -> option A) : Prop :=
  forall x, p x = true -> f x = g x.

(** The body once for each value of the variable. *)
Inductive unrolled {Q T : Type} (t : texts Q T) (v : string) (body : list dnode) : list R -> data Q T -> data Q T -> Prop :=
| unrolled_nil : forall d, unrolled t v body [] d d
| unrolled_cons : forall a l d d1 d2, means t true body (put_constant v a d) d1 -> unrolled t v body l d1 d2 ->
    unrolled t v body (a :: l) d d2.
