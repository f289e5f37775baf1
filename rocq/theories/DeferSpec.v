(** The parsing of GDML solids: specification. *)
From Coq Require Import Ascii String List.
From Verif Require Import DeferModel InstSpec.
Import ListNotations.

Section Solids.
Context {T : Type}.

(** The name that a child of the section defines. *)
Definition defines (x : node T) : list (list ascii) :=
  match x with Primitive (c :: n) (Some _) => [c :: n] | Boolean (c :: n) _ _ _ => [c :: n] | _ => [] end.

(** The names in a child of the section. *)
Definition mentions (x : node T) : list (list ascii) :=
  match x with Primitive n _ => [n] | Boolean n f s _ => [n; f; s] | Incomplete n => [n] end.

(** What a name means in a document, wherever it is defined. *)
Inductive denotes (doc : list (node T)) : list ascii -> T -> Prop :=
| denotes_primitive : forall n g, In (Primitive n (Some g)) doc -> n <> [] -> denotes doc n g
| denotes_boolean : forall n f s make a b, In (Boolean n f s make) doc -> n <> [] ->
    denotes doc f a -> denotes doc s b -> denotes doc n (make a b).

(** Every name is defined once, and no name carries a pointer suffix. *)
Definition plain (enabled : bool) (doc : list (node T)) : Prop :=
  NoDup (flat_map defines doc) /\ forall n, In n (flat_map mentions doc) -> base enabled n n.
End Solids.
