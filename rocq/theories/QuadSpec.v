(** What a spatial container should do. *)
From Coq Require Import Reals List Bool Permutation.
From Verif Require Import QuadModel.
Import ListNotations.
Open Scope R_scope.

(** Two rectangles have common inner points, in the limit of rectangles of size zero. *)
Definition overlap (a b : box) : Prop :=
  b_left a < b_left b + b_width b /\ b_left b < b_left a + b_width a /\
  b_top a < b_top b + b_height b /\ b_top b < b_top a + b_height a.
(** A rectangle lies within another. *)
Definition inside (a b : box) : Prop :=
  b_left b <= b_left a /\ b_left a + b_width a <= b_left b + b_width b /\
  b_top b <= b_top a /\ b_top a + b_height a <= b_top b + b_height b.

(** The pairs of elements at two places of a list, each pair of places once. *)
Fixpoint pairs {A} (l : list A) : list (A * A) :=
  match l with [] => [] | a :: t => map (fun b => (a, b)) t ++ pairs t end.
(** A pair the other way round. *)
Definition swap {A B} (p : A * B) : B * A := (snd p, fst p).
(** Pairs together with their reverses: two lists of pairs are the same up to the order within
    pairs if these are permutations of each other. *)
Definition both {A} (l : list (A * A)) : list (A * A) := l ++ map swap l.

(** No leaf holds more than 16 values unless it is eight levels down, and none is deeper. *)
Fixpoint limited {T} (levels : nat) (n : node T) : Prop :=
  match n with
  | Node l None => levels = O \/ (length l <= 16)%nat
  | Node l (Some (c1, c2, c3, c4)) =>
      match levels with
      | O => False
      | S k => limited k c1 /\ limited k c2 /\ limited k c3 /\ limited k c4
      end
  end.

Section Spec.
Context {T : Type}.
Variable get_box : T -> box.
(** Contents after the calls, as a bag: [holds os l] if the calls are legal and leave [l]. *)
Inductive holds (b : box) : list op -> list T -> Prop :=
| holds_nil : holds b [] []
| holds_add os l v : holds b os l -> inside (get_box v) b -> holds b (os ++ [Add v]) (v :: l)
| holds_remove os l l' v : holds b os l -> Permutation l (v :: l') -> inside (get_box v) b -> holds b (os ++ [Remove v]) l'.
End Spec.
