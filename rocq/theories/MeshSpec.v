(** What a ray, a triangle and a closed surface are, apart from how the code finds crossings. *)
From Coq Require Import Reals List.
From Verif Require Import VectorModel.
Import ListNotations.
Open Scope R_scope.

(** The point at parameter [s] on the line through [o] along [d] is a mean of the three corners. *)
Definition mean_of (a b c p : vec) : Prop :=
  exists u v w, 0 <= u /\ 0 <= v /\ 0 <= w /\ u + v + w = 1 /\
    p = vadd (vscale u a) (vadd (vscale v b) (vscale w c)).

Definition point (o d : vec) (s : R) : vec := vadd o (vscale s d).

(** The normal given by the order of the corners. *)
Definition normal (a b c : vec) : vec := vcross (vsub b a) (vsub c a).

(** The sides of a triangle, each in the order of the corners. *)
Definition sides (a b c : vec) : list (vec * vec) := [(a, b); (b, c); (c, a)].
Definition turned (e : vec * vec) : vec * vec := (snd e, fst e).
