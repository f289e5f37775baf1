(** Triangles and linear interpolation in the plane. *)
From Coq Require Import Reals List.
From Verif Require Import TraversalModel QuadModel TransModel DelModel.
Import ListNotations.
Open Scope R_scope.

(** A pair of coordinates. *)
Definition at_point (a : point) : R * R := (px a, py a).
(** [p] is the mean of three points with the given weights. *)
Definition mean (p a b c : R * R) (u v w : R) : Prop :=
  u + v + w = 1 /\ fst p = u * fst a + v * fst b + w * fst c /\ snd p = u * snd a + v * snd b + w * snd c.
(** Three points are not on one line: twice the signed area is not zero. *)
Definition proper (a b c : R * R) : Prop :=
  (fst b - fst a) * (snd c - snd a) - (fst c - fst a) * (snd b - snd a) <> 0.
(** [p] lies in the inside of the triangle: it is a mean with positive weights. *)
Definition within (p a b c : R * R) : Prop :=
  proper a b c /\ exists u v w, 0 < u /\ 0 < v /\ 0 < w /\ mean p a b c u v w.

(** A triangulation by numbers names only points that exist. *)
Definition names (pts : list (R * R)) (ns : list (nat * nat * nat)) : Prop :=
  forall i j k, In (i, j, k) ns -> (i < length pts /\ j < length pts /\ k < length pts)%nat.
(** The point of a number. *)
Definition at_number (pts : list (R * R)) (i : nat) : R * R := nth i pts (0, 0).
(** [p] lies in the inside of the triangle with the given numbers. *)
Definition within_numbers (pts : list (R * R)) (p : R * R) (n : nat * nat * nat) : Prop :=
  let '(i, j, k) := n in within p (at_number pts i) (at_number pts j) (at_number pts k).
(** No point is in the inside of two triangles. *)
Definition disjoint (pts : list (R * R)) (ns : list (nat * nat * nat)) : Prop :=
  forall p m n, In m ns -> In n ns -> within_numbers pts p m -> within_numbers pts p n -> m = n.
(** [p] lies strictly between the least and the greatest coordinates of the points. *)
Definition among (pts : list (R * R)) (p : R * R) : Prop :=
  (exists a b, In a pts /\ In b pts /\ fst a < fst p < fst b) /\ (exists a b, In a pts /\ In b pts /\ snd a < snd p < snd b).
(** The numbers of the vertices of a triangle. *)
Definition numbers (t : tri) : nat * nat * nat := (pi (p0 t), pi (p1 t), pi (p2 t)).
