(** Specification of depths: densities along a line, without reference to how depths are
    computed. *)
From Coquelicot Require Import Coquelicot.
From Coq Require Import Reals List Bool ZArith Permutation.
From Verif Require Import TraversalModel TraversalSpec VectorModel DepthModel.
Import ListNotations.
Open Scope R_scope.

(** The point a distance [s] from [p] along [d]. *)
Definition point (p d : vec) (s : R) : vec := vadd p (vscale s d).

(** The line integral of [g] from [p] to [q]. *)
Definition along (g : vec -> R) (p q : vec) (I : R) : Prop :=
  is_RInt (fun t => vmag (vsub q p) * g (point p (vsub q p) t)) 0 1 I.

Definition elt (a b : ext) : Prop := eltb a b = true.
Definition ele (a b : ext) : Prop := eltb b a = false.

(** One of the two directions along a line. *)
Definition heads (D d : vec) : Prop := d = D \/ d = vneg D.

(** A sector's [Integral] is the integral of its density along the line. *)
Definition lawful (D : vec) (dens : vec -> R) (m : medium) : Prop :=
  forall p d L, heads D d -> 0 <= L ->
    exists I, integral m p d (Fin L) = Some I /\ is_RInt (fun s => dens (point p d s)) 0 L I.

(** A search for the length over which [f] integrates to [target]. *)
Definition finds (eps : R) (f : R -> R) (target : R) (mx : ext) (answer : option R) : Prop :=
  (exists r, answer = Some r /\ 0 <= r /\ ele (Fin r) mx /\
    forall I, is_RInt f 0 r I -> Rabs (I - target) <= eps) \/
  ((forall r, answer = Some r -> r < 0) /\
    forall L I, 0 <= L -> ele (Fin L) mx -> is_RInt f 0 L I -> I < target).

(** [InverseIntegral] for positive targets. *)
Definition invertible (eps : R) (D : vec) (dens : vec -> R) (m : medium) : Prop :=
  forall p d target mx, heads D d -> 0 < target -> ele (Fin 0) mx ->
    finds eps (fun s => dens (point p d s)) target mx (inverse m p d target mx).

(** The same with a constant added to the density. *)
Definition invertible_with (eps : R) (D : vec) (dens : vec -> R) (m : medium) : Prop :=
  forall p d c target mx, heads D d -> 0 < c -> 0 < target -> ele (Fin 0) mx ->
    finds eps (fun s => dens (point p d s) + c) target mx (inverse_with m p d c target mx).

(** The line sees the sectors [ss], all within a first one from [a] to [b]. *)
Definition sees (l : line) (ss : list (sector ext)) (a b : ext) : Prop :=
  vdot (l_direction l) (l_direction l) = 1 /\
  good_sectors elt ss /\
  (exists u, enclosed_by elt u ss /\ ivs u = [(a, b)]) /\
  (exists found, Permutation found (crossings ss) /\ l_hits l = sort_intersections eltb found).

(** [g] is the quantity [k], which depends on the sector, in the highest sector. *)
Definition describes (l : line) (ss : list (sector ext)) (k : Z -> vec -> R) (g : vec -> R) : Prop :=
  forall z h, top_level (inside elt) ss (Fin z) h ->
    g (point (l_position l) (l_direction l) z) = k h (point (l_position l) (l_direction l) z).

(** [p] is on the line, between [a] and [b]. *)
Definition on (l : line) (a b : ext) (p : vec) : Prop :=
  exists z, p = point (l_position l) (l_direction l) z /\ ele a (Fin z) /\ ele (Fin z) b.

(** Number per gram of a target times cross section, summed. *)
Fixpoint weighted (f s : list R) : R :=
  match f, s with x :: f, y :: s => x * y + weighted f s | _, _ => 0 end.
