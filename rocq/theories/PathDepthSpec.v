(** What the depths of a detector along straight lines should be. *)
From Coq Require Import Reals.
From Verif Require Import TraversalModel VectorModel DepthModel PathModel PathSpec.
Open Scope R_scope.

Section Spec.
Context {Q : Type}.
Variable m : detector Q.
(** The depth between two points, for each kind of depth. *)
Variable amount : Q -> vec -> vec -> R.

(** Depths are found for any two points of a line, whichever ray along it was cast; they are not
    negative, the same both ways, and add up along a line. *)
Definition measures : Prop :=
  (forall q a d s t, vdot d d = 1 ->
     d_depth m q (d_cast m (At a) d) (At (along_by a d s)) (At (along_by a d t)) = Num (amount q (along_by a d s) (along_by a d t))) /\
  (forall q u v, 0 <= amount q u v) /\ (forall q u, amount q u u = 0) /\ (forall q u v, amount q u v = amount q v u) /\
  (forall q u d s t, 0 <= s -> 0 <= t -> amount q u (along_by u d (s + t)) = amount q u (along_by u d s) + amount q (along_by u d s) (along_by u d (s + t))).

(** The distance found for a depth is right to within [eps] of the depth: positive depths are
    looked for forwards, negative ones backwards, and the answer is infinite only for a depth that
    is never reached. *)
Definition locates (eps : R) : Prop :=
  forall q a d s e X, vdot d d = 1 -> e = d \/ e = vneg d ->
    let u := along_by a d s in let r := d_reach m q (d_cast m (At a) d) (At u) e (Num X) in
    (0 < X -> (exists t, r = Num t /\ 0 <= t /\ Rabs (amount q u (along_by u e t) - X) <= eps) \/
              (r = Inf false /\ forall t, 0 <= t -> amount q u (along_by u e t) < X)) /\
    (X < 0 -> (exists t, r = Num t /\ t <= 0 /\ Rabs (amount q u (along_by u e t) + X) <= eps) \/
              (r = Inf true /\ forall t, t <= 0 -> amount q u (along_by u e t) < - X)).
End Spec.

(** A number with the sign of [k]. *)
Definition signed (k x : R) : R := if Rlt_dec k 0 then - x else x.
(** [k] brought between zero and the length of a path. *)
Definition within_length (l : num) (k : R) : R :=
  match l with Num x => Rmin x (Rmax 0 k) | _ => Rmax 0 k end.
