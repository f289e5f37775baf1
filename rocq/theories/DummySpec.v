(** Deep inelastic kinematics with a massless outgoing lepton. *)
From Coq Require Import Reals.
From Verif Require Import VectorModel.
Open Scope R_scope.

(** Energy of a particle. *)
Definition energy (m : R) (p : vec) : R := sqrt (m * m + vdot p p).
(** The product of two four-vectors. *)
Definition product (e : R) (p : vec) (e' : R) (p' : vec) : R := e * e' - vdot p p'.

(** The massless lepton of momentum [k] is what comes out when a particle of mass [m1] and momentum [p] hits one of mass [m2] at rest,
    with the inelasticity [y] and the variable [x] of Bjorken: [q = p1 - p3], [y = p2.q / p2.p1], [- q.q = 2 x p2.q]. *)
Definition bjorken (p : vec) (m1 m2 x y : R) (k : vec) : Prop :=
  let e1 := energy m1 p in let e3 := energy 0 k in let qe := e1 - e3 in let qp := vsub p k in let zero := mkv 0 0 0 in
  product m2 zero qe qp = y * product m2 zero e1 p /\ - product qe qp qe qp = 2 * x * product m2 zero qe qp.
