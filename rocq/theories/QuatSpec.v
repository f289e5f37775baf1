(** Quaternions and rotations, independently of the code. *)
From Coq Require Import Reals.
From Verif Require Import VectorModel QuatModel.
Open Scope R_scope.

(** Product by scalar and vector parts. *)
Definition qv (a : quat) : vec := mkv (qx a) (qy a) (qz a).
Definition hamilton (a b : quat) : quat :=
  let v := vadd (vadd (vscale (qw a) (qv b)) (vscale (qw b) (qv a))) (vcross (qv a) (qv b)) in
  mkq (vx v) (vy v) (vz v) (qw a * qw b - vdot (qv a) (qv b)).

Definition unit (a : quat) : Prop := qnorm2 a = 1.
Definition nonzero (a : quat) : Prop := a <> mkq 0 0 0 0.

(** Quaternions whose norm [rotate] does not treat as one by tolerance. *)
Definition exact (a : quat) : Prop := unit a \/ 1 / 10 ^ 12 <= Rabs (qnorm2 a - 1).

(** A rotation of space: additive, homogeneous, keeping dot and cross products. *)
Record rotation (f : vec -> vec) : Prop := {
  rot_add : forall p q, f (vadd p q) = vadd (f p) (f q);
  rot_scale : forall k p, f (vscale k p) = vscale k (f p);
  rot_dot : forall p q, vdot (f p) (f q) = vdot p q;
  rot_cross : forall p q, f (vcross p q) = vcross (f p) (f q)
}.

Definition mutually_inverse (f g : vec -> vec) : Prop := (forall p, f (g p) = p) /\ (forall p, g (f p) = p).

(** A map of space that keeps distances. *)
Definition isometry (f : vec -> vec) : Prop := forall p q, vmag (vsub (f p) (f q)) = vmag (vsub p q).

(** Rotation of [p] by [angle] about the unit vector [k] (Rodrigues). *)
Definition rodrigues (k : vec) (angle : R) (p : vec) : vec :=
  vadd (vadd (vscale (cos angle) p) (vscale (sin angle) (vcross k p))) (vscale (vdot k p * (1 - cos angle)) k).

(** Matrix times vector. *)
Definition mat_apply (m : matrix) (p : vec) : vec :=
  mkv (mxx m * vx p + mxy m * vy p + mxz m * vz p) (myx m * vx p + myy m * vy p + myz m * vz p)
      (mzx m * vx p + mzy m * vy p + mzz m * vz p).

Definition axis_x : vec := mkv 1 0 0.
Definition axis_y : vec := mkv 0 1 0.
Definition axis_z : vec := mkv 0 0 1.
