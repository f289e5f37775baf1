(** Special relativity, written without the model's boosts and quaternions. *)
From Coq Require Import Reals.
From Verif Require Import VectorModel RkModel.
Open Scope R_scope.

Definition vlen (v : vec) : R := sqrt (vdot v v).
Definition unit_vec (v : vec) : Prop := vdot v v = 1.

(** A particle on its mass shell, moving forward in time. *)
Definition on_shell (a : p4) : Prop := 0 <= pm a /\ 0 <= pe a /\ pe a * pe a = pm a * pm a + vdot (pp a) (pp a).

(** Time and space components, seen from a frame that moves with Lorentz factor [g] and
    [g] times velocity [s] along the unit vector [n]. *)
Definition lorentz_time (n : vec) (g s : R) (e : R) (p : vec) : R := g * e - s * vdot n p.
Definition lorentz_space (n : vec) (g s : R) (e : R) (p : vec) : vec :=
  let par := vdot n p in
  let perp := vsub p (vscale par n) in
  vadd perp (vscale (g * par - s * e) n).

(** The boost is one of special relativity with factor [g] along [n]. *)
Definition is_boost (b : boost) (n : vec) (g s : R) : Prop :=
  bdir b = n /\ bc b + 1 = g /\ bs b = s /\ unit_vec n /\ 1 <= g /\ g * g = 1 + s * s.

(** A linear map that keeps products and orientation. *)
Record proper_rotation (f : vec -> vec) : Prop := {
  rot_add : forall a b, f (vadd a b) = vadd (f a) (f b);
  rot_scale : forall k a, f (vscale k a) = vscale k (f a);
  rot_dot : forall a b, vdot (f a) (f b) = vdot a b;
  rot_cross : forall a b, vcross (f a) (f b) = f (vcross a b)
}.
Definition distance_squared (a b : vec) : R := vdot (vsub a b) (vsub a b).
