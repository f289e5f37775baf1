(** Proofs about turning a vector to a direction. *)
From Coq Require Import Reals Lra Psatz.
From Verif Require Import VectorModel RkModel RkSpec RkProofs RandomModel DipoleModel DipoleSpec DipoleProofs TurnModel.
Open Scope R_scope.

Lemma turn_shell o p u a : on_shell a -> on_shell (turn o p u a).
Proof.
  intros S. apply rotate_shell; [apply uq_axis, direction_unit|]. apply rotate_shell; auto. apply rb_unit; [apply x_unit|apply direction_unit].
Qed.
Lemma turn_energy o p u a : pe (turn o p u a) = pe a.
Proof. reflexivity. Qed.
Lemma turn_mass o p u a : pm (turn o p u a) = pm a.
Proof. reflexivity. Qed.
Lemma turn_square o p u a : vdot (pp (turn o p u a)) (pp (turn o p u a)) = vdot (pp a) (pp a).
Proof.
  unfold turn. cbn [p4_rotate pp]. rewrite (rot_dot _ (rot_proper _ (uq_axis _ _ (direction_unit p)))).
  apply (rot_dot _ (rot_proper _ (rb_unit o _ _ x_unit (direction_unit p)))).
Qed.
Lemma turn_along p u a : p <> mkv 0 0 0 -> clear_of_x p -> vdot (direction p) (pp (turn AbsDouble p u a)) = vx (pp a).
Proof.
  intros N C. unfold turn. cbn [p4_rotate pp]. set (dir := direction p). set (phi := uniform _ _ u).
  pose proof (uq_axis _ phi (direction_unit p)) as U2. pose proof (rb_unit AbsDouble _ _ x_unit (direction_unit p)) as U1. fold dir in U1, U2.
  rewrite <- (axis_fixed dir phi (direction_unit p)) at 1. rewrite (rot_dot _ (rot_proper _ U2)).
  pose proof (rb_exact _ _ x_unit (direction_unit p) (clear_exact p N C)) as E. fold dir in E. rewrite <- E at 1.
  rewrite (rot_dot _ (rot_proper _ U1)). unfold vdot, x_axis. cbn. ring.
Qed.
Lemma turn_dot p u a : p <> mkv 0 0 0 -> clear_of_x p -> vdot p (pp (turn AbsDouble p u a)) = vlength p * vx (pp a).
Proof.
  intros N C. rewrite <- (turn_along p u a N C). rewrite <- (direction_scale p) at 1. set (v := pp _). set (n := direction p). unfold vdot. cbn. ring.
Qed.
