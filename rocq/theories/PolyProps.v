(** Properties C52 and C53. *)
From Coquelicot Require Import Coquelicot.
From Coq Require Import Reals List Bool Lra.
From Verif Require Import PolyModel PolyProofs.
Import ListNotations.
Open Scope R_scope.

(** ** C52: polynomials *)

(** [evaluate] is the sum of the monomials. *)
Theorem C52_evaluate : forall p x, evaluate p x = monomials p x.
Proof. exact eval_monomials. Qed.
Print Assumptions C52_evaluate.

(** The shift works for every shift above the precision used in the code, whatever
    the new array contains. The English claim has no such bound: see below. *)
Theorem C52_shift_partial : forall garbage p s y, 1 / 10 ^ 9 < Rabs s -> evaluate (shift garbage p s) y = evaluate p (y + s).
Proof. exact shift_ok. Qed.
Print Assumptions C52_shift_partial.

Theorem C52_small_shift_refuted : exists garbage p s y, evaluate (shift garbage p s) y <> evaluate p (y + s).
Proof. exact shift_small_refuted. Qed.
Print Assumptions C52_small_shift_refuted.

Theorem C52_scale : forall p k x, evaluate (scale p k) x = evaluate p (k * x).
Proof. exact scale_ok. Qed.
Print Assumptions C52_scale.

Theorem C52_derivative : forall p x, is_derive (evaluate p) x (evaluate (derivative p) x).
Proof. exact derivative_ok. Qed.
Print Assumptions C52_derivative.

Theorem C52_antiderivative : forall p c, evaluate (antiderivative p c) 0 = c /\ forall x, is_derive (evaluate (antiderivative p c)) x (evaluate p x).
Proof. exact antiderivative_ok. Qed.
Print Assumptions C52_antiderivative.

Theorem C52_integral : forall p c a b, is_RInt (evaluate p) a b (evaluate (antiderivative p c) b - evaluate (antiderivative p c) a).
Proof. exact antiderivative_integral. Qed.
Print Assumptions C52_integral.

Theorem C52_equality : forall p q, poly_eqb p q = true <-> p = q.
Proof. exact poly_eqb_iff. Qed.
Print Assumptions C52_equality.

(** (1+2x+3x^2)(x+2) = 17+14x+3x^2. *)
Example C52_case : 1 / 10 ^ 9 < Rabs 2 /\ shift (fun _ _ => 77) [1; 2; 3] 2 = [17; 14; 3] /\ derivative [1; 2; 3] = [2; 6] /\ antiderivative [1; 2; 3] 5 = [5; 1; 1; 1].
Proof.
  assert (A : 1 / 10 ^ 9 < Rabs 2) by (rewrite Rabs_right; lra). split; [exact A|]. split; [|split].
  - unfold shift. destruct (Rlt_dec (1 / 10 ^ 9) (Rabs 2)); [|tauto]. cbn. repeat (f_equal; try (unfold put, coeff; cbn; field)).
  - cbn. unfold coeff. cbn. repeat f_equal; ring.
  - unfold antiderivative. cbn. unfold coeff. cbn. repeat f_equal; field.
Qed.

(** ** C53: root finding *)

(** With a sign change and the start inside, every point evaluated and the value
    returned lie in the interval; the only other outcome is a division 0/0. *)
Theorem C53_stays_inside_partial : forall func dfunc xacc x1 x2 xinit steps,
  func x1 * func x2 <= 0 -> between x1 x2 xinit ->
  match newton_raphson func dfunc xacc x1 x2 xinit steps with
  | NotBracketed => False
  | NotANumber points => Forall (between x1 x2) points
  | Found v xl xh points => between x1 x2 v /\ between x1 x2 xl /\ between x1 x2 xh /\ Forall (between x1 x2) points
  end.
Proof. exact newton_ok. Qed.
Print Assumptions C53_stays_inside_partial.

(** Without one it throws. *)
Theorem C53_throws : forall func dfunc xacc x1 x2 xinit steps, 0 < func x1 * func x2 ->
  newton_raphson func dfunc xacc x1 x2 xinit steps = NotBracketed.
Proof. exact newton_throws. Qed.
Print Assumptions C53_throws.

(** The value is a root or lies in a bracket that contains one. *)
Theorem C53_brackets_root : forall func dfunc xacc x1 x2 xinit steps v xl xh points,
  func x1 * func x2 <= 0 -> between x1 x2 xinit -> (forall x, between x1 x2 x -> continuity_pt func x) ->
  newton_raphson func dfunc xacc x1 x2 xinit steps = Found v xl xh points ->
  func v = 0 \/ (between xl xh v /\ exists z, between xl xh z /\ func z = 0).
Proof. exact newton_root. Qed.
Print Assumptions C53_brackets_root.

(** A slope without zeros: a value is found. *)
Theorem C53_finds : forall func dfunc xacc x1 x2 xinit steps, func x1 * func x2 <= 0 -> between x1 x2 xinit ->
  (forall x, between x1 x2 x -> dfunc x <> 0) ->
  exists v xl xh points, newton_raphson func dfunc xacc x1 x2 xinit steps = Found v xl xh points.
Proof. exact newton_number. Qed.
Print Assumptions C53_finds.

(** A slope between [lo] and [hi]: the value is within (1 + hi/lo) * xacc of a root,
    unless all the steps were used up (then one point per step was evaluated). The
    English claim asks for accuracy xacc. *)
Theorem C53_accuracy_partial : forall func dfunc xacc x1 x2 lo hi xinit steps v xl xh points, 0 < lo -> 0 <= xacc ->
  (forall x, between x1 x2 x -> is_derive func x (dfunc x)) -> (forall x, between x1 x2 x -> lo <= dfunc x <= hi) ->
  between x1 x2 xinit -> newton_raphson func dfunc xacc x1 x2 xinit steps = Found v xl xh points ->
  length points = (3 + (steps - 1))%nat \/ exists z, between x1 x2 z /\ func z = 0 /\ Rabs (v - z) <= (1 + hi / lo) * xacc.
Proof. exact newton_near. Qed.
Print Assumptions C53_accuracy_partial.

(** A start at a root with zero slope gives NaN instead of the root. *)
Theorem C53_flat_root_refuted : exists func dfunc x1 x2 xinit points,
  (forall x, is_derive func x (dfunc x)) /\ func x1 * func x2 <= 0 /\ between x1 x2 xinit /\
  newton_raphson func dfunc (1 / 10 ^ 6) x1 x2 xinit 101 = NotANumber points.
Proof. exact newton_nan. Qed.
Print Assumptions C53_flat_root_refuted.

(** One Newton step from the middle of [0,2] finds the root of 2x-3. *)
Example C53_case : newton_raphson (fun x => 2 * x - 3) (fun _ => 2) 1 0 2 1 101 = Found (3 / 2) 0 2 [0; 2; 1].
Proof.
  unfold newton_raphson. destruct (Rlt_dec 0 ((2 * 0 - 3) * (2 * 2 - 3))); [lra|].
  destruct (Req_EM_T (2 * 0 - 3) 0); [lra|]. destruct (Req_EM_T (2 * 2 - 3) 0); [lra|]. destruct (Rlt_dec (2 * 0 - 3) 0); [|lra].
  change (101 - 1)%nat with (S 99). generalize 99%nat. intros k. cbn [newton_loop].
  destruct (Rlt_dec 0 _) as [H|H]; [lra|]. destruct (Rlt_dec _ (Rabs (2 * _))) as [H1|H1].
  - exfalso. unfold Rabs in H1. repeat match type of H1 with context [Rcase_abs ?a] => destruct (Rcase_abs a) end; lra.
  - cbn [orb]. destruct (Req_EM_T 2 0); [lra|]. destruct (Req_EM_T 1 _); [lra|].
    destruct (Rlt_dec _ 1) as [H2|H2].
    + f_equal. field.
    + exfalso. apply H2. unfold Rabs. destruct (Rcase_abs _); lra.
Qed.
