(** Property C54: densities along rays. *)
From Coquelicot Require Import Coquelicot.
From Coq Require Import Reals List Bool Lra.
From Verif Require Import VectorModel PolyModel PolyProofs DensityModel DensityProofs.
Import ListNotations.
Open Scope R_scope.

(** ** The derivatives *)
Theorem C54_antiderivative_1d : forall d x, has_anti d -> exists f, (forall y, dist_anti d y = Some (f y)) /\ is_derive f x (dist_eval d x).
Proof. intros d x H. exists (anti_fun d). split; [intros; apply anti_some; auto|apply dist_anti_ok; auto]. Qed.
Print Assumptions C54_antiderivative_1d.

Theorem C54_derivative : forall ax d xi dir, is_derive (fun s => cart_evaluate ax d (ray xi dir s)) 0 (cart_derivative ax d xi dir).
Proof. exact cart_derivative_ok. Qed.
Print Assumptions C54_derivative.

Theorem C54_radial_derivative : forall ax d xi dir, rad_x ax xi <> 0 ->
  is_derive (fun s => rad_evaluate ax d (ray xi dir s)) 0 (rad_derivative ax d xi dir).
Proof. exact rad_derivative_ok. Qed.
Print Assumptions C54_radial_derivative.

Theorem C54_antiderivative : forall ax d xi dir, has_anti d -> cart_dx ax dir <> 0 ->
  exists f, (forall s, cart_antiderivative ax d (ray xi dir s) dir = Some (f s)) /\ forall s, is_derive f s (cart_evaluate ax d (ray xi dir s)).
Proof. exact cart_antiderivative_ok. Qed.
Print Assumptions C54_antiderivative.

(** ** Integrals *)

(** [_partial]: rays perpendicular to the axis and exponentials of slope zero are left
    out; the code does not give a number there (see below). *)
Theorem C54_integral_partial : forall ax d xi dir L, has_anti d -> cart_dx ax dir <> 0 ->
  exists v, cart_integral ax d xi dir L = Some v /\ is_RInt (fun s => cart_evaluate ax d (ray xi dir s)) 0 L v.
Proof. exact cart_integral_ok. Qed.
Print Assumptions C54_integral_partial.

Theorem C54_integral_between_points : forall ax d xi xj,
  cart_integral_to ax d xi xj = cart_integral ax d xi (vnormalized (vsub xj xi)) (vmag (vsub xj xi)).
Proof. exact cart_integral_to_ok. Qed.
Print Assumptions C54_integral_between_points.

Theorem C54_constant_integral : forall v xi dir L, is_RInt (fun s => const_evaluate v (ray xi dir s)) 0 L (const_integral v xi dir L).
Proof. exact const_integral_ok. Qed.
Print Assumptions C54_constant_integral.

(** Perpendicular to the axis: 0/0, although the density is the number 1 everywhere. *)
Theorem C54_perpendicular_refuted : exists ax d xi dir L, has_anti d /\ vmag dir = 1 /\
  is_RInt (fun s => cart_evaluate ax d (ray xi dir s)) 0 L 1 /\ cart_integral ax d xi dir L = None.
Proof.
  exists (mkaxis (mkv 0 0 1) (mkv 0 0 0)), (Polynomial1 [1]), (mkv 0 0 0), (mkv 1 0 0), 1. split; [exact I|split; [|split]].
  - unfold vmag. cbn. replace (1 * 1 + 0 * 0 + 0 * 0) with 1 by ring. apply sqrt_1.
  - unfold cart_evaluate. cbn. evar_last; [apply @is_RInt_const|]. unfold scal; cbn; unfold mult; cbn. ring.
  - unfold cart_integral, anti_difference. cbn. unfold quotient. destruct (Req_EM_T _ 0) as [E|E]; auto. exfalso. apply E.
    unfold cart_dx, vdot. cbn. ring.
Qed.
Print Assumptions C54_perpendicular_refuted.

(** An exponential of slope zero is a constant density without an integral. *)
Theorem C54_flat_exponential_refuted : exists ax d xi dir L, vmag dir = 1 /\ cart_dx ax dir <> 0 /\
  is_RInt (fun s => cart_evaluate ax d (ray xi dir s)) 0 L 1 /\ cart_integral ax d xi dir L = None.
Proof.
  exists (mkaxis (mkv 1 0 0) (mkv 0 0 0)), (Exponential1 0 1 0), (mkv 0 0 0), (mkv 1 0 0), 1. split; [|split; [|split]].
  - unfold vmag. cbn. replace (1 * 1 + 0 * 0 + 0 * 0) with 1 by ring. apply sqrt_1.
  - unfold cart_dx, vdot. cbn. lra.
  - apply is_RInt_ext with (fun _ => 1).
    + intros s _. unfold cart_evaluate. cbn. replace (0 * _) with 0 by ring. rewrite exp_0. ring.
    + evar_last; [apply @is_RInt_const|]. unfold scal; cbn; unfold mult; cbn. ring.
  - unfold cart_integral, anti_difference. cbn. unfold quotient. destruct (Req_EM_T 0 0); [auto|lra].
Qed.
Print Assumptions C54_flat_exponential_refuted.

(** ** Inverse integrals *)

(** -1 exactly when no length up to the maximum has the integral; otherwise a length in
    range. [_partial]: that this length is the one with the integral holds to the
    accuracy of the root search, see C53. *)
Theorem C54_inverse_partial : forall ax d xi dir I mx, has_anti d -> cart_dx ax dir <> 0 -> 0 <= mx -> 0 <= I ->
  (forall s, 0 <= s <= mx -> 0 < cart_evaluate ax d (ray xi dir s)) ->
  exists res, cart_inverse ax d xi dir I mx = Some res /\ answers (fun L => RInt (fun s => cart_evaluate ax d (ray xi dir s)) 0 L) I mx res.
Proof. exact cart_inverse_ok. Qed.
Print Assumptions C54_inverse_partial.

(** With a constant: only for rays that start where the coordinate is zero. *)
Theorem C54_inverse_with_constant_partial : forall ax d xi dir c I mx, has_anti d -> cart_dx ax dir <> 0 -> 0 <= mx -> 0 <= I -> cart_x ax xi = 0 ->
  (forall s, 0 <= s <= mx -> 0 < cart_evaluate ax d (ray xi dir s) + c) ->
  exists res, cart_inverse_constant ax d xi dir c I mx = Some res /\ answers (total (fun s => cart_evaluate ax d (ray xi dir s)) c) I mx res.
Proof. exact cart_inverse_constant_ok. Qed.
Print Assumptions C54_inverse_with_constant_partial.

(** Two steps of a search whose slope is 2 everywhere. *)
Lemma witness_search (F dF : R -> R) : (forall x, F x = 2 * x - 3) -> (forall x, dF x = 2) ->
  exists pts, newton_raphson F dF (1 / 10 ^ 6) 1 11 6 101 = Found (3 / 2) 1 (3 / 2) pts.
Proof.
  intros HF HD. unfold newton_raphson. rewrite !HF, !HD.
  destruct (Rlt_dec 0 _); [lra|]. destruct (Req_EM_T _ 0); [lra|]. destruct (Req_EM_T _ 0); [lra|]. destruct (Rlt_dec _ 0); [|lra].
  change (101 - 1)%nat with (S (S 98)). generalize 98%nat. intros k. cbn [newton_loop].
  destruct (Rlt_dec 0 _) as [H|H]; [lra|]. destruct (Rlt_dec (Rabs (Rabs (11 - 1) * 2)) (Rabs (2 * _))) as [H1|H1].
  { exfalso. revert H1. unfold Rabs. repeat match goal with |- context [Rcase_abs ?a] => destruct (Rcase_abs a) end; lra. }
  cbn [orb]. destruct (Req_EM_T 2 0); [lra|]. replace (6 - (2 * 6 - 3) / 2) with (3 / 2) by field.
  destruct (Req_EM_T 6 (3 / 2)); [lra|]. destruct (Rlt_dec (Rabs _) (1 / 10 ^ 6)) as [H2|H2].
  { exfalso. revert H2. unfold Rabs. destruct (Rcase_abs _); lra. }
  rewrite !HF, !HD. destruct (Rlt_dec (2 * (3 / 2) - 3) 0); [lra|].
  destruct (Rlt_dec 0 _) as [H3|H3]; [lra|]. destruct (Rlt_dec (Rabs _) (Rabs (2 * _))) as [H4|H4].
  { exfalso. replace (2 * (2 * (3 / 2) - 3)) with 0 in H4 by field. rewrite Rabs_R0 in H4. pose proof (Rabs_pos (Rabs (11 - 1) * 2)). lra. }
  cbn [orb]. destruct (Req_EM_T 2 0); [lra|]. replace (3 / 2 - (2 * (3 / 2) - 3) / 2) with (3 / 2) by field. destruct (Req_EM_T (3 / 2) (3 / 2)); [eexists; reflexivity|lra].
Qed.

(** The constant is integrated from the zero of the axis instead of from the start: a
    ray starting at coordinate 1 in density 1 plus constant 1 gets length 1/2 for the
    integral 2, which is reached after length 1. *)
Theorem C54_inverse_with_constant_refuted : exists ax d xi dir c I mx, has_anti d /\ vmag dir = 1 /\ cart_dx ax dir = 1 /\
  (forall s, 0 < cart_evaluate ax d (ray xi dir s) + c) /\ 0 < 1 <= mx /\ is_RInt (fun s => cart_evaluate ax d (ray xi dir s) + c) 0 1 I /\
  cart_inverse_constant ax d xi dir c I mx = Some (1 / 2).
Proof.
  exists (mkaxis (mkv 1 0 0) (mkv 0 0 0)), (Polynomial1 [1]), (mkv 1 0 0), (mkv 1 0 0), 1, 2, 10.
  split; [exact I|split; [|split; [|split; [|split; [|split]]]]].
  - unfold vmag. cbn. replace (1 * 1 + 0 * 0 + 0 * 0) with 1 by ring. apply sqrt_1.
  - unfold cart_dx, vdot. cbn. ring.
  - intros s. unfold cart_evaluate. cbn. lra.
  - lra.
  - unfold cart_evaluate. cbn. evar_last; [apply @is_RInt_const|]. unfold scal; cbn; unfold mult; cbn. ring.
  - unfold cart_inverse_constant. cbn [with_anti]. unfold cart_search.
    replace (cart_x _ (vadd _ _)) with 11 by (unfold cart_x, vdot; cbn; ring).
    replace (cart_x _ _) with 1 by (unfold cart_x, vdot; cbn; ring).
    replace (cart_dx _ _) with 1 by (unfold cart_dx, vdot; cbn; ring).
    replace ((1 + 11) / 2) with 6 by field.
    destruct (witness_search (fun x => evaluate (antiderivative [1] 0) x - evaluate (antiderivative [1] 0) 1 + 1 * x - 2 * 1) (fun x => dist_eval (Polynomial1 [1]) x + 1)) as [pts W].
    + intros x. cbn. unfold coeff. cbn. field.
    + intros x. cbn. ring.
    + rewrite W. unfold quotient. destruct (Req_EM_T 1 0); [lra|]. f_equal. field.
Qed.
Print Assumptions C54_inverse_with_constant_refuted.

Theorem C54_constant_inverse : forall v xi dir I mx, 0 < v -> 0 <= mx -> 0 <= I ->
  exists res, const_inverse v xi dir I mx = Some res /\
    ((res = -1 /\ mx * v < I) \/ (0 <= res <= mx /\ const_integral v xi dir res = I)).
Proof. exact const_inverse_ok. Qed.
Print Assumptions C54_constant_inverse.

Theorem C54_constant_inverse_with_constant : forall v xi dir c I mx, 0 < v + c -> 0 <= mx -> 0 <= I ->
  exists res, const_inverse_constant v xi dir c I mx = Some res /\
    ((res = -1 /\ mx * (v + c) < I) \/ (0 <= res <= mx /\ const_integral v xi dir res + c * res = I)).
Proof. exact const_inverse_constant_ok. Qed.
Print Assumptions C54_constant_inverse_with_constant.

(** Radial densities, if the numerical integrals are exact. *)
Theorem C54_radial_inverse_partial : forall romberg ax d xi dir mx,
  (forall L, 0 <= L <= mx -> is_RInt (fun s => rad_evaluate ax d (ray xi dir s)) 0 L (romberg (fun s => rad_evaluate ax d (ray xi dir s)) 0 L)) ->
  forall I, 0 <= mx -> 0 <= I -> (forall s, 0 <= s <= mx -> 0 < rad_evaluate ax d (ray xi dir s)) ->
  exists res, rad_inverse romberg ax d xi dir I mx = Some res /\ answers (fun L => RInt (fun s => rad_evaluate ax d (ray xi dir s)) 0 L) I mx res.
Proof. exact rad_inverse_ok. Qed.
Print Assumptions C54_radial_inverse_partial.

Theorem C54_radial_inverse_with_constant_partial : forall romberg ax d xi dir mx,
  (forall L, 0 <= L <= mx -> is_RInt (fun s => rad_evaluate ax d (ray xi dir s)) 0 L (romberg (fun s => rad_evaluate ax d (ray xi dir s)) 0 L)) ->
  forall c I, 0 <= mx -> 0 <= I -> (forall s, 0 <= s <= mx -> 0 < rad_evaluate ax d (ray xi dir s) + c) ->
  exists res, rad_inverse_constant romberg ax d xi dir c I mx = Some res /\ answers (total (fun s => rad_evaluate ax d (ray xi dir s)) c) I mx res.
Proof. exact rad_search_ok. Qed.
Print Assumptions C54_radial_inverse_with_constant_partial.

(** Density 1 + x along the x axis from the origin: 4 after length 2 for a direction
    along the axis, and the hypotheses of the inverse hold. *)
Example C54_case :
  let ax := mkaxis (mkv 1 0 0) (mkv 0 0 0) in let d := Polynomial1 [1; 1] in let o := mkv 0 0 0 in let dir := mkv 1 0 0 in
  has_anti d /\ cart_dx ax dir <> 0 /\ cart_integral ax d o dir 2 = Some 4 /\ (forall s, 0 <= s <= 3 -> 0 < cart_evaluate ax d (ray o dir s)) /\
  cart_x ax o = 0.
Proof.
  cbv zeta. split; [exact I|]. assert (D : cart_dx (mkaxis (mkv 1 0 0) (mkv 0 0 0)) (mkv 1 0 0) = 1) by (unfold cart_dx, vdot; cbn; ring).
  split; [rewrite D; lra|split; [|split]].
  - unfold cart_integral, anti_difference. rewrite D. cbn. unfold quotient. destruct (Req_EM_T 1 0); [lra|]. f_equal. unfold coeff, cart_x, vdot. cbn. field.
  - intros s S. unfold cart_evaluate. rewrite cart_ray, D. unfold cart_x, vdot. cbn. lra.
  - unfold cart_x, vdot. cbn. ring.
Qed.

(** An exact integrator exists for the radial theorems: the constant density 3. *)
Example C54_radial_case : forall ax xi dir L, is_RInt (fun s => rad_evaluate ax (Constant1 3) (ray xi dir s)) 0 L ((fun f a b => (b - a) * f 0) (fun s => rad_evaluate ax (Constant1 3) (ray xi dir s)) 0 L).
Proof. intros. unfold rad_evaluate. cbn. evar_last; [apply @is_RInt_const|]. unfold scal; cbn; unfold mult; cbn. ring. Qed.
