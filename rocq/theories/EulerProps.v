(** Properties C123-C128: Euler angles and 3x3 matrices. *)
From Coq Require Import NArith Reals List Lra Lia.
From Verif Require Import VectorModel QuatModel QuatSpec QuatProofs QuatPlace EulerModel EulerSpec EulerProofs EulerOrders EulerNear.
Import ListNotations.
Open Scope R_scope.

(** ** C123: the code of an order gives back the letters of its name *)
Definition letter_number (l : letter) : N := match l with LX => 0 | LY => 1 | LZ => 2 end%N.
Theorem C123_letters : forall o,
  let c := code o in let '(l1, l2, l3) := letters o in
  (if turning o then (axis_h c, axis_j c, axis_i c) else (axis_i c, axis_j c, axis_h c)) = (letter_number l1, letter_number l2, letter_number l3) /\
  get_frame c = (if turning o then frame_rotating else frame_static).
Proof. intros []; cbn [letters turning]; split; reflexivity. Qed.
Print Assumptions C123_letters.

Theorem C123_distinct : forall o o', code o = code o' -> o = o'.
Proof. intros [] []; cbv; intros E; congruence. Qed.
Print Assumptions C123_distinct.

(** Every number below 24 is the code of an order. *)
Theorem C123_onto : forall n, (n < 24)%N -> exists o, code o = n.
Proof.
  intros n L. exists (nth (N.to_nat n)
    [XYZs; ZYXr; XYXs; XYXr; XZYs; YZXr; XZXs; XZXr; YZXs; XZYr; YZYs; YZYr; YXZs; ZXYr; YXYs; YXYr; ZXYs; YXZr; ZXZs; ZXZr; ZYXs; XYZr; ZYZs; ZYZr] XYZs).
  assert (E : exists k, (k < 24)%nat /\ n = N.of_nat k) by (exists (N.to_nat n); split; [lia | rewrite N2Nat.id; auto]).
  destruct E as (k & K & ->). rewrite Nat2N.id. do 24 (destruct k as [|k]; [reflexivity |]). lia.
Qed.
Print Assumptions C123_onto.

Theorem C123_axes : forall o, let c := code o in
  NoDup [axis_i c; axis_j c; axis_k c] /\ (axis_i c < 3 /\ axis_j c < 3 /\ axis_k c < 3)%N.
Proof. intros []; (split; [repeat (apply NoDup_cons; [cbn; intuition discriminate |]); apply NoDup_nil | repeat split; reflexivity]). Qed.
Print Assumptions C123_axes.

Example C123_case : code ZYXr = 1%N /\ axis_i (code ZYXr) = 0%N /\ axis_h (code ZYXr) = 2%N.
Proof. repeat split. Qed.

(** ** C124: quaternion of Euler angles *)
Theorem C124_turns : forall o a b g p,
  qrotate (quaternion_from_euler (mkeuler o a b g)) p false = turned o a b g p /\ unit (quaternion_from_euler (mkeuler o a b g)).
Proof. intros. rewrite from_euler_product. split; [apply order_q_turn | apply order_q_unit]. Qed.
Print Assumptions C124_turns.

(** The two formulas written for one order each are the general one. *)
Theorem C124_special : forall a b g,
  q_from_xyzs a b g = quaternion_from_euler (mkeuler XYZs a b g) /\ q_from_zxzr a b g = quaternion_from_euler (mkeuler ZXZr a b g).
Proof. intros. rewrite !from_euler_product, xyzs_ok, zxzr_ok. split; reflexivity. Qed.
Print Assumptions C124_special.

(** With axes that turn with the body, a quarter turn about z carries the next turn's x axis to y. *)
Example C124_case : qrotate (quaternion_from_euler (mkeuler ZXZr (PI / 2) (PI / 2) 0)) (mkv 0 0 1) false = mkv 1 0 0.
Proof.
  rewrite (proj1 (C124_turns _ _ _ _ _)). unfold turned. cbn [letters turning]. unfold about, rodrigues.
  rewrite cos_PI2, sin_PI2, cos_0, sin_0. apply vec_eq; cbn; unfold vdot; cbn; ring.
Qed.

(** ** C125: matrix of Euler angles *)
Theorem C125_static : forall o a b g, turning o = false ->
  exists m, matrix_from_euler (mkeuler o a b g) = Some m /\ forall p, mvec m p = turned o a b g p.
Proof. intros. rewrite from_static by auto. apply place_turn. Qed.
Print Assumptions C125_static.

(** Axes that turn with the body: the angles are used in the order gamma, alpha, beta. *)
Theorem C125_turning : forall o a b g, turning o = true ->
  exists m, matrix_from_euler (mkeuler o a b g) = Some m /\ forall p, mvec m p = turned o g a b p.
Proof. intros. rewrite from_turning by auto. apply place_turn. Qed.
Print Assumptions C125_turning.

(** Finding: for axes that turn with the body the matrix is not that of the angles: alpha and beta are swapped in place of alpha and gamma. *)
Theorem C125_turning_refuted : exists o a b g m p, matrix_from_euler (mkeuler o a b g) = Some m /\
  mvec m p <> turned o a b g p /\ mvec m p <> qrotate (quaternion_from_euler (mkeuler o a b g)) p false.
Proof.
  destruct (C125_turning XYZr (PI / 2) 0 0 eq_refl) as (m & E & H).
  exists XYZr, (PI / 2), 0, 0, m, (mkv 0 1 0). split; auto.
  rewrite H, (proj1 (C124_turns _ _ _ _ _)).
  assert (D : turned XYZr 0 (PI / 2) 0 (mkv 0 1 0) <> turned XYZr (PI / 2) 0 0 (mkv 0 1 0)); [| auto].
  unfold turned. cbn [letters turning]. unfold about, rodrigues. rewrite cos_PI2, sin_PI2, cos_0, sin_0.
  unfold vdot, vcross. cbn. intros D. injection D as D1 D2 D3. lra.
Qed.
Print Assumptions C125_turning_refuted.

Example C125_case : exists m, matrix_from_euler (mkeuler ZXZs 0 (PI / 2) 0) = Some m /\ mvec m (mkv 0 1 0) = mkv 0 0 1.
Proof.
  destruct (C125_static ZXZs 0 (PI / 2) 0 eq_refl) as (m & E & H). exists m. split; auto. rewrite H.
  unfold turned. cbn [letters turning]. unfold about, rodrigues. rewrite cos_PI2, sin_PI2, cos_0, sin_0.
  apply vec_eq; cbn; unfold vdot; cbn; ring.
Qed.

(** ** C126: Euler angles of a rotation matrix *)
Theorem C126_recovers : forall o m, rotation_matrix m ->
  (pole < distance_from_pole o m \/ distance_from_pole o m = 0) ->
  exists e, euler_from_matrix m o = Some e /\ e_order e = o /\ forall p, turned o (e_alpha e) (e_beta e) (e_gamma e) p = mvec m p.
Proof. intros o m R D. destruct (recovers o m R D) as (e & E & O & H). exists e. split; auto. split; auto. intros p. rewrite <- H. unfold turns. rewrite O. auto. Qed.
Print Assumptions C126_recovers.

(** Anywhere, no element moves by more than twice the threshold. *)
Theorem C126_near : forall o m, rotation_matrix m ->
  exists e m', euler_from_matrix m o = Some e /\ e_order e = o /\ (forall p, mvec m' p = turned o (e_alpha e) (e_beta e) (e_gamma e) p) /\
    forall r c, Rabs (element m' r c - element m r c) <= 32 / 2 ^ 52.
Proof.
  intros o m R. destruct (near_pole o m R) as (e & m' & E & O & H & N). exists e, m'. split; auto. split; auto.
  split; [intros p; rewrite H; unfold turns; rewrite O; auto |]. intros r c. replace (32 / 2 ^ 52) with (2 * pole) by (unfold pole; field). auto.
Qed.
Print Assumptions C126_near.

Theorem C126_never_throws : forall o m, exists e, euler_from_matrix m o = Some e /\ e_order e = o.
Proof. exact always_angles. Qed.
Print Assumptions C126_never_throws.

Definition tip : R := 2 * / 10 ^ 17 / (1 + / 10 ^ 17 * / 10 ^ 17).
Definition tip_c : R := (1 - / 10 ^ 17 * / 10 ^ 17) / (1 + / 10 ^ 17 * / 10 ^ 17).
Lemma tip_ok : 0 < tip /\ tip < pole /\ 0 < tip_c /\ tip_c * tip_c + tip * tip = 1.
Proof.
  unfold tip, tip_c, pole. set (t := / 10 ^ 17). assert (T0 : 0 < t) by (apply Rinv_0_lt_compat, pow_lt; lra).
  assert (T1 : t < 8 * / 2 ^ 52) by (unfold t; lra).
  assert (T2 : t < 1) by (unfold t; lra). clearbody t.
  assert (P : 0 < 1 + t * t) by nra. repeat split.
  - apply Rdiv_lt_0_compat; lra.
  - apply Rmult_lt_reg_r with (1 + t * t); auto. unfold Rdiv. rewrite Rmult_assoc, Rinv_l by lra.
    assert (0 < / 2 ^ 52) by (apply Rinv_0_lt_compat, pow_lt; lra). nra.
  - apply Rdiv_lt_0_compat; nra.
  - field. lra.
Qed.
Definition tip_matrix : matrix := mkm tip_c 0 tip tip 0 (- tip_c) 0 1 0.
Lemma tip_rotation : rotation_matrix tip_matrix.
Proof.
  destruct tip_ok as (A & B & C & D). unfold rotation_matrix, tip_matrix, vdot, vcross, column. cbn.
  repeat split; try lra. apply vec_eq; cbn; ring.
Qed.
(** Finding: within the threshold, but not at the pole, the angles are of another rotation. *)
Theorem C126_close_refuted : exists o m e p, rotation_matrix m /\ 0 < distance_from_pole o m /\
  euler_from_matrix m o = Some e /\ turned o (e_alpha e) (e_beta e) (e_gamma e) p <> mvec m p.
Proof.
  destruct tip_ok as (A & B & C & D).
  destruct (elements_ok XYXs tip_matrix) as (v & E & _). pose proof (from_matrix_form _ _ _ E) as F. injection E as <-.
  assert (S : sqrt (0 * 0 + tip * tip) = tip) by (rewrite Rmult_0_l, Rplus_0_l; apply sqrt_square; lra).
  exists XYXs, tip_matrix, (mkeuler XYXs (atan2 tip_c 0) (atan2 tip tip_c) 0), (mkv 0 1 0).
  split; [apply tip_rotation |]. split.
  { unfold distance_from_pole. cbn [letters turning element column coordinate tip_matrix mxx vx].
    cbn. replace (1 - tip_c * tip_c) with (tip * tip) by lra. rewrite sqrt_square; lra. }
  split.
  { rewrite F. f_equal. unfold raw_angles, angles_of. change (N.eqb (get_repetition (code XYXs)) rep_yes) with true. cbv iota.
    cbn [tip_matrix mxx mxy mxz myx myy myz mzx mzy mzz]. rewrite S.
    destruct (Rlt_dec pole tip); [lra |]. unfold settle_angles, sign. change (odd XYXs) with false. cbn [turning]. rewrite Ropp_involutive. auto. }
  cbn [e_alpha e_beta e_gamma].
  destruct (polar_unit tip_c 0 tip_c C) as (Ca & Sa); [lra |].
  destruct (polar_unit tip tip_c 1 ltac:(lra)) as (Cb & Sb); [lra |].
  unfold turned. cbn [letters turning]. unfold about, rodrigues. rewrite Ca, Sa, Cb, Sb, cos_0, sin_0.
  replace (tip_c / tip_c) with 1 by (field; lra). replace (0 / tip_c) with 0 by (field; lra).
  unfold vdot, vcross. cbn. intros H. injection H as H1 H2 H3. lra.
Qed.
Print Assumptions C126_close_refuted.

Definition quarter : matrix := mkm 0 (- (1)) 0 1 0 0 0 0 1.
Example C126_case : rotation_matrix quarter /\ pole < distance_from_pole XYZs quarter /\ distance_from_pole ZXZr quarter = 0.
Proof.
  split; [| split].
  - unfold rotation_matrix, quarter, vdot, vcross, column. cbn. repeat split; try lra. apply vec_eq; cbn; ring.
  - unfold distance_from_pole. cbn. replace (1 - 0 * 0) with 1 by ring. rewrite sqrt_1. apply pole_small.
  - unfold distance_from_pole. cbn. replace (1 - 1 * 1) with 0 by ring. apply sqrt_0.
Qed.

(** ** C127: Euler angles of a quaternion *)
Theorem C127_unit : forall q o, unit q ->
  (pole < distance_from_pole o (get_matrix q) \/ distance_from_pole o (get_matrix q) = 0) ->
  exists e, euler_from_quaternion q o = Some e /\ e_order e = o /\
    (forall p, turned o (e_alpha e) (e_beta e) (e_gamma e) p = qrotate q p false) /\
    (quaternion_from_euler e = q \/ quaternion_from_euler e = mkq (- qx q) (- qy q) (- qz q) (- qw q)).
Proof.
  intros q o U D. destruct (of_quaternion q o U D) as (e & E & O & T & Q). exists e. split; auto. split; auto. split; auto.
  intros p. rewrite <- T. unfold turns. rewrite O. auto.
Qed.
Print Assumptions C127_unit.

(** The two special forms take any quaternion but 0. *)
Theorem C127_special : forall q, nonzero q ->
  (pole < distance_from_pole XYZs (matrix_from_quaternion q) \/ distance_from_pole XYZs (matrix_from_quaternion q) = 0 ->
    let e := xyzs_from_q q in forall p, qvec (turned XYZs (e_alpha e) (e_beta e) (e_gamma e) p) = qmul (qmul q (qvec p)) (qinv q)) /\
  (pole < distance_from_pole ZXZr (matrix_from_quaternion q) \/ distance_from_pole ZXZr (matrix_from_quaternion q) = 0 ->
    let e := zxzr_from_q q in forall p, qvec (turned ZXZr (e_alpha e) (e_beta e) (e_gamma e) p) = qmul (qmul q (qvec p)) (qinv q)).
Proof.
  intros q N. split; intros D e p.
  - destruct (of_any_quaternion q XYZs N D) as (e' & E & O & T). rewrite xyzs_form in E. injection E as <-.
    rewrite <- turn_conj_form by auto. f_equal. unfold turns in T. rewrite O in T. apply T.
  - destruct (of_any_quaternion q ZXZr N D) as (e' & E & O & T). rewrite zxzr_form in E. injection E as <-.
    rewrite <- turn_conj_form by auto. f_equal. unfold turns in T. rewrite O in T. apply T.
Qed.
Print Assumptions C127_special.

(** The matrix of any quaternion but 0, and that of 0. *)
Theorem C127_matrix : (forall q p, nonzero q -> qvec (mvec (matrix_from_quaternion q) p) = qmul (qmul q (qvec p)) (qinv q)) /\
  (forall p, mvec (matrix_from_quaternion (mkq 0 0 0 0)) p = p) /\ (forall q, unit q -> matrix_from_quaternion q = get_matrix q).
Proof.
  split; [| split].
  - intros q p N. rewrite <- turn_conj_form by auto. f_equal. rewrite matrix_of_quaternion by auto. apply unit_of_turn; auto.
  - intros [x y z]. unfold matrix_from_quaternion, qdot. cbn. destruct (Rlt_dec 0 (0 * 0 + 0 * 0 + 0 * 0 + 0 * 0)); [lra |].
    unfold mvec. cbn. apply vec_eq; cbn; ring.
  - intros q U. rewrite matrix_of_quaternion by auto using unit_nonzero. f_equal. unfold unit_of. rewrite U, sqrt_1.
    destruct q as [x y z w]. unfold qscale. cbn. f_equal; field.
Qed.
Print Assumptions C127_matrix.

(** Finding: the general form reads the elements of [GetMatrix], which are of a rotation only for a unit quaternion. *)
Theorem C127_not_unit_refuted : exists q o e p, nonzero q /\ exact q /\ euler_from_quaternion q o = Some e /\
  turned o (e_alpha e) (e_beta e) (e_gamma e) p <> qrotate q p false.
Proof.
  set (q := mkq 0 0 1 1).
  assert (NZ : nonzero q) by (intros H; injection H; lra).
  assert (N2 : qnorm2 q = 2) by (unfold qnorm2, q; cbn; ring).
  assert (EX : exact q) by (right; rewrite N2; unfold Rabs; destruct (Rcase_abs (2 - 1)); lra).
  set (m0 := mkm (- (1)) (- (2)) 0 2 (- (1)) 0 0 0 1).
  assert (GM : get_matrix q = m0) by (unfold get_matrix, q, m0; cbn; f_equal; ring).
  assert (F := from_matrix_form ZXYs m0 (1, 0, 0, (0, - (1), - (2)), (0, 2, - (1))) eq_refl).
  unfold raw_angles, angles_of in F. change (N.eqb (get_repetition (code ZXYs)) rep_yes) with false in F. cbv iota in F.
  assert (S1 : sqrt (1 * 1 + 0 * 0) = 1) by (replace (1 * 1 + 0 * 0) with 1 by ring; apply sqrt_1).
  pose proof pole_small as PS. rewrite S1 in F. destruct (Rlt_dec pole 1); [| lra].
  unfold settle_angles, sign in F. change (odd ZXYs) with false in F. cbn [turning] in F.
  match type of F with _ = Some ?e => exists q, ZXYs, e, (mkv 1 0 0) end. split; auto. split; auto.
  split; [unfold euler_from_quaternion; rewrite GM; exact F |].
  cbn [e_alpha e_beta e_gamma].
  rewrite rotate_turn by auto. unfold turn. rewrite N2.
  unfold turned. cbn [letters turning]. intros H. apply (f_equal vx) in H.
  destruct (polar_unit (- 0) 1 1 ltac:(lra)) as (Cb & Sb); [lra |].
  destruct (polar_unit 0 1 1 ltac:(lra)) as (Cg & Sg); [lra |].
  destruct (polar 2 (- (1))) as (Ca & _).
  unfold about, rodrigues in H. rewrite Cb, Sb, Cg, Sg in H. unfold q, vdot, vcross, sw, sandwich in H. cbn in H.
  assert (Z : cos (atan2 2 (- (1))) = 0) by (apply Rmult_eq_reg_l with 1; lra). rewrite Z in Ca. lra.
Qed.
Print Assumptions C127_not_unit_refuted.

Example C127_case : unit (mkq 0 0 1 0) /\ distance_from_pole ZXZr (get_matrix (mkq 0 0 1 0)) = 0 /\ pole < distance_from_pole XYZs (get_matrix (mkq 0 0 1 0)) /\
  distance_from_pole XYZs (matrix_from_quaternion (mkq 0 0 1 0)) = 1.
Proof.
  assert (U : unit (mkq 0 0 1 0)) by (unfold unit, qnorm2; cbn; ring). split; auto.
  rewrite (proj2 (proj2 C127_matrix)) by auto. unfold distance_from_pole. cbn. repeat split.
  - match goal with |- sqrt ?a = 0 => replace a with 0 by ring end. apply sqrt_0.
  - match goal with |- _ < sqrt ?a => replace a with 1 by ring end. rewrite sqrt_1. apply pole_small.
  - match goal with |- sqrt ?a = 1 => replace a with 1 by ring end. apply sqrt_1.
Qed.

(** ** C128: matrices *)
Theorem C128_product : forall a b c v k,
  mvec (mmul a b) v = mvec a (mvec b v) /\ mmul (mmul a b) c = mmul a (mmul b c) /\
  mmul a (madd b c) = madd (mmul a b) (mmul a c) /\ mmul (madd a b) c = madd (mmul a c) (mmul b c) /\
  mmul (mscale k a) b = mscale k (mmul a b) /\ mmul a (mscale k b) = mscale k (mmul a b) /\
  madd (msub a b) b = a /\ mopp a = mscale (- (1)) a /\ (k <> 0 -> mdiv (mscale k a) k = a).
Proof.
  intros a b c v k. repeat split; intros; unfold mvec, mmul, madd, mscale, msub, mopp, mdiv; cbn; try (f_equal; ring).
  - destruct a. cbn. f_equal; ring.
  - destruct a. cbn. f_equal; field; auto.
Qed.
Print Assumptions C128_product.

(** Reading and writing by row and column below 3. *)
Theorem C128_index : forall m r c, mget m (letter_number r) (letter_number c) = Some (element m r c).
Proof. intros m [] []; reflexivity. Qed.
Print Assumptions C128_index.

Theorem C128_write : forall m r c v, exists m', mset m (letter_number r) (letter_number c) v = Some m' /\ element m' r c = v /\
  forall r' c', (r', c') <> (r, c) -> element m' r' c' = element m r' c'.
Proof.
  intros [] [] [] v; (eexists; split; [reflexivity | split; [reflexivity |]]); intros [] [] N; try reflexivity; contradiction N; reflexivity.
Qed.
Print Assumptions C128_write.

(** A row or column of 3 is an exception; a larger one counts modulo 4. *)
Theorem C128_bounds : forall m r c, mget m r c = mget m (r mod 4) (c mod 4) /\ ((r mod 4 = 3 \/ c mod 4 = 3)%N <-> mget m r c = None).
Proof.
  intros m r c. assert (L : forall n, N.land n 3 = (n mod 4)%N) by (intros n; exact (N.land_ones n 2)).
  assert (I : forall n, (n mod 4 mod 4 = n mod 4)%N) by (intros n; apply N.mod_mod; discriminate).
  unfold mget, slot. rewrite !L, !I. split; auto.
  pose proof (N.mod_lt r 4 ltac:(discriminate)) as HR. pose proof (N.mod_lt c 4 ltac:(discriminate)) as HC.
  set (a := (r mod 4)%N) in *. set (b := (c mod 4)%N) in *.
  assert (A : a = 0%N \/ a = 1%N \/ a = 2%N \/ a = 3%N) by lia. assert (B : b = 0%N \/ b = 1%N \/ b = 2%N \/ b = 3%N) by lia.
  destruct A as [-> | [-> | [-> | ->]]], B as [-> | [-> | [-> | ->]]]; cbn; split; auto; try discriminate; intros [X|X]; discriminate.
Qed.
Print Assumptions C128_bounds.

(** Finding: a row or column of 4 or more that is not 3 modulo 4 reads an element in place of the exception. *)
Theorem C128_out_of_bounds_refuted : exists m r c, (3 <= r)%N /\ mget m r c <> None.
Proof. exists (mkm 1 0 0 0 1 0 0 0 1), 4%N, 0%N. split; [discriminate | cbn; discriminate]. Qed.
Print Assumptions C128_out_of_bounds_refuted.

Example C128_case : mvec (mmul quarter quarter) (mkv 1 0 0) = mkv (- (1)) 0 0 /\ mget quarter 1 0 = Some 1 /\ mget quarter 3 0 = None.
Proof. split; [| split; reflexivity]. unfold mvec, mmul, quarter. cbn. apply vec_eq; cbn; ring. Qed.
