(** Euler angles close to a pole, and Euler angles of quaternions. *)
From Coq Require Import NArith Reals List Lra Lia.
From Verif Require Import VectorModel QuatModel QuatSpec QuatProofs QuatPlace EulerModel EulerSpec EulerProofs EulerOrders.
Import ListNotations.
Open Scope R_scope.

Lemma abs_le a b : Rabs a <= b <-> - b <= a <= b.
Proof. unfold Rabs. destruct (Rcase_abs a); lra. Qed.
Lemma sq_le a b : 0 <= b -> a * a <= b * b -> Rabs a <= b.
Proof. intros. apply abs_le. split; nra. Qed.
Lemma abs_prod a b y : Rabs a <= 1 -> Rabs b <= y -> Rabs (a * b) <= y.
Proof. intros A B. rewrite Rabs_mult. pose proof (Rabs_pos b). pose proof (Rabs_pos a). nra. Qed.
Lemma abs_sum a b x y : Rabs a <= x -> Rabs b <= y -> Rabs (a + b) <= x + y.
Proof. intros A B. eapply Rle_trans; [apply Rabs_triang | lra]. Qed.
Lemma pole_small : pole < 1.
Proof. unfold pole. apply Rmult_lt_reg_r with (2 ^ 52); [apply pow_lt; lra |]. rewrite Rmult_assoc, Rinv_l by (apply pow_nonzero; lra). cbn. lra. Qed.

Definition close (d : R) (v w : nine) : Prop :=
  let '(a, b, c, (d1, e, f), (g, h, i)) := v in let '(a', b', c', (d1', e', f'), (g', h', i')) := w in
  Rabs (a - a') <= d /\ Rabs (b - b') <= d /\ Rabs (c - c') <= d /\ Rabs (d1 - d1') <= d /\ Rabs (e - e') <= d /\ Rabs (f - f') <= d /\
  Rabs (g - g') <= d /\ Rabs (h - h') <= d /\ Rabs (i - i') <= d.

Section Near.
Context (ii ij ik ji jj jk ki kj kk y : R).
Hypothesis T : turn9 ii ij ik ji jj jk ki kj kk.
Hypothesis Y : 0 <= y < 1.
Hypothesis J : ji * ji <= y * y.
Let all : nine := (ii, ij, ik, (ji, jj, jk), (ki, kj, kk)).

Lemma middle : let t := atan2 (- jk) jj in Rabs (cos t - jj) <= y /\ Rabs (sin t + jk) <= y /\ Rabs (cos t) <= 1 /\ Rabs (sin t) <= 1.
Proof.
  intros t. pose proof (row_j _ _ _ _ _ _ _ _ _ T) as RJ. 
  set (r := sqrt (jj * jj + jk * jk)). assert (RR : r * r = jj * jj + jk * jk) by (apply sqrt_sqrt; nra).
  assert (R0 : 0 <= r) by apply sqrt_pos. assert (R1 : r <= 1) by nra. assert (RL : 1 - y <= r) by nra.
  destruct (polar (- jk) jj) as (C & S). fold t in C, S. replace (jj * jj + - jk * - jk) with (jj * jj + jk * jk) in C, S by ring. fold r in C, S.
  pose proof (COS_bound t) as CB. pose proof (SIN_bound t) as SB.
  repeat split; apply abs_le; split; try lra; try nra.
Qed.
Lemma one_entry a b c : a * a + b * b + c * c = 1 -> Rabs a <= 1 /\ Rabs b <= 1 /\ Rabs c <= 1.
Proof. intros H. repeat split; apply sq_le; nra. Qed.
End Near.

Section Near2.
Context (ii ij ik ji jj jk ki kj kk : R).
Hypothesis T : turn9 ii ij ik ji jj jk ki kj kk.
Let all : nine := (ii, ij, ik, (ji, jj, jk), (ki, kj, kk)).

Lemma repeat_near : sqrt (ij * ij + ik * ik) <= pole ->
  close (2 * pole) (repeat_nine (atan2 (- jk) jj) (atan2 (sqrt (ij * ij + ik * ik)) ii) 0) all.
Proof.
  set (y := sqrt (ij * ij + ik * ik)). intros L. pose proof pole_small as PS.
  assert (Y0 : 0 <= y) by apply sqrt_pos. assert (YY : y * y = ij * ij + ik * ik) by (apply sqrt_sqrt; nra).
  pose proof (row_i _ _ _ _ _ _ _ _ _ T) as RI. pose proof (row_j _ _ _ _ _ _ _ _ _ T) as RJ. pose proof (row_k _ _ _ _ _ _ _ _ _ T) as RK.
  assert (X : kj = ik * ji - ii * jk).
  { destruct T as [A B C X Yc Z]. rewrite X, Yc. transitivity (kj * (ii * ii + ji * ji + ki * ki) - ki * (ii * ij + ji * jj + ki * kj)); [rewrite A, C; ring | ring]. }
  assert (Z : kk = ii * jj - ji * ij) by apply T.
  assert (CI : ii * ii + ji * ji + ki * ki = 1) by apply T.
  assert (JJ : ji * ji <= y * y) by nra.
  destruct (middle _ _ _ _ _ _ _ _ _ y T ltac:(lra) JJ) as (M1 & M2 & M3 & M4).
  destruct (polar_unit y ii 1 ltac:(lra)) as (Cb & Sb); [lra |].
  destruct (one_entry _ _ _ RI) as (I1 & I2 & I3). 
  assert (A1 : Rabs ij <= y) by (apply sq_le; nra). assert (A2 : Rabs ik <= y) by (apply sq_le; nra).
  assert (A3 : Rabs ji <= y) by (apply sq_le; nra). assert (A4 : Rabs ki <= y) by (apply sq_le; nra).
  assert (Ay : Rabs y <= y) by (rewrite Rabs_pos_eq; lra).
  set (t := atan2 (- jk) jj) in *.
  unfold close, repeat_nine, all. rewrite Cb, Sb, cos_0, sin_0.
  assert (NB : forall a b, Rabs a <= b -> Rabs (- a) <= b) by (intros; rewrite Rabs_Ropp; auto).
  repeat split.
  - replace (ii / 1 - ii) with 0 by field. rewrite Rabs_R0. pose proof pole_pos. lra.
  - apply Rle_trans with (y + y); [| lra]. unfold Rminus. apply abs_sum; auto. replace (y / 1 * sin t) with (sin t * y) by field. apply abs_prod; auto.
  - apply Rle_trans with (y + y); [| lra]. unfold Rminus. apply abs_sum; auto. replace (y / 1 * cos t) with (cos t * y) by field. apply abs_prod; auto.
  - replace (y / 1 * 0 - ji) with (- ji) by ring. apply NB in A3. lra.
  - replace (- (ii / 1) * (sin t * 0) + cos t * 1 - jj) with (cos t - jj) by ring. lra.
  - replace (- (ii / 1) * (cos t * 0) - sin t * 1 - jk) with (- (sin t + jk)) by ring. apply NB in M2. lra.
  - replace (- (y / 1) * 1 - ki) with (- y + - ki) by field. apply Rle_trans with (y + y); [| lra]. apply abs_sum; auto.
  - rewrite X. replace (ii / 1 * (sin t * 1) + cos t * 0 - (ik * ji - ii * jk)) with (ii * (sin t + jk) + - (ik * ji)) by field.
    apply Rle_trans with (y + y); [| lra]. apply abs_sum; [apply abs_prod; auto |]. apply NB. apply abs_prod; auto.
  - rewrite Z. replace (ii / 1 * (cos t * 1) - sin t * 0 - (ii * jj - ji * ij)) with (ii * (cos t - jj) + ij * ji) by field.
    apply Rle_trans with (y + y); [| lra]. apply abs_sum; apply abs_prod; auto.
Qed.

Lemma plain_near : sqrt (ii * ii + ji * ji) <= pole ->
  close (2 * pole) (plain_nine (atan2 (- jk) jj) (atan2 (- ki) (sqrt (ii * ii + ji * ji))) 0) all.
Proof.
  set (y := sqrt (ii * ii + ji * ji)). intros L. pose proof pole_small as PS.
  assert (Y0 : 0 <= y) by apply sqrt_pos. assert (YY : y * y = ii * ii + ji * ji) by (apply sqrt_sqrt; nra).
  pose proof (row_i _ _ _ _ _ _ _ _ _ T) as RI. pose proof (row_j _ _ _ _ _ _ _ _ _ T) as RJ. pose proof (row_k _ _ _ _ _ _ _ _ _ T) as RK.
  assert (X : ij = jk * ki - ji * kk).
  { destruct T as [A B C X Yc Z]. rewrite Yc, Z. transitivity (ij * (ii * ii + ji * ji + ki * ki) - ii * (ii * ij + ji * jj + ki * kj)); [rewrite A, C; ring | ring]. }
  assert (Z : ik = ji * kj - ki * jj) by apply T.
  assert (CI : ii * ii + ji * ji + ki * ki = 1) by apply T.
  assert (JJ : ji * ji <= y * y) by nra.
  destruct (middle _ _ _ _ _ _ _ _ _ y T ltac:(lra) JJ) as (M1 & M2 & M3 & M4).
  destruct (polar_unit (- ki) y 1 ltac:(lra)) as (Cb & Sb); [lra |].
  destruct (one_entry _ _ _ RK) as (I1 & I2 & I3). 
  assert (A1 : Rabs ii <= y) by (apply sq_le; nra). assert (A2 : Rabs kj <= y) by (apply sq_le; nra).
  assert (A3 : Rabs ji <= y) by (apply sq_le; nra). assert (A4 : Rabs kk <= y) by (apply sq_le; nra).
  assert (Ay : Rabs y <= y) by (rewrite Rabs_pos_eq; lra).
  set (t := atan2 (- jk) jj) in *.
  unfold close, plain_nine, all. rewrite Cb, Sb, cos_0, sin_0.
  assert (NB : forall a b, Rabs a <= b -> Rabs (- a) <= b) by (intros; rewrite Rabs_Ropp; auto).
  repeat split.
  - replace (y / 1 * 1 - ii) with (y + - ii) by field. apply Rle_trans with (y + y); [| lra]. apply abs_sum; auto.
  - rewrite X. replace (- ki / 1 * (sin t * 1) - cos t * 0 - (jk * ki - ji * kk)) with (- (ki * (sin t + jk)) + kk * ji) by field.
    apply Rle_trans with (y + y); [| lra]. apply abs_sum; [apply NB |]; apply abs_prod; auto.
  - rewrite Z. replace (- ki / 1 * (cos t * 1) + sin t * 0 - (ji * kj - ki * jj)) with (- (ki * (cos t - jj)) + - (kj * ji)) by field.
    apply Rle_trans with (y + y); [| lra]. apply abs_sum; apply NB; apply abs_prod; auto.
  - replace (y / 1 * 0 - ji) with (- ji) by ring. apply NB in A3. lra.
  - replace (- ki / 1 * (sin t * 0) + cos t * 1 - jj) with (cos t - jj) by ring. lra.
  - replace (- ki / 1 * (cos t * 0) - sin t * 1 - jk) with (- (sin t + jk)) by ring. apply NB in M2. lra.
  - replace (- (- ki / 1) - ki) with 0 by field. rewrite Rabs_R0. pose proof pole_pos. lra.
  - apply Rle_trans with (y + y); [| lra]. unfold Rminus. apply abs_sum; auto. replace (y / 1 * sin t) with (sin t * y) by field. apply abs_prod; auto.
  - apply Rle_trans with (y + y); [| lra]. unfold Rminus. apply abs_sum; auto. replace (y / 1 * cos t) with (cos t * y) by field. apply abs_prod; auto.
Qed.
End Near2.

Lemma close_refl d v : 0 <= d -> close d v v.
Proof.
  intros D. destruct v as ((((ii & ij) & ik) & ((ji & jj) & jk)) & ((ki & kj) & kk)). cbn.
  repeat split; unfold Rminus; rewrite Rplus_opp_r, Rabs_R0; auto.
Qed.
Lemma raw_near o v : is_turn v ->
  close (2 * pole) (let '(a, b, g) := raw_angles o v in (if repeats o then repeat_nine else plain_nine) a b g) v.
Proof.
  intros T. pose proof pole_pos as PP. 
  destruct (Rlt_dec pole (sqrt (pole_sq o v))) as [L|L].
  - rewrite raw_recovers by auto. apply close_refl. lra.
  - destruct v as ((((ii & ij) & ik) & ((ji & jj) & jk)) & ((ki & kj) & kk)). unfold is_turn, pole_sq, raw_angles, angles_of in *.
    fold (repeats o). destruct (repeats o).
    + destruct (Rlt_dec pole _); [contradiction |]. apply repeat_near; auto. lra.
    + destruct (Rlt_dec pole _); [contradiction |]. apply plain_near; auto. lra.
Qed.
Lemma place_close o v v' m m' d : place9 o v = Some m -> place9 o v' = Some m' -> close d v v' ->
  forall r c, Rabs (element m r c - element m' r c) <= d.
Proof.
  destruct v as ((((ii & ij) & ik) & ((ji & jj) & jk)) & ((ki & kj) & kk)), v' as ((((ii' & ij') & ik') & ((ji' & jj') & jk')) & ((ki' & kj') & kk')).
  intros P P' (H1 & H2 & H3 & H4 & H5 & H6 & H7 & H8 & H9).
  destruct o; injection P as <-; injection P' as <-; intros [] []; cbn; auto.
Qed.
Lemma near_pole o m : rotation_matrix m ->
  exists e m', euler_from_matrix m o = Some e /\ e_order e = o /\ (forall p, mat_apply m' p = turns e p) /\
    forall r c, Rabs (element m' r c - element m r c) <= 2 * pole.
Proof.
  intros RM. destruct (elements_ok o m) as (v & E & P & H). destruct (H RM) as (T & _).
  pose proof (raw_near o v T) as RN. pose proof (from_matrix_form _ _ _ E) as FM.
  destruct (raw_angles o v) as ((a & b) & g) eqn:RA.
  set (e := settle_angles o (a, b, g)) in *.
  destruct (place_turn o (e_alpha e) (e_beta e) (e_gamma e)) as (m' & PM & TT).
  exists e, m'. split; auto. split; auto. split; [apply TT |].
  eapply place_close; [exact PM | exact P |]. unfold e. rewrite settled_nine. auto.
Qed.

(** ** Quaternions *)
Lemma unit_rotation q : unit q -> rotation_matrix (get_matrix q).
Proof.
  intros U. destruct q as [x y z w]. unfold unit, qnorm2 in U. cbn in U.
  unfold rotation_matrix, vdot, vcross, column, get_matrix. cbn.
  assert (W : w * w = 1 - x * x - y * y - z * z) by lra.
  repeat split; [ | | | apply vec_eq; cbn].
  all: match goal with |- ?l = ?r => cut (l - r = 0); [lra |] end.
  all: ring_simplify; replace (w ^ 2) with (w * w) by ring; try rewrite W; try ring.
Qed.
Definition unit_of (q : quat) : quat := qscale q (/ sqrt (qnorm2 q)).
Lemma unit_of_unit q : nonzero q -> unit (unit_of q).
Proof.
  intros N. pose proof (qnorm2_pos _ N) as P. assert (S : 0 < sqrt (qnorm2 q)) by (apply sqrt_lt_R0; auto).
  assert (SS : sqrt (qnorm2 q) * sqrt (qnorm2 q) = qnorm2 q) by (apply sqrt_sqrt; lra).
  unfold unit, unit_of, qscale. unfold qnorm2 at 1. cbn [qx qy qz qw].
  transitivity (qnorm2 q / (sqrt (qnorm2 q) * sqrt (qnorm2 q))); [unfold qnorm2 at 9; field; lra |]. rewrite SS. field. lra.
Qed.
Lemma matrix_of_quaternion q : nonzero q -> matrix_from_quaternion q = get_matrix (unit_of q).
Proof.
  intros N. pose proof (qnorm2_pos _ N) as P. assert (S : 0 < sqrt (qnorm2 q)) by (apply sqrt_lt_R0; auto).
  assert (SS : sqrt (qnorm2 q) * sqrt (qnorm2 q) = qnorm2 q) by (apply sqrt_sqrt; lra).
  assert (D : qdot q q = qnorm2 q) by (unfold qdot, qnorm2; ring).
  unfold matrix_from_quaternion, get_matrix, unit_of. rewrite D. destruct (Rlt_dec 0 (qnorm2 q)); [| lra].
  set (n := qnorm2 q) in *. set (t := sqrt n) in *. cbn [qx qy qz qw qscale].
  assert (I : 2 / n = 2 * / t * / t) by (rewrite <- SS; field; lra). rewrite I. f_equal; ring.
Qed.
Lemma unit_of_turn q p : nonzero q -> mat_apply (get_matrix (unit_of q)) p = turn q p.
Proof.
  intros N. pose proof (qnorm2_pos _ N) as P. assert (S : 0 < sqrt (qnorm2 q)) by (apply sqrt_lt_R0; auto).
  assert (SS : sqrt (qnorm2 q) * sqrt (qnorm2 q) = qnorm2 q) by (apply sqrt_sqrt; lra).
  pose proof (unit_of_unit q N) as U. rewrite matrix_acts by auto.
  rewrite rotate_turn by (auto using unit_nonzero, unit_exact). unfold turn. rewrite U. unfold unit_of. rewrite sw_scale.
  set (n := qnorm2 q) in *. set (t := sqrt n) in *.
  assert (I : / n = / t * / t) by (rewrite <- SS; field; lra). rewrite I.
  apply vec_eq; cbn [vscale vx vy vz]; field; lra.
Qed.
Lemma same_matrix a b : unit a -> unit b -> get_matrix a = get_matrix b -> a = b \/ a = opposite b.
Proof.
  intros A B E. pose proof (matrix_round a A) as HA. pose proof (matrix_round b B) as HB. rewrite E in HA.
  assert (OO : forall q, opposite (opposite q) = q) by (intros []; unfold opposite; cbn; f_equal; ring).
  destruct HA as [HA|HA], HB as [HB|HB]; rewrite HA in HB.
  - left. congruence.
  - right. congruence.
  - right. rewrite <- (OO a). congruence.
  - left. rewrite <- (OO a), <- (OO b). congruence.
Qed.
Lemma of_quaternion q o : unit q -> (pole < distance_from_pole o (get_matrix q) \/ distance_from_pole o (get_matrix q) = 0) ->
  exists e, euler_from_quaternion q o = Some e /\ e_order e = o /\ (forall p, turns e p = qrotate q p false) /\
    (quaternion_from_euler e = q \/ quaternion_from_euler e = opposite q).
Proof.
  intros U D. destruct (recovers o _ (unit_rotation q U) D) as (e & E & O & H). exists e. split; auto. split; auto.
  assert (T : forall p, turns e p = qrotate q p false) by (intros; rewrite H; apply matrix_acts; auto). split; auto.
  destruct e as [o' a b g]. rewrite from_euler_product. apply same_matrix; auto using order_q_unit.
  apply mat_ext. intros p. rewrite !matrix_acts by auto using order_q_unit. rewrite order_q_turn. apply T.
Qed.

Lemma euler_eq o a b g a' b' g' : a = a' -> b = b' -> g = g' -> mkeuler o a b g = mkeuler o a' b' g'.
Proof. intros. subst. auto. Qed.
Lemma xyzs_form q : euler_from_matrix (matrix_from_quaternion q) XYZs = Some (xyzs_from_q q).
Proof.
  destruct (elements_ok XYZs (matrix_from_quaternion q)) as (v & E & _). rewrite (from_matrix_form _ _ _ E).
  injection E as <-. unfold raw_angles, angles_of, xyzs_from_q. 
  set (s := if Rlt_dec 0 (qdot q q) then 2 / qdot q q else 0).
  cbn [mxx mxy mxz myx myy myz mzx mzy mzz matrix_from_quaternion]. fold s.
  change (N.eqb (get_repetition (code XYZs)) rep_yes) with false. cbv iota.
  destruct (Rlt_dec pole _); unfold settle_angles, sign; change (odd XYZs) with false; cbn [turning]; apply f_equal, euler_eq; try apply f_equal2; ring.
Qed.
Lemma zxzr_form q : euler_from_matrix (matrix_from_quaternion q) ZXZr = Some (zxzr_from_q q).
Proof.
  destruct (elements_ok ZXZr (matrix_from_quaternion q)) as (v & E & _). rewrite (from_matrix_form _ _ _ E).
  injection E as <-. unfold raw_angles, angles_of, zxzr_from_q. 
  set (s := if Rlt_dec 0 (qdot q q) then 2 / qdot q q else 0).
  cbn [mxx mxy mxz myx myy myz mzx mzy mzz matrix_from_quaternion]. fold s.
  change (N.eqb (get_repetition (code ZXZr)) rep_yes) with true. cbv iota.
  match goal with |- context [sqrt (?A * ?A + ?B * ?B)] => 
    match goal with |- context [sqrt ((?C + ?D) * (?E + ?F))] =>
      replace (A * A + B * B) with ((C + D) * (E + F)) by ring end end.
  destruct (Rlt_dec pole _); unfold settle_angles, sign; change (odd ZXZr) with false; cbn [turning]; apply f_equal, euler_eq; try apply f_equal2; ring.
Qed.
Lemma of_any_quaternion q o : nonzero q -> (pole < distance_from_pole o (matrix_from_quaternion q) \/ distance_from_pole o (matrix_from_quaternion q) = 0) ->
  exists e, euler_from_matrix (matrix_from_quaternion q) o = Some e /\ e_order e = o /\ forall p, turns e p = turn q p.
Proof.
  intros N D. rewrite matrix_of_quaternion in * by auto.
  destruct (recovers o _ (unit_rotation _ (unit_of_unit q N)) D) as (e & E & O & H). exists e. split; auto. split; auto.
  intros p. rewrite H. apply unit_of_turn; auto.
Qed.
