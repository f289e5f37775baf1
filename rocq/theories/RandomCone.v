(** Proofs about directions in a cone and over the sphere. *)
From Coquelicot Require Import Coquelicot.
From Coq Require Import Reals Lra.
From Verif Require Import VectorModel QuatModel QuatSpec QuatProofs QuatPlace RandomModel RandomSpec RandomProofs.
Open Scope R_scope.

Definition up : vec := mkv 0 0 1.

Lemma euler_up phi theta : qrotate (q_from_zxzr phi theta 0) up false =
  mkv (sin phi * sin theta) (- cos phi * sin theta) (cos theta).
Proof.
  rewrite (proj2 (euler_action phi theta 0 up)). unfold rodrigues, up, axis_z, axis_x.
  apply vec_eq; cbn; unfold vdot; cbn; rewrite ?sin_0, ?cos_0; ring.
Qed.

Lemma up_unit : vdot up up = 1.
Proof. unfold vdot, up; cbn; ring. Qed.

Lemma normalize_new_dir v : v <> mkv 0 0 0 -> normalize_new v = mkvector (vdiv v (vmag v)) 1 0 0.
Proof.
  intros N. unfold normalize_new. destruct (Req_EM_T (vmag v) 0) as [E|E]; auto.
  exfalso. apply N. apply vdot_zero. rewrite <- vmag_sq, E. ring.
Qed.

Lemma cone_branch dir a : dir <> mkv 0 0 0 ->
  make_cone dir a = mkcone (mkvector (vdiv dir (vmag dir)) 1 0 0)
    (normalize_checked (mkq (- vy dir) (vx dir) 0 (1 + vz dir))) a.
Proof.
  intros N. unfold make_cone. rewrite normalize_new_dir by auto.
  assert (F : forall w, vector_eqb (mkvector (vdiv dir (vmag dir)) 1 0 0) (vector_new w) = false).
  { intros w. unfold vector_eqb. cbn [v_cart v_radius vector_new]. replace (reqb 1 0) with false.
    - destruct (reqb (vx _) _), (reqb (vy _) _), (reqb (vz _) _); reflexivity.
    - unfold reqb. destruct (Req_EM_T 1 0); [lra|reflexivity]. }
  rewrite !F. cbv zeta. f_equal. f_equal. apply quat_eq; cbn; ring.
Qed.

(** For a unit axis other than straight down the rotation turns the upward direction to it. *)
Lemma cone_rotation_ok dir a : vdot dir dir = 1 -> vz dir <> -1 ->
  exists q, cone_rotation (make_cone dir a) = Some q /\ rotation (fun p => qrotate q p false) /\
    mutually_inverse (fun p => qrotate q p false) (fun p => qrotate q p true) /\
    qrotate q up false = dir /\ v_cart (cone_dir (make_cone dir a)) = dir.
Proof.
  intros U N. assert (NZ : dir <> mkv 0 0 0) by (intros E; subst; unfold vdot in U; cbn in U; lra).
  rewrite cone_branch by auto. cbn [cone_rotation cone_dir v_cart].
  assert (D : vdot up dir = vz dir) by (unfold vdot, up; cbn; ring).
  destruct (between_q up dir up_unit U ltac:(rewrite D; exact N)) as (N2 & NQ & T).
  cbv zeta in N2, NQ, T. rewrite D in N2, NQ, T.
  set (q0 := mkq (- vy dir) (vx dir) 0 (1 + vz dir)).
  assert (EQ : mkq (vx (vcross up dir)) (vy (vcross up dir)) (vz (vcross up dir)) (1 + vz dir) = q0)
    by (apply quat_eq; unfold up; cbn; ring).
  rewrite EQ in N2, NQ, T. exists (qnormalize q0).
  assert (M : vmag dir = 1) by (rewrite vmag_dot, U; apply sqrt_1).
  assert (UQ : unit (qnormalize q0)) by (now apply normalize_unit).
  destruct (rotate_is_rotation _ (unit_nonzero _ UQ) (unit_exact _ UQ)) as [R1 R2].
  split; [|split; [exact R1|split; [exact (rotate_undone _ (unit_nonzero _ UQ) (unit_exact _ UQ))|split]]].
  - unfold normalize_checked. match goal with |- context [Req_EM_T ?x 0] => replace x with (qnorm2 q0) by (unfold qnorm2; ring) end.
    destruct (Req_EM_T (qnorm2 q0) 0) as [E|E]; [|reflexivity]. rewrite N2 in E. lra.
  - rewrite rotate_turn by (auto using unit_nonzero, unit_exact). rewrite normalize_turn; auto.
  - rewrite M. apply vec_eq; cbn; field.
Qed.

Lemma cone_cos a g : 0 <= g <= 1 -> -1 <= uniform (cos a) 1 g <= 1 /\ uniform (cos a) 1 g = cos a + (1 - cos a) * g.
Proof.
  intros Hg. pose proof (COS_bound a) as [B1 B2]. rewrite uniform_ordered by lra. split; [nra|ring].
Qed.

(** The cosine of the angle to the axis is uniform between that of the opening angle and one. *)
Lemma cone_sample_ok dir a g1 g2 : vdot dir dir = 1 -> vz dir <> -1 -> 0 <= g1 <= 1 ->
  exists d, cone_sample (make_cone dir a) g1 g2 = Some d /\ vdot d d = 1 /\
    vdot dir d = cos a + (1 - cos a) * g1.
Proof.
  intros U N Hg. destruct (cone_rotation_ok dir a U N) as (q & EQ & [_ _ RD _] & _ & RU & _).
  destruct (cone_cos a g1 Hg) as [CB CE].
  unfold cone_sample. rewrite EQ. cbn [cone_angle make_cone]. fold up. rewrite euler_up.
  set (theta := acos _). set (phi := uniform 0 (2 * PI) g2).
  assert (CT : cos theta = cos a + (1 - cos a) * g1) by (unfold theta; rewrite cos_acos by lra; exact CE).
  eexists. split; [reflexivity|]. split.
  - rewrite RD. unfold vdot. cbn. pose proof (sin2_cos2 theta) as S1. pose proof (sin2_cos2 phi) as S2. unfold Rsqr in *.
    transitivity (sin theta * sin theta * (sin phi * sin phi + cos phi * cos phi) + cos theta * cos theta); [ring|].
    rewrite S2. lra.
  - rewrite <- RU at 1. rewrite RD. unfold vdot, up. cbn. rewrite <- CT. ring.
Qed.

(** ** Angles *)

Lemma unit_vmag v : vdot v v = 1 -> vmag v = 1.
Proof. intros U. rewrite vmag_dot, U. apply sqrt_1. Qed.

Lemma cauchy u v : vdot u u = 1 -> vdot v v = 1 -> -1 <= vdot u v <= 1.
Proof.
  intros U V. 
  assert (P : 0 <= vdot (vadd u v) (vadd u v)) by apply vdot_nonneg.
  assert (M : 0 <= vdot (vsub u v) (vsub u v)) by apply vdot_nonneg.
  assert (EP : vdot (vadd u v) (vadd u v) = vdot u u + 2 * vdot u v + vdot v v) by (unfold vdot, vadd; cbn; ring).
  assert (EM : vdot (vsub u v) (vsub u v) = vdot u u - 2 * vdot u v + vdot v v) by (unfold vdot, vsub; cbn; ring).
  lra.
Qed.

Lemma angle_unit u v : vdot u u = 1 -> vdot v v = 1 -> angle u v = acos (vdot u v).
Proof. intros U V. unfold angle. rewrite U, V, sqrt_1. f_equal. field. Qed.

Lemma acos_le x a : -1 <= x <= 1 -> 0 <= a <= PI -> cos a <= x -> acos x <= a.
Proof.
  intros Hx Ha H. pose proof (acos_bound x). destruct (Rle_dec (acos x) a) as [|G]; auto.
  pose proof (cos_decreasing_1 a (acos x) ltac:(lra) ltac:(lra) ltac:(lra) ltac:(lra) ltac:(lra)) as C.
  rewrite cos_acos in C by lra. lra.
Qed.

Lemma acos_lt_iff x a : -1 <= x <= 1 -> 0 <= a <= PI -> acos x < a <-> cos a < x.
Proof.
  intros Hx Ha. pose proof (acos_bound x). split; intros H1.
  - pose proof (cos_decreasing_1 (acos x) a ltac:(lra) ltac:(lra) ltac:(lra) ltac:(lra) H1) as C.
    rewrite cos_acos in C by lra. lra.
  - destruct (Rlt_dec (acos x) a) as [|G]; auto.
    assert (cos (acos x) <= cos a); [|rewrite cos_acos in *; lra].
    apply cos_decr_1; lra.
Qed.

Lemma cone_dir_dot dir p a : dir <> mkv 0 0 0 -> p <> mkv 0 0 0 ->
  vdot (v_cart (cone_dir (make_cone dir a))) (vnormalized p) = vdot dir p / (sqrt (vdot dir dir) * sqrt (vdot p p)).
Proof.
  intros N1 N2. rewrite cone_branch by auto. cbn [cone_dir v_cart].
  destruct (normalized_unit p N2) as [_ E]. rewrite E, <- !vmag_dot.
  assert (vmag dir <> 0) by (intros Z; apply N1, vdot_zero; rewrite <- vmag_sq, Z; ring).
  assert (vmag p <> 0) by (intros Z; apply N2, vdot_zero; rewrite <- vmag_sq, Z; ring).
  unfold vdot, vdiv, vscale. cbn. field. auto.
Qed.

Lemma angle_bound u v : u <> mkv 0 0 0 -> v <> mkv 0 0 0 -> -1 <= vdot u v / (sqrt (vdot u u) * sqrt (vdot v v)) <= 1.
Proof.
  intros N1 N2. destruct (normalized_unit u N1) as [U1 E1]. destruct (normalized_unit v N2) as [U2 E2].
  assert (vmag u <> 0) by (intros Z; apply N1, vdot_zero; rewrite <- vmag_sq, Z; ring).
  assert (vmag v <> 0) by (intros Z; apply N2, vdot_zero; rewrite <- vmag_sq, Z; ring).
  replace (vdot u v / (sqrt (vdot u u) * sqrt (vdot v v))) with (vdot (vnormalized u) (vnormalized v)); [now apply cauchy|].
  rewrite E1, E2, <- !vmag_dot. unfold vdot, vscale. cbn. field. auto.
Qed.

Lemma cone_generation_ok dir p a : dir <> mkv 0 0 0 -> p <> mkv 0 0 0 ->
  cone_generation (make_cone dir a) p =
  (if Rlt_dec (angle dir p) a then 1 / (2 * PI * (1 - cos a)) else 0).
Proof.
  intros N1 N2. unfold cone_generation. rewrite cone_dir_dot by auto. cbn [make_cone cone_angle]. cbv zeta.
  pose proof (angle_bound dir p N1 N2) as B. destruct (Rlt_dec 1 _); [lra|]. reflexivity.
Qed.

(** A point of the unit circle has an angle. *)
Lemma circle x y : x * x + y * y = 1 -> exists t, 0 <= t <= 2 * PI /\ cos t = x /\ sin t = y.
Proof.
  intros H. assert (Hx : -1 <= x <= 1) by nra. pose proof (acos_bound x) as B. pose proof PI_RGT_0.
  assert (S : sin (acos x) = sqrt (1 - x²)) by (apply sin_acos; auto).
  destruct (Rle_dec 0 y) as [Y|Y].
  - exists (acos x). split; [lra|]. split; [apply cos_acos; auto|]. rewrite S.
    replace (1 - x²) with (y * y) by (unfold Rsqr; lra). apply sqrt_square. auto.
  - exists (2 * PI - acos x). split; [lra|]. 
    replace (2 * PI - acos x) with (- acos x + 2 * PI) by ring. rewrite cos_2PI, sin_2PI || idtac.
    assert (C1 : cos (- acos x + 2 * PI) = x).
    { rewrite cos_plus, cos_2PI, sin_2PI, cos_neg, cos_acos by auto. ring. }
    assert (S1 : sin (- acos x + 2 * PI) = y).
    { rewrite sin_plus, cos_2PI, sin_2PI, sin_neg, S.
      replace (1 - x²) with ((- y) * (- y)) by (unfold Rsqr; lra). rewrite sqrt_square by lra. ring. }
    auto.
Qed.

(** Every direction of the cone is drawn. *)
Lemma cone_cover dir a d : vdot dir dir = 1 -> vz dir <> -1 -> 0 < a <= PI -> vdot d d = 1 -> angle dir d < a ->
  exists g1 g2, 0 < g1 <= 1 /\ 0 <= g2 <= 1 /\ cone_sample (make_cone dir a) g1 g2 = Some d.
Proof.
  intros U N Ha Ud Hd. rewrite angle_unit in Hd by auto. pose proof (cauchy dir d U Ud) as CB.
  apply acos_lt_iff in Hd; try lra.
  destruct (cone_rotation_ok dir a U N) as (q & EQ & [_ _ RD _] & [I1 I2] & RU & _).
  pose proof PI_RGT_0 as HPI.
  assert (C1 : cos a < 1). { rewrite <- cos_0. apply cos_decreasing_1; lra. }
  set (p := qrotate q d true). assert (Ep : qrotate q p false = d) by apply I1.
  assert (Pz : vz p = vdot dir d).
  { rewrite <- RU, <- Ep, RD. unfold vdot, up. cbn. ring. }
  assert (Up : vdot p p = 1) by (rewrite <- RD, Ep; exact Ud).
  set (c := vdot dir d) in *. set (g1 := (c - cos a) / (1 - cos a)).
  assert (Hg1 : 0 < g1 <= 1).
  { unfold g1. split; [apply Rdiv_lt_0_compat; lra|]. apply Rmult_le_reg_r with (1 - cos a); [lra|].
    unfold Rdiv. rewrite Rmult_assoc, Rinv_l by lra. lra. }
  assert (Ec : uniform (cos a) 1 g1 = c).
  { destruct (cone_cos a g1 ltac:(lra)) as [_ ->]. unfold g1. field. lra. }
  assert (ST : sin (acos c) = sqrt (1 - c²)) by (apply sin_acos; auto).
  assert (XY : vx p * vx p + vy p * vy p = 1 - c * c) by (unfold vdot in Up; rewrite Pz in Up; lra).
  assert (exists phi, 0 <= phi <= 2 * PI /\ sin phi * sin (acos c) = vx p /\ - cos phi * sin (acos c) = vy p) as (phi & Hphi & E1 & E2).
  { destruct (Req_dec (1 - c * c) 0) as [Z|NZ].
    - exists 0. rewrite ST. replace (1 - c²) with 0 by (unfold Rsqr; lra). rewrite sqrt_0.
      split; [lra|]. split; nra.
    - assert (P : 0 < 1 - c * c) by nra. set (r := sqrt (1 - c²)) in *.
      assert (Hr : 0 < r) by (apply sqrt_lt_R0; unfold Rsqr; lra).
      assert (Er : r * r = 1 - c * c) by (unfold r; rewrite sqrt_sqrt; unfold Rsqr; lra).
      destruct (circle (- vy p / r) (vx p / r)) as (t & Ht & Ct & St).
      { replace (- vy p / r * (- vy p / r) + vx p / r * (vx p / r)) with ((vx p * vx p + vy p * vy p) / (r * r)) by (field; lra).
        rewrite XY, Er. field. lra. }
      exists t. split; [auto|]. rewrite ST, Ct, St. split; field; lra. }
  exists g1, (phi / (2 * PI)). split; [lra|]. split.
  { split; [apply Rmult_le_pos; [lra|left; apply Rinv_0_lt_compat; lra]|].
    apply Rmult_le_reg_r with (2 * PI); [lra|]. unfold Rdiv. rewrite Rmult_assoc, Rinv_l by lra. lra. }
  unfold cone_sample. rewrite EQ. cbn [cone_angle make_cone]. fold up. rewrite euler_up, Ec.
  replace (uniform 0 (2 * PI) (phi / (2 * PI))) with phi by (rewrite uniform_ordered by lra; field; lra).
  f_equal. rewrite <- Ep. f_equal. apply vec_eq; cbn; auto. rewrite cos_acos by auto. auto.
Qed.

(** The densities over the cap and over the sphere have total one. *)
Lemma cap_total a : 0 < a <= PI -> is_RInt (fun t => 2 * PI * sin t * (1 / (2 * PI * (1 - cos a)))) 0 a 1.
Proof.
  intros Ha. pose proof PI_RGT_0. assert (C1 : cos a < 1). { rewrite <- cos_0. apply cos_decreasing_1; lra. }
  set (k := 1 / (2 * PI * (1 - cos a))).
  pose proof (is_RInt_derive (fun t => - (2 * PI * k) * cos t) (fun t => 2 * PI * sin t * k) 0 a) as H0.
  match type of H0 with ?A -> ?B -> _ => assert (HA : A); [|assert (HB : B)] end.
  { intros t _. auto_derive; auto. ring. }
  { intros t _. apply (ex_derive_continuous (fun t => 2 * PI * sin t * k) t). auto_derive; auto. }
  specialize (H0 HA HB).
  change (is_RInt (fun t => 2 * PI * sin t * k) 0 a (- (2 * PI * k) * cos a - - (2 * PI * k) * cos 0)) in H0.
  rewrite cos_0 in H0. replace (- (2 * PI * k) * cos a - - (2 * PI * k) * 1) with 1 in H0; [exact H0|].
  unfold k. field. split; lra.
Qed.

(** ** Isotropic *)

Lemma isotropic_ok g1 g2 : 0 <= g1 <= 1 ->
  vdot (isotropic_sample g1 g2) (isotropic_sample g1 g2) = 1 /\ vz (isotropic_sample g1 g2) = 2 * g1 - 1.
Proof.
  intros Hg. unfold isotropic_sample. cbv zeta. rewrite (uniform_ordered (-1) 1) by lra.
  set (nz := (1 - -1) * g1 + -1). set (phi := uniform (- PI) PI g2).
  assert (Hz : -1 <= nz <= 1) by (unfold nz; lra).
  assert (S : sqrt (1 - nz * nz) * sqrt (1 - nz * nz) = 1 - nz * nz) by (apply sqrt_sqrt; nra).
  set (nr := sqrt (1 - nz * nz)) in *.
  assert (U : vdot (mkv (nr * cos phi) (nr * sin phi) nz) (mkv (nr * cos phi) (nr * sin phi) nz) = 1).
  { unfold vdot. cbn. pose proof (sin2_cos2 phi) as SC. unfold Rsqr in SC.
    transitivity (nr * nr * (sin phi * sin phi + cos phi * cos phi) + nz * nz); [ring|]. rewrite SC, S. ring. }
  rewrite normalized_of_unit by exact U. split; [exact U|]. cbn. unfold nz. ring.
Qed.

Lemma isotropic_cover d : vdot d d = 1 -> exists g1 g2, 0 <= g1 <= 1 /\ 0 <= g2 <= 1 /\ isotropic_sample g1 g2 = d.
Proof.
  intros U. pose proof PI_RGT_0 as HPI. pose proof (cauchy up d up_unit U) as B.
  assert (Z : vdot up d = vz d) by (unfold vdot, up; cbn; ring). rewrite Z in B.
  assert (XY : vx d * vx d + vy d * vy d = 1 - vz d * vz d) by (unfold vdot in U; lra).
  set (r := sqrt (1 - vz d * vz d)).
  assert (exists phi, - PI <= phi <= PI /\ r * cos phi = vx d /\ r * sin phi = vy d) as (phi & Hphi & E1 & E2).
  { destruct (Req_dec (1 - vz d * vz d) 0) as [Q|Q].
    - exists 0. unfold r. rewrite Q, sqrt_0. split; [lra|]. split; nra.
    - assert (P : 0 < 1 - vz d * vz d) by nra.
      assert (Hr : 0 < r) by (apply sqrt_lt_R0; auto).
      assert (Er : r * r = 1 - vz d * vz d) by (apply sqrt_sqrt; lra).
      destruct (circle (- vx d / r) (- vy d / r)) as (t & Ht & Ct & St).
      { replace (- vx d / r * (- vx d / r) + - vy d / r * (- vy d / r)) with ((vx d * vx d + vy d * vy d) / (r * r)) by (field; lra).
        rewrite XY, Er. field. lra. }
      exists (t - PI). split; [lra|]. unfold Rminus. rewrite cos_plus, sin_plus, cos_neg, sin_neg, cos_PI, sin_PI, Ct, St.
      split; field; lra. }
  exists ((vz d + 1) / 2), ((phi + PI) / (2 * PI)). split; [lra|]. split.
  { split; [apply Rmult_le_pos; [lra|left; apply Rinv_0_lt_compat; lra]|].
    apply Rmult_le_reg_r with (2 * PI); [lra|]. unfold Rdiv. rewrite Rmult_assoc, Rinv_l by lra. lra. }
  unfold isotropic_sample. cbv zeta. rewrite (uniform_ordered (-1) 1) by lra. rewrite uniform_ordered by lra.
  replace ((1 - -1) * ((vz d + 1) / 2) + -1) with (vz d) by field.
  replace ((PI - - PI) * ((phi + PI) / (2 * PI)) + - PI) with phi by (field; lra).
  fold r. rewrite E1, E2. replace (mkv (vx d) (vy d) (vz d)) with d by (destruct d; reflexivity).
  now apply normalized_of_unit.
Qed.
