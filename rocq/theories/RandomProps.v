(** C57, C58, C61 and C74 to C76: random draws, energies and directions. *)
From Coquelicot Require Import Coquelicot.
From Coq Require Import Reals Lra List ZArith Lia.
From Verif Require Import VectorModel QuatModel QuatSpec QuatProofs QuatPlace RandomModel RandomSpec RandomProofs RandomCone.
Import ListNotations.
Open Scope R_scope.

(** * C57: draws stay within their range *)

Theorem C57_uniform : forall a b g, 0 <= g <= 1 -> Rmin a b <= uniform a b g <= Rmax a b.
Proof. exact uniform_range. Qed.
Print Assumptions C57_uniform.

(** The upper end is not reached and the map is onto the rest. *)
Theorem C57_uniform_onto : forall a b x, a < b ->
  (exists g, 0 <= g < 1 /\ uniform a b g = x) <-> a <= x < b.
Proof.
  intros a b x H. split.
  - intros (g & Hg & <-). rewrite uniform_ordered by lra. nra.
  - intros Hx. exists ((x - a) / (b - a)). split.
    + split; [apply Rmult_le_pos; [lra|left; apply Rinv_0_lt_compat; lra]|].
      apply Rmult_lt_reg_r with (b - a); [lra|]. unfold Rdiv. rewrite Rmult_assoc, Rinv_l by lra. lra.
    + rewrite uniform_ordered by lra. field. lra.
Qed.
Print Assumptions C57_uniform_onto.

(** [PowerLaw] stretches the variate to the range before using it: the result is in the range
    exactly when the stretched variate is at most one. *)
Theorem C57_power_law_partial : forall min max n g, 0 < min -> min < max -> n <> -1 -> 0 <= g <= 1 ->
  (exists r, power_law_draw min max n g = Some r /\ min <= r <= max) <-> uniform min max g <= 1.
Proof. exact power_iff. Qed.
Print Assumptions C57_power_law_partial.

(** In particular nothing drawn between one and two, from whatever power, is in the range. *)
Theorem C57_power_law_never : forall n g, n <> -1 -> 0 < g < 1 ->
  ~ exists r, power_law_draw 1 2 n g = Some r /\ 1 <= r <= 2.
Proof.
  intros n g Hn Hg H. apply (power_iff 1 2 n g) in H; try lra.
  rewrite uniform_ordered in H by lra. lra.
Qed.
Print Assumptions C57_power_law_never.

Theorem C57_power_law_refuted : exists min max n g r, 0 < min /\ min < max /\ 0 <= g < 1 /\
  power_law_draw min max n g = Some r /\ max < r.
Proof.
  exists 1, 2, 1, (1 / 2), (Rpower (11 / 2) (1 / 2)). split; [lra|]. split; [lra|]. split; [lra|]. split.
  - unfold power_law_draw. destruct (Rlt_dec 2 1); [lra|]. rewrite !cpow_pos by lra.
    replace (1 + 1) with (INR 2) by (cbn; ring). rewrite !Rpower_pow by lra.
    replace ((2 ^ 2 - 1 ^ 2) * ((2 - 1) * (1 / 2) + 1) + 1 ^ 2) with (11 / 2) by (cbn; field).
    rewrite cpow_pos by lra. f_equal.
  - replace (1 / 2) with (/ 2) by field. rewrite Rpower_sqrt by lra.
    apply Rlt_le_trans with (sqrt (5)); [|apply sqrt_le_1; lra].
    replace 2 with (sqrt (2 * 2)) at 1 by (apply sqrt_square; lra). apply sqrt_lt_1; lra.
Qed.
Print Assumptions C57_power_law_refuted.

(** A range given upside down, and one below one in which the power law works. *)
Example C57_case : uniform 5 2 (1 / 3) = 3 /\ uniform (1 / 4) (3 / 4) (1 / 2) <= 1.
Proof.
  split; [unfold uniform; destruct (Rlt_dec 2 5); [field|lra]|]. rewrite uniform_ordered by lra. lra.
Qed.

(** * C58: power law energies *)

(** The energy is a function of the variate, one to one, in order and onto the range, and the
    probability collected by the density up to the energy drawn is the variate. *)
Theorem C58_energy : forall index emin emax, 0 < emin -> emin < emax -> exists f,
  (forall u, 0 <= u <= 1 -> sample_energy index emin emax u = Some (f u)) /\
  onto_range f emin emax /\ density_from f (energy_pdf index emin emax) emin.
Proof.
  intros index emin emax Hm Hlt. exists (energy_at index emin emax).
  split; [intros; now apply sample_energy_at|]. split; [now apply energy_onto|now apply energy_density].
Qed.
Print Assumptions C58_energy.

Theorem C58_total : forall index emin emax, 0 < emin -> emin < emax -> is_RInt (energy_pdf index emin emax) emin emax 1.
Proof.
  intros index emin emax Hm Hlt. pose proof (energy_density index emin emax Hm Hlt 1 ltac:(lra)) as H.
  rewrite (or_end _ _ _ (energy_onto index emin emax Hm Hlt)) in H. exact H.
Qed.
Print Assumptions C58_total.

(** A single energy is returned as it is. *)
Theorem C58_single : forall index e g, sample_energy index e e g = Some e /\ energy_pdf index e e e = 1.
Proof. intros. unfold sample_energy, energy_pdf. destruct (Req_EM_T e e); [auto|lra]. Qed.
Print Assumptions C58_single.

(** The density is not zero outside the range: the code does not test for it. *)
Theorem C58_positive_everywhere : forall index emin emax e, 0 < emin -> emin < emax -> 0 < e ->
  0 < energy_pdf index emin emax e.
Proof. exact energy_pdf_pos. Qed.
Print Assumptions C58_positive_everywhere.

Theorem C58_outside_refuted : exists index emin emax e, 0 < emin /\ emin < emax /\ emax < e /\ energy_pdf index emin emax e <> 0.
Proof. exists 2, 1, 2, 3. pose proof (energy_pdf_pos 2 1 2 3 ltac:(lra) ltac:(lra) ltac:(lra)). lra. Qed.
Print Assumptions C58_outside_refuted.

(** With a single energy every other energy has density one. *)
Theorem C58_single_refuted : exists index e e', e <> e' /\ energy_pdf index e e e' = 1.
Proof. exists 2, 1, 3. split; [lra|]. unfold energy_pdf. destruct (Req_EM_T 1 1); [auto|lra]. Qed.
Print Assumptions C58_single_refuted.

(** Index two between one and four: the variate 2/3 gives the energy two. *)
Example C58_case : sample_energy 2 1 4 (2 / 3) = Some 2.
Proof.
  rewrite sample_energy_at by lra. f_equal. unfold energy_at. destruct (Req_EM_T 2 1); [lra|].
  replace (1 - 2) with (- (1)) by ring. rewrite !Rpower_Ropp, !Rpower_1 by lra.
  replace ((1 - 2 / 3) * / 1 + 2 / 3 * / 4) with (/ 2) by field. replace (1 / - (1)) with (- (1)) by field.
  rewrite Rpower_Ropp, Rpower_1 by lra. field.
Qed.

(** * C61: directions in a cone *)

(** For a unit axis other than straight down, the direction drawn is a unit vector, and the cosine
    of its angle to the axis is uniform between that of the opening angle and one. *)
Theorem C61_sample_partial : forall dir a g1 g2, vdot dir dir = 1 -> dir <> mkv 0 0 (-1) -> 0 <= a <= PI -> 0 <= g1 <= 1 ->
  exists d, cone_sample (make_cone dir a) g1 g2 = Some d /\ vdot d d = 1 /\
    vdot dir d = cos a + (1 - cos a) * g1 /\ angle dir d <= a.
Proof.
  intros dir a g1 g2 U N Ha Hg.
  assert (Nz : vz dir <> -1).
  { intros E. apply N. destruct dir as [x y z]. unfold vdot in U. cbn in *. subst z. f_equal; nra. }
  destruct (cone_sample_ok dir a g1 g2 U Nz Hg) as (d & E & Ud & C). exists d. repeat split; auto.
  rewrite angle_unit by auto. pose proof (COS_bound a). apply acos_le; [now apply cauchy|auto|]. rewrite C. nra.
Qed.
Print Assumptions C61_sample_partial.

(** Every direction inside the cone is drawn. *)
Theorem C61_cover_partial : forall dir a d, vdot dir dir = 1 -> dir <> mkv 0 0 (-1) -> 0 < a <= PI ->
  vdot d d = 1 -> angle dir d < a ->
  exists g1 g2, 0 < g1 <= 1 /\ 0 <= g2 <= 1 /\ cone_sample (make_cone dir a) g1 g2 = Some d.
Proof.
  intros dir a d U N. apply cone_cover; auto. intros E. apply N. destruct dir as [x y z]. unfold vdot in U. cbn in *.
  subst z. f_equal; nra.
Qed.
Print Assumptions C61_cover_partial.

(** The density is one over the solid angle inside the cone and zero outside, for every axis, and
    its total over the cone is one. *)
Theorem C61_density : forall dir p a, dir <> mkv 0 0 0 -> p <> mkv 0 0 0 ->
  (angle dir p < a -> cone_generation (make_cone dir a) p = 1 / (2 * PI * (1 - cos a))) /\
  (a <= angle dir p -> cone_generation (make_cone dir a) p = 0).
Proof.
  intros dir p a N1 N2. rewrite cone_generation_ok by auto.
  split; intros H; destruct (Rlt_dec (angle dir p) a); auto; lra.
Qed.
Print Assumptions C61_density.

Theorem C61_total : forall a, 0 < a <= PI -> is_RInt (fun t => 2 * PI * sin t * (1 / (2 * PI * (1 - cos a)))) 0 a 1.
Proof. exact cap_total. Qed.
Print Assumptions C61_total.

(** Straight down the rotation is made of NaNs: the comparison meant for that case compares the
    radius one of the normalised axis with the radius zero of a new vector and always fails. *)
Theorem C61_down_refuted : exists dir, vdot dir dir = 1 /\ forall a g1 g2, cone_sample (make_cone dir a) g1 g2 = None.
Proof.
  exists (mkv 0 0 (-1)). split; [unfold vdot; cbn; ring|]. intros. assert (N : mkv 0 0 (-1) <> mkv 0 0 0) by (intros E; injection E; lra).
  unfold cone_sample. rewrite cone_branch by auto. cbn [cone_rotation]. unfold normalize_checked. cbn.
  destruct (Req_EM_T _ 0) as [_|H]; [reflexivity|]. exfalso. apply H. ring.
Qed.
Print Assumptions C61_down_refuted.

(** An axis that is not a unit vector is normalised for the density but not for the rotation: the
    directions drawn around (2,0,0) lie around (0.8,0,-0.6) and have density zero. *)
Theorem C61_length_refuted : exists dir a, dir <> mkv 0 0 0 /\ 0 < a <= PI /\ forall g1, 0 <= g1 <= 1 ->
  exists d, cone_sample (make_cone dir a) g1 0 = Some d /\ a < angle dir d /\ cone_generation (make_cone dir a) d = 0.
Proof.
  set (dir := mkv 2 0 0). set (a := PI / 6). pose proof PI_RGT_0 as HPI.
  assert (N : dir <> mkv 0 0 0) by (intros E; injection E; lra).
  assert (Ha : 0 < a <= PI) by (unfold a; lra).
  exists dir, a. split; [auto|]. split; [auto|]. intros g1 Hg.
  set (q0 := mkq (- vy dir) (vx dir) 0 (1 + vz dir)).
  assert (NQ : nonzero q0) by (unfold nonzero, q0; intros E; injection E; cbn; lra).
  assert (NC : normalize_checked q0 = Some (qnormalize q0)).
  { unfold normalize_checked, q0. cbn. destruct (Req_EM_T _ 0) as [E|_]; [lra|reflexivity]. }
  set (theta := acos (uniform (cos a) 1 g1)).
  set (d := mkv (4 / 5 * cos theta) (- sin theta) (- (3 / 5) * cos theta)).
  assert (ED : cone_sample (make_cone dir a) g1 0 = Some d).
  { unfold cone_sample. rewrite cone_branch by auto. cbn [cone_rotation cone_angle]. fold q0. rewrite NC. fold up. fold theta.
    rewrite euler_up. f_equal. assert (UN : unit (qnormalize q0)) by (now apply normalize_unit).
    rewrite rotate_turn by (auto using unit_nonzero, unit_exact). rewrite normalize_turn by auto.
    rewrite uniform_ordered by lra. replace ((2 * PI - 0) * 0 + 0) with 0 by ring. rewrite sin_0, cos_0.
    unfold turn, q0, dir, d, sw, sandwich, qnorm2. apply vec_eq; cbn; field. }
  assert (Ud : vdot d d = 1).
  { pose proof (sin2_cos2 theta) as SC. unfold Rsqr in SC. unfold vdot, d. cbn. 
    transitivity (sin theta * sin theta + cos theta * cos theta); [field|exact SC]. }
  assert (Nd : d <> mkv 0 0 0) by (intros E; rewrite E in Ud; unfold vdot in Ud; cbn in Ud; lra).
  assert (EA : angle dir d = acos (4 / 5 * cos theta)).
  { unfold angle. rewrite Ud, sqrt_1. replace (vdot dir dir) with (2 * 2) by (unfold vdot, dir; cbn; ring).
    rewrite sqrt_square by lra. f_equal. unfold vdot, dir, d. cbn. field. }
  assert (A : a < angle dir d).
  { rewrite EA. pose proof (COS_bound theta) as CB.
    destruct (Rlt_dec a (acos (4 / 5 * cos theta))) as [|G]; auto. exfalso.
    pose proof (acos_bound (4 / 5 * cos theta)) as AB.
    assert (C : cos a <= cos (acos (4 / 5 * cos theta))) by (apply cos_decr_1; lra).
    rewrite cos_acos in C by lra. unfold a in C. rewrite cos_PI6 in C.
    assert (8 / 5 < sqrt 3); [|lra]. rewrite <- (sqrt_square (8 / 5)) by lra. apply sqrt_lt_1; lra. }
  exists d. split; [exact ED|]. split; [exact A|]. apply (proj2 (C61_density dir d a N Nd)). lra.
Qed.
Print Assumptions C61_length_refuted.

(** The edge of the cone is drawn with the variate zero and has density zero. *)
Theorem C61_edge_refuted : exists dir a g2 d, vdot dir dir = 1 /\ 0 < a <= PI /\
  cone_sample (make_cone dir a) 0 g2 = Some d /\ cone_generation (make_cone dir a) d = 0.
Proof.
  assert (U : vdot (mkv 1 0 0) (mkv 1 0 0) = 1) by (unfold vdot; cbn; ring). pose proof PI_RGT_0 as HPI.
  destruct (cone_sample_ok (mkv 1 0 0) (PI / 2) 0 0 U ltac:(cbn; lra) ltac:(lra)) as (d & E & Ud & C).
  exists (mkv 1 0 0), (PI / 2), 0, d. split; [auto|]. split; [lra|]. split; [exact E|].
  assert (N1 : mkv 1 0 0 <> mkv 0 0 0) by (intros Q; injection Q; lra).
  assert (N2 : d <> mkv 0 0 0) by (intros Q; rewrite Q in Ud; unfold vdot in Ud; cbn in Ud; lra).
  apply (proj2 (C61_density (mkv 1 0 0) d (PI / 2) N1 N2)). rewrite angle_unit by auto. rewrite C.
  replace (cos (PI / 2) + (1 - cos (PI / 2)) * 0) with (cos (PI / 2)) by ring. rewrite acos_cos by lra. lra.
Qed.
Print Assumptions C61_edge_refuted.

Example C61_case : vdot (mkv (3 / 5) 0 (4 / 5)) (mkv (3 / 5) 0 (4 / 5)) = 1 /\ mkv (3 / 5) 0 (4 / 5) <> mkv 0 0 (-1) /\
  vdot (mkv 0 0 1) (mkv 0 0 1) = 1 /\ angle (mkv (3 / 5) 0 (4 / 5)) (mkv 0 0 1) < PI / 2.
Proof.
  assert (U : vdot (mkv (3 / 5) 0 (4 / 5)) (mkv (3 / 5) 0 (4 / 5)) = 1) by (unfold vdot; cbn; field).
  assert (V : vdot (mkv 0 0 1) (mkv 0 0 1) = 1) by (unfold vdot; cbn; ring).
  repeat split; auto; [intros E; injection E; lra|]. rewrite angle_unit by auto. pose proof PI_RGT_0.
  apply acos_lt_iff; [unfold vdot; cbn; lra|lra|]. rewrite cos_PI2. unfold vdot; cbn; lra.
Qed.

(** * C74: isotropic directions, and distributions of a single value *)

(** The direction is a unit vector, its vertical component uniform, and every direction is drawn;
    the density is one over the whole solid angle. *)
Theorem C74_isotropic : 
  (forall g1 g2, 0 <= g1 <= 1 -> vdot (isotropic_sample g1 g2) (isotropic_sample g1 g2) = 1 /\ vz (isotropic_sample g1 g2) = 2 * g1 - 1) /\
  (forall d, vdot d d = 1 -> exists g1 g2, 0 <= g1 <= 1 /\ 0 <= g2 <= 1 /\ isotropic_sample g1 g2 = d) /\
  is_RInt (fun t => 2 * PI * sin t * isotropic_generation) 0 PI 1.
Proof.
  split; [exact isotropic_ok|]. split; [exact isotropic_cover|].
  pose proof PI_RGT_0. pose proof (cap_total PI ltac:(lra)) as H0. rewrite cos_PI in H0.
  apply (is_RInt_ext (fun t => 2 * PI * sin t * (1 / (2 * PI * (1 - -1))))); [|exact H0].
  intros t _. unfold isotropic_generation. change (2 * PI * sin t * (1 / (2 * PI * (1 - -1))) = 2 * PI * sin t * (1 / (4 * PI))). field. lra.
Qed.
Print Assumptions C74_isotropic.

(** What is drawn has probability one. *)
Theorem C74_own_partial :
  (forall e, 0 < e -> mono_pdf e e = 1) /\
  (forall dir k, vdot dir dir = 1 -> 0 < k -> fixed_generation dir (vscale k dir) = 1) /\
  (forall m, mass_generation m m = 1) /\
  (forall t, helicity_generation t (helicity_sample t) = 1).
Proof.
  repeat split.
  - intros e He. unfold mono_pdf. rewrite Rminus_eq_0, Rabs_R0. destruct (Rlt_dec 0 _); [auto|lra].
  - intros dir k U Hk. unfold fixed_generation. cbv zeta.
    assert (N : vscale k dir <> mkv 0 0 0).
    { intros E. assert (Q : vdot (vscale k dir) (vscale k dir) = k * k) by (transitivity (k * k * vdot dir dir); [unfold vdot, vscale; cbn; ring|rewrite U; ring]).
      rewrite E in Q. unfold vdot in Q. cbn in Q. nra. }
    destruct (normalized_unit _ N) as [_ ->]. rewrite vmag_scale, (Rabs_pos_eq k), (unit_vmag dir U) by lra.
    replace (vdot dir (vscale (/ (k * 1)) (vscale k dir))) with (vdot dir dir) by (unfold vdot, vscale; cbn; field; lra).
    rewrite U, Rminus_eq_0, Rabs_R0. destruct (Rlt_dec 0 _); [auto|lra].
  - intros m. unfold mass_generation. rewrite Rminus_eq_0, Rabs_R0. assert (Q : 2 * 0 / (m + m) = 0) by (unfold Rdiv; ring).
    destruct (Rlt_dec _ _); [lra|auto].
  - intros t. unfold helicity_generation, helicity_sample. destruct (0 <? t)%Z.
    + rewrite Rabs_Ropp, (Rabs_pos_eq (1 / 2)), Rminus_eq_0, Rabs_R0 by lra.
      destruct (Rlt_dec _ 0) as [H|_]; [lra|]. destruct (Rlt_dec (- (1 / 2)) 0); [auto|lra].
    + rewrite (Rabs_pos_eq (1 / 2)), Rminus_eq_0, Rabs_R0 by lra.
      destruct (Rlt_dec _ 0) as [H|_]; [lra|]. destruct (Rlt_dec 0 (1 / 2)); [auto|lra].
Qed.
Print Assumptions C74_own_partial.

(** What is clearly different has probability zero. *)
Theorem C74_other :
  (forall e e', 1 / 1000000 * e <= Rabs (e' - e) -> mono_pdf e e' = 0) /\
  (forall dir p, vdot dir dir = 1 -> p <> mkv 0 0 0 -> vdot dir (vnormalized p) <= 1 - 1 / 1000000000 -> fixed_generation dir p = 0) /\
  (forall t h, h <> helicity_sample t -> Rabs h = 1 / 2 -> helicity_generation t h = 0).
Proof.
  repeat split.
  - intros e e' H. unfold mono_pdf. destruct (Rlt_dec _ _); [lra|auto].
  - intros dir p U N H. unfold fixed_generation. cbv zeta. rewrite Rabs_pos_eq by lra. destruct (Rlt_dec _ _); [lra|auto].
  - intros t h Hh Ha. unfold helicity_generation, helicity_sample in *. rewrite Ha, Rminus_eq_0, Rabs_R0.
    destruct (Rlt_dec _ 0); [lra|]. destruct (0 <? t)%Z.
    + destruct (Rlt_dec h 0); [|auto]. rewrite Rabs_left in Ha by lra. exfalso. apply Hh. lra.
    + destruct (Rlt_dec 0 h); [|auto]. rewrite Rabs_pos_eq in Ha by lra. exfalso. apply Hh. lra.
Qed.
Print Assumptions C74_other.

(** A fixed direction given with another length than one is drawn but has probability zero: the
    constructor does not normalise it. *)
Theorem C74_fixed_refuted : exists dir, dir <> mkv 0 0 0 /\ forall k, 0 < k -> fixed_generation dir (vscale k dir) = 0.
Proof.
  set (dir := mkv 2 0 0). exists dir. split; [intros E; injection E; lra|]. intros k Hk.
  assert (N : vscale k dir <> mkv 0 0 0) by (unfold dir, vscale; cbn; intros E; injection E; lra).
  unfold fixed_generation. cbv zeta. destruct (normalized_unit _ N) as [_ ->].
  assert (D : vdot dir dir = 2 * 2) by (unfold vdot, dir; cbn; ring).
  rewrite vmag_scale, (Rabs_pos_eq k), vmag_dot, D, sqrt_square by lra.
  replace (vdot dir (vscale (/ (k * 2)) (vscale k dir))) with 2 by (unfold vdot, vscale, dir; cbn; field; lra).
  rewrite Rabs_left by lra. destruct (Rlt_dec _ _); [lra|auto].
Qed.
Print Assumptions C74_fixed_refuted.

Example C74_case : vdot (mkv (3 / 5) 0 (4 / 5)) (mkv (3 / 5) 0 (4 / 5)) = 1 /\ helicity_sample 14 = - (1 / 2) /\ helicity_sample (-14) = 1 / 2.
Proof. repeat split. unfold vdot; cbn; field. Qed.

(** * C75: electron neutrinos from muons decaying at rest *)

(** [cdf] is the integral of the density from zero, and runs from zero to one, in order, between
    zero and half the muon mass. *)
Theorem C75_cdf : forall m, 0 < m ->
  (forall e, is_RInt (pidar_pdf m) 0 e (pidar_cdf m e)) /\
  pidar_cdf m 0 = 0 /\ pidar_cdf m (m / 2) = 1 /\
  (forall a b, 0 <= a -> a < b -> b <= m / 2 -> pidar_cdf m a < pidar_cdf m b) /\
  (forall e, 0 < e < m / 2 -> 0 < pidar_pdf m e).
Proof.
  intros m Hm. destruct (pidar_total m ltac:(lra)) as [T0 T1]. split.
  - intros e. pose proof (pidar_integral m 0 e ltac:(lra)) as H. rewrite T0, Rminus_0_r in H. exact H.
  - repeat split; auto; [intros; now apply pidar_increasing|intros; now apply pidar_pdf_pos].
Qed.
Print Assumptions C75_cdf.

(** The search ends within sixteen rounds, and what it returns is within 1e-6 GeV of the energy at
    which the distribution function has the value asked for, and in the range. *)
Theorem C75_inverse : forall x, 0 <= x <= 1 -> exists r root,
  pidar_inv_cdf 16 muon_mass x = Some r /\ 0 <= root <= muon_mass / 2 /\ pidar_cdf muon_mass root = x /\
  Rabs (r - root) <= 1 / 1000000 /\ 0 <= r <= muon_mass / 2.
Proof.
  intros x Hx. assert (Hm : 0 < muon_mass) by (unfold muon_mass; lra).
  destruct (pidar_root muon_mass x Hm Hx) as (root & Hr & Er).
  destruct (bisect_ends muon_mass x (1 / 1000000) 16 0 (muon_mass / 2) 0) as (r & E).
  { unfold muon_mass. cbn [pow]. lra. }
  exists r, root. unfold pidar_inv_cdf. split; [exact E|]. split; [auto|]. split; [auto|].
  rewrite <- Er in E. apply (bisect_ok muon_mass (1 / 1000000) root Hm 16 0 (muon_mass / 2) 0 r); auto; lra.
Qed.
Print Assumptions C75_inverse.

(** More rounds change nothing. *)
Theorem C75_rounds : forall n m x r, pidar_inv_cdf n m x = Some r -> forall k, pidar_inv_cdf (n + k) m x = Some r.
Proof.
  intros n m x r. unfold pidar_inv_cdf. generalize 0 at 1 3 as lo. generalize (m / 2) as hi. generalize 0 as e.
  induction n as [|n IH]; intros e hi lo H k; cbn [bisect Nat.add] in *.
  - destruct (Rlt_dec _ (hi - lo)) as [W|W]; [discriminate|]. destruct k; cbn [bisect]; destruct (Rlt_dec _ (hi - lo)); try lra; auto.
  - destruct (Rlt_dec _ (hi - lo)) as [W|W]; [|auto]. cbv zeta in *. destruct (Rlt_dec _ x); apply IH; auto.
Qed.
Print Assumptions C75_rounds.

(** The generation probability is the density in the range and zero outside. *)
Theorem C75_generation : forall m e, 0 < m ->
  (0 <= e <= m / 2 -> pidar_generation m e = pidar_pdf m e) /\ (e < 0 \/ m / 2 < e -> pidar_generation m e = 0).
Proof.
  intros m e Hm. unfold pidar_generation. split.
  - intros He. destruct (Rlt_dec e 0); [lra|]. destruct (Rlt_dec (m / 2) e); [lra|auto].
  - intros He. destruct (Rlt_dec e 0); [auto|]. destruct (Rlt_dec (m / 2) e); [auto|lra].
Qed.
Print Assumptions C75_generation.

(** A quarter of the muon mass has 5/16 of the neutrinos below it. *)
Example C75_case : pidar_cdf muon_mass (muon_mass / 4) = 5 / 16.
Proof. unfold pidar_cdf, muon_mass. field. Qed.

(** * C76: Moyal plus exponential *)

(** What the Metropolis loop returns lies in the range, and has positive density if the starting
    point has. *)
Theorem C76_sample : forall pdf emin emax g draws, emin <= emax -> 0 <= g <= 1 ->
  (forall g a, In (g, a) draws -> 0 <= g <= 1 /\ 0 <= a <= 1) -> (forall e, 0 <= pdf e) ->
  emin <= moyal_sample pdf emin emax g draws <= emax /\
  (0 < pdf (uniform emin emax g) -> 0 < moyal_generation pdf emin emax (moyal_sample pdf emin emax g draws)).
Proof.
  intros pdf emin emax g draws Hm Hg Hd Hp.
  assert (R : emin <= moyal_sample pdf emin emax g draws <= emax).
  { unfold moyal_sample. apply metropolis_range; auto.
    - pose proof (uniform_range emin emax g Hg) as U. rewrite Rmin_left, Rmax_right in U by lra. auto.
    - intros g' a' Hin. apply (Hd g' a' Hin). }
  split; [exact R|]. intros P. unfold moyal_generation.
  destruct (Rlt_dec _ emin); [lra|]. destruct (Rlt_dec emax _); [lra|].
  apply metropolis_positive; auto. intros g' a' Hin. apply (Hd g' a' Hin).
Qed.
Print Assumptions C76_sample.

(** The closed form is the integral of the unnormalised density. *)
Theorem C76_integral : forall erf emin emax mu sigma A l B, error_function erf -> sigma <> 0 -> l <> 0 ->
  is_RInt (moyal_unnormed mu sigma A l B) emin emax (moyal_integral erf emin emax mu sigma A l B).
Proof. exact moyal_ok. Qed.
Print Assumptions C76_integral.

(** There is an error function. *)
Example C76_case : error_function (fun x => RInt (fun t => 2 / sqrt PI * exp (- (t * t))) 0 x).
Proof.
  assert (C : forall x, continuous (fun t => 2 / sqrt PI * exp (- (t * t))) x).
  { intros x. apply (ex_derive_continuous (fun t => 2 / sqrt PI * exp (- (t * t))) x). auto_derive; auto. }
  split; [exact (RInt_point (V := R_CompleteNormedModule) 0 _)|]. intros x.
  apply (is_derive_RInt (fun t => 2 / sqrt PI * exp (- (t * t))) _ 0 x).
  - exists (mkposreal 1 Rlt_0_1). intros b _. apply (RInt_correct (V := R_CompleteNormedModule)).
    apply (ex_RInt_continuous (V := R_CompleteNormedModule)). intros z _. apply C.
  - apply C.
Qed.

(** Two rounds between one and three, the density being the energy. *)
Example C76_sample_case : moyal_sample (fun e => e) 1 3 (1 / 2) [(3 / 4, 0); (0, 9 / 10)] = 5 / 2.
Proof.
  unfold moyal_sample. cbn [metropolis]. cbv zeta. rewrite !uniform_ordered by lra.
  destruct (Rlt_dec 1 (((3 - 1) * (3 / 4) + 1) / ((3 - 1) * (1 / 2) + 1))) as [H|H]; [|exfalso; apply H; lra].
  destruct (Rlt_dec 1 (((3 - 1) * 0 + 1) / ((3 - 1) * (3 / 4) + 1))) as [H1|H1]; [lra|].
  destruct (Rlt_dec ((1 - 0) * (9 / 10) + 0) (((3 - 1) * 0 + 1) / ((3 - 1) * (3 / 4) + 1))) as [H2|H2]; lra.
Qed.
