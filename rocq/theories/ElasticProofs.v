(** Proofs about elastic scattering. *)
From Coquelicot Require Import Coquelicot.
From Coq Require Import Reals List Bool Lra Lia Psatz.
From Verif Require Import VectorModel RkModel RkSpec RkProofs RandomModel DipoleModel DipoleSpec DipoleProofs TurnModel TurnProofs MhModel MhSpec MhProofs ElasticModel ElasticSpec.
Import ListNotations.
Open Scope R_scope.

Lemma em_pos : 0 < electron_mass.
Proof. unfold electron_mass. lra. Qed.

Lemma el_px E y : 0 < E -> 0 <= y -> let m := electron_mass in let E3 := E * y + m in
  (m + E) / E * sqrt ((E3 - m) / (E3 + m)) * sqrt (E3 * E3 - m * m) = (m + E) * y.
Proof.
  intros HE HY m E3. pose proof em_pos as M. fold m in M. assert (P : 0 <= E * y) by (apply Rmult_le_pos; lra).
  replace (E3 - m) with (E * y) by (unfold E3; ring). replace (E3 * E3 - m * m) with (E * y * (E3 + m)) by (unfold E3; ring).
  assert (Q : 0 < E3 + m) by (unfold E3; lra).
  rewrite Rmult_assoc, <- sqrt_mult; [|apply Rdiv_le_0_compat; auto|apply Rmult_le_pos; lra].
  replace (E * y / (E3 + m) * (E * y * (E3 + m))) with (Rsqr (E * y)) by (unfold Rsqr; field; lra).
  rewrite sqrt_Rsqr by auto. field. lra.
Qed.
Lemma el_rest E y : 0 < E -> 0 <= y -> let m := electron_mass in let E3 := E * y + m in
  let px := (m + E) / E * sqrt ((E3 - m) / (E3 + m)) * sqrt (E3 * E3 - m * m) in
  E3 * E3 - m * m - px * px = m * y * (2 * E - (2 * E + m) * y).
Proof. intros HE HY m E3 px. unfold px, E3, m. rewrite el_px by auto. ring. Qed.
Lemma ymax_iff E y : 0 < E -> (y <= el_ymax E <-> (2 * E + electron_mass) * y <= 2 * E).
Proof.
  intros H. pose proof em_pos. unfold el_ymax. split; intros L.
  - apply Rmult_le_compat_l with (r := 2 * E + electron_mass) in L; [|lra].
    replace ((2 * E + electron_mass) * (2 * E / (2 * E + electron_mass))) with (2 * E) in L by (field; lra). auto.
  - apply Rmult_le_reg_l with (2 * E + electron_mass); [lra|].
    replace ((2 * E + electron_mass) * (2 * E / (2 * E + electron_mass))) with (2 * E) by (field; lra). auto.
Qed.
Lemma ymax_range E : 0 < E -> 0 < el_ymax E < 1.
Proof.
  intros H. pose proof em_pos. split.
  - unfold el_ymax. apply Rdiv_lt_0_compat; lra.
  - apply Rnot_le_lt. intros L. apply ymax_iff in L; lra.
Qed.

Lemma electron_some o p E y u : 0 < E -> 0 <= y <= el_ymax E ->
  exists px py, el_electron o p E y u = Some (turn o p u (p4_of (mkv px py 0) electron_mass)) /\
  px = (electron_mass + E) * y /\ px * px + py * py = (E * y) * (E * y + 2 * electron_mass).
Proof.
  intros HE [H0 H1]. apply ymax_iff in H1; auto. pose proof em_pos as M. unfold el_electron. cbv zeta. rewrite el_rest by auto.
  assert (P : 0 <= electron_mass * y * (2 * E - (2 * E + electron_mass) * y)).
  { apply Rmult_le_pos; [apply Rmult_le_pos|]; lra. }
  destruct (Rlt_dec _ 0) as [X|_]; [lra|]. eexists _, _. split; [reflexivity|]. split; [apply el_px; auto|].
  rewrite sqrt_sqrt by auto. rewrite el_px by auto. ring.
Qed.
Lemma electron_none o p E y u : 0 < E -> el_ymax E < y -> el_electron o p E y u = None.
Proof.
  intros HE H. pose proof (ymax_range E HE) as Y. pose proof em_pos as M. unfold el_electron. cbv zeta. rewrite el_rest by lra.
  destruct (Rlt_dec _ 0) as [X|X]; auto. exfalso. apply X.
  assert (2 * E - (2 * E + electron_mass) * y < 0). { apply Rnot_le_lt. intros L. assert (y <= el_ymax E) by (apply ymax_iff; lra). lra. }
  assert (0 < electron_mass * y) by (apply Rmult_lt_0_compat; lra). nra.
Qed.

Lemma electron_elastic p E y u : 0 < E -> vlen p = E -> clear_of_x p -> 0 <= y <= el_ymax E ->
  exists k nu, el_electron AbsDouble p E y u = Some k /\ elastic p electron_mass k nu /\ pe k = E * y + electron_mass /\ pe nu = E * (1 - y).
Proof.
  intros HE V C Y. pose proof em_pos as M. pose proof (ymax_range E HE) as YM.
  destruct (electron_some AbsDouble p E y u HE Y) as [px [py [EQ [PX SQ]]]].
  assert (N : p <> mkv 0 0 0). { intros ->. unfold vlen, vdot in V. cbn in V. replace (0 * 0 + 0 * 0 + 0 * 0) with 0 in V by ring. rewrite sqrt_0 in V. lra. }
  set (a := p4_of (mkv px py 0) electron_mass) in *. set (k := turn AbsDouble p u a) in *.
  assert (SA : on_shell a) by (apply p4_of_shell; lra). assert (SK : on_shell k) by (apply turn_shell; auto).
  assert (QA : vdot (pp a) (pp a) = E * y * (E * y + 2 * electron_mass)) by (unfold a, vdot; cbn; lra).
  assert (EK : pe k = E * y + electron_mass).
  { unfold k. rewrite turn_energy. destruct SA as [_ [EA SA]]. apply Rsqr_inj; auto; [assert (0 <= E * y) by (apply Rmult_le_pos; lra); lra|].
    unfold Rsqr. rewrite SA, QA. unfold a; cbn [pm p4_of]. ring. }
  assert (VP : vdot p p = E * E). { rewrite <- V at 1. unfold vlen. rewrite <- V. unfold vlen. rewrite sqrt_sqrt; auto. apply vdot_nonneg. }
  assert (DK : vdot p (pp k) = E * ((electron_mass + E) * y)).
  { unfold k. rewrite turn_dot by auto. change (vlength p) with (vlen p). rewrite V. unfold a. cbn [p4_of pp vx]. rewrite PX. ring. }
  assert (QK : vdot (pp k) (pp k) = E * y * (E * y + 2 * electron_mass)) by (unfold k; rewrite turn_square; auto).
  set (nu := mkp4 (E * (1 - y)) (vsub p (pp k)) 0).
  exists k, nu. split; [exact EQ|]. split; [|split; auto]. unfold elastic. split; auto. split; [reflexivity|].
  assert (E1 : 0 <= E * (1 - y)) by (apply Rmult_le_pos; lra).
  split; [|split; [reflexivity|split]].
  - unfold on_shell, nu. cbn [pm pe pp]. split; [lra|]. split; auto.
    replace (vdot (vsub p (pp k)) (vsub p (pp k))) with (vdot p p + vdot (pp k) (pp k) - 2 * vdot p (pp k)) by (unfold vdot; cbn; ring).
    rewrite VP, DK, QK. ring.
  - rewrite EK, V. unfold nu. cbn [pe]. ring.
  - unfold nu. cbn [pp]. apply veq; cbn; ring.
Qed.

(** ** Cross sections *)
Lemma inv_gev_pos : 0 < inv_gev.
Proof. unfold inv_gev. lra. Qed.
Lemma fermi_pos : 0 < fermi.
Proof. unfold fermi. lra. Qed.
Lemma clr_pos : 0 < clr.
Proof. unfold clr. lra. Qed.

Definition el_terms (cl m E y : R) : R := cl * cl + clr * clr * (1 - y) * (1 - y) + - cl * clr * m * y / E.
Lemma prefactor_pos s : 0 < s -> 0 < fermi ^ 2 * s / PI / inv_gev.
Proof.
  intros H. pose proof PI_RGT_0. apply Rdiv_lt_0_compat; [|apply inv_gev_pos]. apply Rdiv_lt_0_compat; auto.
  apply Rmult_lt_0_compat; auto. apply pow_lt, fermi_pos.
Qed.
Lemma formula_eq cl s m E y : 0 < s -> 0 <= el_terms cl m E y -> el_formula cl s m E y = fermi ^ 2 * s / PI / inv_gev * el_terms cl m E y.
Proof.
  intros S T. unfold el_formula. fold (el_terms cl m E y). pose proof (prefactor_pos s S) as P. pose proof PI_RGT_0. pose proof inv_gev_pos.
  replace (fermi ^ 2 * s / PI * el_terms cl m E y / inv_gev) with (fermi ^ 2 * s / PI / inv_gev * el_terms cl m E y) by (field; lra).
  apply Rmax_left. apply Rmult_le_pos; lra.
Qed.
(** For a muon neutrino every term counts up. *)
Lemma numu_terms E y : 0 < E -> 0 <= y <= 1 -> 0 < el_terms (- (2730) / 10000) electron_mass E y.
Proof.
  intros HE Y. unfold el_terms. pose proof em_pos. pose proof clr_pos.
  assert (0 <= - (- (2730) / 10000) * clr * electron_mass * y / E).
  { apply Rdiv_le_0_compat; auto. apply Rmult_le_pos; [|lra]. apply Rmult_le_pos; [|lra]. apply Rmult_le_pos; lra. }
  assert (0 <= clr * clr * (1 - y) * (1 - y)). { apply Rmult_le_pos; [|lra]. apply Rmult_le_pos; [|lra]. apply Rmult_le_pos; lra. }
  lra.
Qed.
Lemma s_pos E : 0 < E -> 0 < 2 * electron_mass * E + electron_mass * electron_mass.
Proof. intros H. pose proof em_pos. assert (0 < electron_mass * E) by (apply Rmult_lt_0_compat; auto). nra. Qed.
Lemma numu_dsigma E y : 0 < E -> 0 <= y <= 1 -> exists k, 0 < k /\
  dsigma ElNuMu E y = Some (k * el_terms (- (2730) / 10000) electron_mass E y) /\ k = fermi ^ 2 * (2 * electron_mass * E + electron_mass * electron_mass) / PI / inv_gev.
Proof.
  intros HE Y. eexists. split; [|split; [|reflexivity]]; [apply prefactor_pos, s_pos; auto|].
  unfold dsigma. cbn [cll]. cbv zeta. f_equal. apply formula_eq; [apply s_pos; auto|apply Rlt_le, numu_terms; auto].
Qed.

(** ** Proposals *)
Lemma ln10_pos : 0 < ln 10.
Proof. rewrite <- ln_1. apply ln_increasing; lra. Qed.
Lemma ymin_pos : 0 < el_ymin.
Proof. unfold el_ymin. apply Rinv_0_lt_compat, pow_lt. lra. Qed.
Lemma proposal_exp E u : el_ymin < el_ymax E -> el_proposal E u = exp (ln el_ymin + (ln (el_ymax E) - ln el_ymin) * u).
Proof.
  intros H. pose proof ln10_pos as T. pose proof ymin_pos as Y. unfold el_proposal, uniform, log10, Rpower.
  assert (L : ln el_ymin < ln (el_ymax E)) by (apply ln_increasing; auto).
  destruct (Rlt_dec _ _) as [X|_].
  - exfalso. apply Rmult_lt_reg_r in X; [lra|apply Rinv_0_lt_compat; auto].
  - f_equal. field. lra.
Qed.
Lemma proposal_law E u t : el_ymin < el_ymax E -> 0 < t -> (el_proposal E u <= t <-> u <= log_cdf el_ymin (el_ymax E) t).
Proof.
  intros H T. rewrite proposal_exp by auto. assert (L : 0 < ln (el_ymax E) - ln el_ymin).
  { pose proof (ln_increasing _ _ ymin_pos H). lra. }
  unfold log_cdf. rewrite <- (exp_ln t) at 1 by auto. split; intros X.
  - apply Rmult_le_reg_r with (ln (el_ymax E) - ln el_ymin); auto. unfold Rdiv. rewrite Rmult_assoc, Rinv_l by lra.
    assert (Y : ln el_ymin + (ln (el_ymax E) - ln el_ymin) * u <= ln t).
    { apply Rnot_lt_le. intros Y. apply exp_increasing in Y. lra. } lra.
  - apply Rmult_le_compat_r with (r := ln (el_ymax E) - ln el_ymin) in X; [|lra]. unfold Rdiv in X. rewrite Rmult_assoc, Rinv_l in X by lra.
    assert (Y : ln el_ymin + (ln (el_ymax E) - ln el_ymin) * u <= ln t) by lra.
    destruct Y as [Y|Y]; [apply Rlt_le, exp_increasing; auto|rewrite Y; lra].
Qed.
Lemma proposal_hits E y : el_ymin < el_ymax E -> 0 < y -> el_proposal E (log_cdf el_ymin (el_ymax E) y) = y.
Proof.
  intros H Y. rewrite proposal_exp by auto. pose proof (ln_increasing _ _ ymin_pos H). unfold log_cdf.
  replace (ln el_ymin + (ln (el_ymax E) - ln el_ymin) * ((ln y - ln el_ymin) / (ln (el_ymax E) - ln el_ymin))) with (ln y) by (field; lra). apply exp_ln; auto.
Qed.
Lemma cdf_range E y : el_ymin <= y < el_ymax E -> 0 <= log_cdf el_ymin (el_ymax E) y < 1.
Proof.
  intros [H1 H2]. pose proof ymin_pos as Y. assert (L : ln el_ymin < ln (el_ymax E)) by (apply ln_increasing; lra).
  assert (L2 : ln y < ln (el_ymax E)) by (apply ln_increasing; lra).
  assert (L1 : ln el_ymin <= ln y). { destruct H1 as [H1| <-]; [apply Rlt_le, ln_increasing; auto|lra]. }
  unfold log_cdf. split; [apply Rdiv_le_0_compat; lra|].
  apply Rmult_lt_reg_r with (ln (el_ymax E) - ln el_ymin); [lra|]. unfold Rdiv. rewrite Rmult_assoc, Rinv_l; lra.
Qed.

(** ** One round *)
Lemma el_round_prob t E y1 s1 u1 s2 : 0 < s1 -> dsigma t E (el_proposal E u1) = Some s2 -> 0 < s2 -> el_proposal E u1 <> y1 ->
  probability_is (fun u2 => el_round t E (Some (y1, s1)) (u1, u2) = Some (el_proposal E u1, s2)) (Rmin 1 (s2 / s1)).
Proof.
  intros S1 D S2 N. assert (Q : 0 < s2 / s1) by (apply Rdiv_lt_0_compat; auto). split.
  { unfold Rmin. destruct (Rle_dec _ _); lra. }
  intros u U. unfold el_round. cbn [fst snd]. rewrite D. destruct (Rle_dec s2 0); [lra|]. destruct (Req_EM_T s1 0); [lra|].
  rewrite uniform_01. destruct (Rlt_dec 1 (s2 / s1)) as [L|L].
  - rewrite Rmin_left by lra. split; auto. lra.
  - rewrite Rmin_right by lra. destruct (Rlt_dec u (s2 / s1)); split; auto; try lra. intros X. injection X as X _. congruence.
Qed.
