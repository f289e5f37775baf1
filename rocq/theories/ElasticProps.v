(** Properties C90 and C91. *)
From Coquelicot Require Import Coquelicot.
From Coq Require Import Reals List Bool Lra Lia Psatz.
From Verif Require Import VectorModel RkModel RkSpec RkProofs RandomModel DipoleModel DipoleSpec DipoleProofs TurnModel TurnProofs MhModel MhSpec MhProofs ElasticModel ElasticSpec ElasticProofs.
Import ListNotations.
Open Scope R_scope.

(** ** C90 *)

(** The electron made for [y] is the one of an elastic collision in which the massless
    neutrino leaves with the energy [E * (1 - y)]; there is one exactly for y up to
    [2E / (2E + m)]. Its direction must not be almost, but not exactly, the x axis; [abs] the
    one of doubles. *)
Theorem C90_electron : forall p E y u, 0 < E -> vlen p = E -> clear_of_x p -> 0 <= y <= 2 * E / (2 * E + electron_mass) ->
  exists k nu, el_electron AbsDouble p E y u = Some k /\ elastic p electron_mass k nu /\
  pe k = E * y + electron_mass /\ pe nu = E * (1 - y).
Proof. intros. apply electron_elastic; auto. Qed.
Print Assumptions C90_electron.

Theorem C90_electron_limit : forall o p E y u, 0 < E -> 0 <= y ->
  (el_electron o p E y u = None <-> 2 * E / (2 * E + electron_mass) < y).
Proof.
  intros o p E y u HE Y. split; intros H.
  - apply Rnot_le_lt. intros L. destruct (electron_some o p E y u HE (conj Y L)) as [px [py [X _]]]. congruence.
  - apply electron_none; auto.
Qed.
Print Assumptions C90_electron_limit.

(** The two ways to compute the differential cross section agree. *)
Theorem C90_record_formula : forall t E p nu e, 0 < E -> vlen p = E -> el_is_nu t = true ->
  let r := mkel t E p 0 electron_mass [t; ElEMinus] [(nu, 0); (e, electron_mass)] in
  dsigma_record r = dsigma t E (1 - vlen nu / E).
Proof.
  intros t E p nu e HE V T r. pose proof em_pos as M. unfold dsigma_record, dsigma. cbn [er_type r].
  destruct (cll t) as [cl|] eqn:C; auto. cbn [er_p er_mass er_target_mass er_secondary_types er_energy r].
  assert (E1 : pe (p4_of p 0) = E). { cbn [pe p4_of]. rewrite <- V. unfold vlen. f_equal. rewrite lsq. ring. }
  assert (E2 : pe (p4_of (mkv 0 0 0) electron_mass) = electron_mass).
  { cbn [pe p4_of]. replace (_ + _) with (Rsqr electron_mass) by (unfold Rsqr, length_squared; cbn; ring). apply sqrt_Rsqr; lra. }
  assert (E3 : pe (p4_of nu 0) = vlen nu). { cbn [pe p4_of]. unfold vlen. f_equal. rewrite lsq. ring. }
  assert (D : forall a, p4_dot (p4_of (mkv 0 0 0) electron_mass) a = electron_mass * pe a).
  { intros a. unfold p4_dot. rewrite E2. unfold vdot. cbn. ring. }
  assert (I : inv_mass (p4_of p 0) (p4_of (mkv 0 0 0) electron_mass) = Some (sqrt (2 * electron_mass * E + electron_mass * electron_mass))).
  { unfold inv_mass. replace (p4_dot (p4_of p 0) (p4_of (mkv 0 0 0) electron_mass)) with (electron_mass * E) by (rewrite <- E1, <- D; unfold p4_dot, vdot; cbn; ring).
    cbn [pm p4_of]. pose proof (s_pos E HE). destruct (Rlt_dec _ 0); [exfalso; nra|]. do 2 f_equal. ring. }
  rewrite I. cbn [length Nat.eqb nth andb orb]. rewrite T. cbn [orb]. f_equal.
  assert (Y : el_record_y r = 1 - vlen nu / E).
  { unfold el_record_y. cbn [er_p er_mass er_target_mass er_secondary_types er_secondaries r]. unfold el_nu_index. cbn [nth]. rewrite T. cbn [nth].
    rewrite !D, E1, E3. field. lra. }
  unfold el_electron_index, el_nu_index. cbn [nth]. rewrite T. cbn [Nat.sub nth er_secondaries r snd]. fold r. rewrite Y.
  replace (sqrt (2 * electron_mass * E + electron_mass * electron_mass) ^ 2) with (2 * electron_mass * E + electron_mass * electron_mass); auto.
  rewrite <- Rsqr_pow2, Rsqr_sqrt; auto. pose proof (s_pos E HE). lra.
Qed.
Print Assumptions C90_record_formula.

(** Half the energy of a neutrino along the y axis. *)
Example C90_case : exists k nu, el_electron AbsDouble (mkv 0 2 0) 2 (1 / 2) (1 / 3) = Some k /\
  elastic (mkv 0 2 0) electron_mass k nu /\ pe k = 1 + electron_mass /\ pe nu = 1.
Proof.
  assert (V : vlen (mkv 0 2 0) = 2). { unfold vlen, vdot. cbn. replace (_ + _ + _) with (Rsqr 2) by (unfold Rsqr; ring). apply sqrt_Rsqr; lra. }
  destruct (C90_electron (mkv 0 2 0) 2 (1 / 2) (1 / 3)) as [k [nu [A [B [C D]]]]]; auto; try lra.
  - right. rewrite V. cbn [vx]. split; lra.
  - unfold electron_mass. lra.
  - exists k, nu. split; auto. split; auto. lra.
Qed.

(** ** C91 *)

(** A proposal has uniform logarithm between the limits. *)
Theorem C91_proposal : forall E u t, / 10 ^ 15 < 2 * E / (2 * E + electron_mass) -> 0 < t ->
  let cdf := log_cdf (/ 10 ^ 15) (2 * E / (2 * E + electron_mass)) in
  (el_proposal E u <= t <-> u <= cdf t) /\ is_derive cdf t (log_density (/ 10 ^ 15) (2 * E / (2 * E + electron_mass)) t).
Proof.
  intros E u t H T cdf. split; [apply proposal_law; auto|]. pose proof (ln_increasing _ _ ymin_pos H) as L. unfold el_ymin in L. fold (el_ymax E) in *.
  unfold cdf, log_cdf, log_density. fold (el_ymax E). set (w := ln (el_ymax E) - ln (/ 10 ^ 15)) in *. assert (W : 0 < w) by (unfold w; lra). clearbody w.
  auto_derive; auto. field. split; lra.
Qed.
Print Assumptions C91_proposal.

Definition sigma (t : el_type) (E y : R) : R := match dsigma t E y with Some s => s | None => 0 end.

(** One round goes from one value to another with a probability that balances the cross
    section divided by y. *)
Theorem C91_balance : forall t E, / 10 ^ 15 < 2 * E / (2 * E + electron_mass) ->
  exists acc,
  (forall y u1, 0 < sigma t E y -> 0 < sigma t E (el_proposal E u1) -> el_proposal E u1 <> y ->
     probability_is (fun u2 => el_round t E (Some (y, sigma t E y)) (u1, u2) = Some (el_proposal E u1, sigma t E (el_proposal E u1))) (acc y (el_proposal E u1))) /\
  (forall y1 y2, 0 < y1 -> 0 < y2 -> 0 < sigma t E y1 -> 0 < sigma t E y2 ->
     balanced (fun y => sigma t E y / y) (log_density (/ 10 ^ 15) (2 * E / (2 * E + electron_mass))) acc y1 y2).
Proof.
  intros t E H. exists (fun a b => Rmin 1 (sigma t E b / sigma t E a)). split.
  - intros y u1 S1 S2 N. apply el_round_prob; auto. unfold sigma in *. destruct (dsigma t E (el_proposal E u1)); auto. lra.
  - intros y1 y2 Y1 Y2 S1 S2. unfold balanced, log_density. pose proof (ln_increasing _ _ ymin_pos H) as L. unfold el_ymin in L. fold (el_ymax E) in *.
    set (a := sigma t E y1) in *. set (b := sigma t E y2) in *. clearbody a b.
    assert (D : forall u v, 0 < u -> 0 < v -> u <= v -> Rmin 1 (v / u) = 1 /\ Rmin 1 (u / v) = u / v).
    { intros u v U V X. split.
      - apply Rmin_left. apply Rmult_le_reg_r with u; auto. unfold Rdiv. rewrite Rmult_assoc, Rinv_l; lra.
      - apply Rmin_right. apply Rmult_le_reg_r with v; auto. unfold Rdiv. rewrite Rmult_assoc, Rinv_l; lra. }
    destruct (Rle_lt_dec a b) as [X|X].
    + destruct (D a b S1 S2 X) as [-> ->]. field. repeat split; lra.
    + destruct (D b a S2 S1 (Rlt_le _ _ X)) as [-> ->]. field. repeat split; lra.
Qed.
Print Assumptions C91_balance.

Lemma range_one : el_ymin < 1 / 4 /\ 9 / 10 < el_ymax 1.
Proof. unfold el_ymin, el_ymax, electron_mass. split; lra. Qed.
Lemma sigma_one y : 0 <= y <= 1 -> exists k, 0 < k /\ k = fermi ^ 2 * (2 * electron_mass * 1 + electron_mass * electron_mass) / PI / inv_gev /\
  dsigma ElNuMu 1 y = Some (k * el_terms (- (2730) / 10000) electron_mass 1 y) /\ sigma ElNuMu 1 y = k * el_terms (- (2730) / 10000) electron_mass 1 y.
Proof.
  intros Y. destruct (numu_dsigma 1 y ltac:(lra) Y) as [k [K [D E]]]. exists k. split; auto. split; auto. split; auto. unfold sigma. rewrite D. auto.
Qed.
Lemma sigma_ratio : exists s4 s2, 0 < s2 < s4 * (9 / 10) /\ dsigma ElNuMu 1 (1 / 4) = Some s4 /\ dsigma ElNuMu 1 (1 / 2) = Some s2 /\
  sigma ElNuMu 1 (1 / 4) = s4 /\ sigma ElNuMu 1 (1 / 2) = s2.
Proof.
  destruct (sigma_one (1 / 4) ltac:(lra)) as [k [K [E [D S]]]]. destruct (sigma_one (1 / 2) ltac:(lra)) as [k' [K' [E' [D' S']]]].
  assert (KK : k' = k) by congruence. rewrite KK in D', S'. clear E E' KK. eexists _, _. split; [|split; [exact D|split; [exact D'|split; [exact S|exact S']]]].
  pose proof (numu_terms 1 (1 / 2) ltac:(lra) ltac:(lra)) as T.
  assert (X : el_terms (- (2730) / 10000) electron_mass 1 (1 / 2) < el_terms (- (2730) / 10000) electron_mass 1 (1 / 4) * (9 / 10)).
  { unfold el_terms, electron_mass, clr. lra. }
  split; [apply Rmult_lt_0_compat; auto|]. rewrite Rmult_assoc. apply Rmult_lt_compat_l; auto.
Qed.

(** The rounds do not balance the cross section: y is not drawn from it. *)
Theorem C91_law_refuted : exists t E y1 y2, / 10 ^ 15 < y1 < 2 * E / (2 * E + electron_mass) /\ / 10 ^ 15 < y2 < 2 * E / (2 * E + electron_mass) /\
  0 < sigma t E y1 /\ 0 < sigma t E y2 /\
  forall acc, (forall y u1, 0 < sigma t E y -> 0 < sigma t E (el_proposal E u1) -> el_proposal E u1 <> y ->
     probability_is (fun u2 => el_round t E (Some (y, sigma t E y)) (u1, u2) = Some (el_proposal E u1, sigma t E (el_proposal E u1))) (acc y (el_proposal E u1))) ->
  ~ balanced (sigma t E) (log_density (/ 10 ^ 15) (2 * E / (2 * E + electron_mass))) acc y1 y2.
Proof.
  exists ElNuMu, 1, (1 / 4), (1 / 2). destruct range_one as [R1 R2]. destruct sigma_ratio as [s4 [s2 [[P Q] [D4 [D2 [S4 S2]]]]]].
  split; [unfold electron_mass; lra|]. split; [unfold electron_mass; lra|]. rewrite S4, S2. split; [lra|]. split; [lra|].
  intros acc H B. fold (el_ymax 1) in *. fold el_ymin in *. assert (R : el_ymin < el_ymax 1) by lra.
  assert (A1 : acc (1 / 4) (1 / 2) = s2 / s4).
  { set (u := log_cdf el_ymin (el_ymax 1) (1 / 2)). assert (U : el_proposal 1 u = 1 / 2) by (apply proposal_hits; lra).
    specialize (H (1 / 4) u). rewrite U, S4, S2 in H. specialize (H ltac:(lra) ltac:(lra) ltac:(lra)).
    pose proof (el_round_prob ElNuMu 1 (1 / 4) s4 u s2) as K. rewrite U in K. specialize (K ltac:(lra) D2 ltac:(lra) ltac:(lra)).
    rewrite (acceptance_unique _ _ _ H K). apply Rmin_right. apply Rmult_le_reg_r with s4; [lra|]. unfold Rdiv. rewrite Rmult_assoc, Rinv_l; lra. }
  assert (A2 : acc (1 / 2) (1 / 4) = 1).
  { set (u := log_cdf el_ymin (el_ymax 1) (1 / 4)). assert (U : el_proposal 1 u = 1 / 4) by (apply proposal_hits; lra).
    specialize (H (1 / 2) u). rewrite U, S4, S2 in H. specialize (H ltac:(lra) ltac:(lra) ltac:(lra)).
    pose proof (el_round_prob ElNuMu 1 (1 / 2) s2 u s4) as K. rewrite U in K. specialize (K ltac:(lra) D4 ltac:(lra) ltac:(lra)).
    rewrite (acceptance_unique _ _ _ H K). apply Rmin_left. apply Rmult_le_reg_r with s2; [lra|]. unfold Rdiv. rewrite Rmult_assoc, Rinv_l; lra. }
  unfold balanced in B. rewrite S4, S2, A1, A2 in B. unfold log_density in B.
  assert (L : 0 < ln (el_ymax 1) - ln el_ymin). { pose proof (ln_increasing _ _ ymin_pos R). lra. }
  set (w := ln (el_ymax 1) - ln el_ymin) in *. clearbody w.
  replace (s4 * (/ (1 / 2 * w) * (s2 / s4))) with (2 * s2 / w) in B by (field; lra).
  replace (s2 * (/ (1 / 4 * w) * 1)) with (4 * s2 / w) in B by (field; lra).
  assert (s2 / w = 0) by (unfold Rdiv in *; lra). assert (0 < s2 / w) by (apply Rdiv_lt_0_compat; lra). lra.
Qed.
Print Assumptions C91_law_refuted.

(** The outgoing neutrino is the incoming one, so too much energy comes out, by what the
    electron gained; and the weight is always evaluated at y = 0. *)
Lemma chain_nonneg t E rounds : forall s, (match s with Some (y, _) => 0 <= y | None => True end) ->
  match fold_left (el_round t E) rounds s with Some (y, _) => 0 <= y | None => True end.
Proof.
  induction rounds as [|r rounds IH]; intros s H; cbn [fold_left]; auto. apply IH. destruct s as [[y xs]|]; cbn [el_round]; auto.
  destruct (dsigma _ _ _); auto. assert (P : 0 <= el_proposal E (fst r)) by (unfold el_proposal, Rpower; apply Rlt_le, exp_pos).
  destruct (Rle_dec _ _); auto. destruct (Req_EM_T _ _); auto. destruct (Rlt_dec _ _); auto. destruct (Rlt_dec _ _); auto.
Qed.
Theorem C91_neutrino_unchanged : forall o r u0 rounds uphi fy r' e nu, 0 < er_energy r -> vlen (er_p r) = er_energy r -> er_mass r = 0 -> 0 < er_target_mass r ->
  el_sample o r u0 rounds uphi = Some (fy, r', e, nu) ->
  0 < fy /\ pe e + pe nu = er_energy r + electron_mass + er_energy r * fy /\ el_record_y r' = 0.
Proof.
  intros o r u0 rounds uphi fy r' e nu HE V M0 MT H. unfold el_sample in H.
  destruct (el_chain _ _ _ _) as [[y xs]|] eqn:C; [|discriminate].
  assert (Y : 0 <= y).
  { unfold el_chain in C. pose proof (chain_nonneg (er_type r) (er_energy r) rounds (match dsigma (er_type r) (er_energy r) (el_proposal (er_energy r) u0) with Some xs => Some (0, xs) | None => None end)) as K.
    rewrite C in K. apply K. destruct (dsigma _ _ _); auto. lra. }
  assert (F : 0 < el_final y) by (unfold el_final; assert (0 < / 10 ^ 16) by (apply Rinv_0_lt_compat, pow_lt; lra); lra).
  destruct (el_electron _ _ _ _ _) as [k|] eqn:K; [|discriminate]. injection H as <- <- <- <-. split; auto.
  assert (NE : pe (p4_of (er_p r) (er_mass r)) = er_energy r). { cbn [pe p4_of]. rewrite M0, <- V. unfold vlen. f_equal. rewrite lsq. ring. }
  split.
  - rewrite NE. destruct (Rle_lt_dec (el_final y) (el_ymax (er_energy r))) as [L|L]; [|rewrite electron_none in K by auto; discriminate].
    destruct (electron_some o (er_p r) (er_energy r) (el_final y) uphi HE (conj (Rlt_le _ _ F) L)) as [px [py [X [_ SQ]]]]. rewrite K in X. injection X as ->.
    rewrite turn_energy. pose proof em_pos. assert (0 <= er_energy r * el_final y) by (apply Rmult_le_pos; lra).
    assert (Q : pe (p4_of (mkv px py 0) electron_mass) = er_energy r * el_final y + electron_mass).
    { cbn [pe p4_of]. apply sqrt_lem_1; [|lra|]; unfold length_squared; cbn [vx vy vz]; [|lra].
      assert (0 <= er_energy r * el_final y * (er_energy r * el_final y + 2 * electron_mass)) by (apply Rmult_le_pos; lra). nra. }
    rewrite Q. ring.
  - unfold el_record_y. cbn [er_p er_mass er_target_mass er_secondary_types er_secondaries].
    set (ns := (pp (p4_of (er_p r) (er_mass r)), pm (p4_of (er_p r) (er_mass r)))).
    assert (X : forall es, nth (el_nu_index (er_secondary_types r)) (if Nat.eqb (el_nu_index (er_secondary_types r)) 0 then [ns; es] else [es; ns]) (mkv 0 0 0, 0) = ns).
    { intros es. unfold el_nu_index. destruct (el_is_nu _); reflexivity. }
    rewrite X. unfold ns. cbn [pp pm p4_of]. set (p1 := p4_of (er_p r) (er_mass r)). set (p2 := p4_of _ (er_target_mass r)).
    assert (D : p4_dot p2 p1 <> 0).
    { unfold p4_dot. unfold p1, p2 at 1. rewrite NE. cbn [pe p4_of]. replace (vdot (pp p2) (pp (p4_of (er_p r) (er_mass r)))) with 0 by (unfold p2, vdot; cbn; ring).
      replace (_ + _) with (Rsqr (er_target_mass r)) by (unfold Rsqr, length_squared; cbn; ring). rewrite sqrt_Rsqr by lra.
      apply Rgt_not_eq. rewrite Rminus_0_r. apply Rmult_lt_0_compat; auto. }
    field. auto.
Qed.
Print Assumptions C91_neutrino_unchanged.

Lemma chain_same E u n s : dsigma ElNuMu E (el_proposal E u) = Some s -> 0 < s ->
  el_chain ElNuMu E u (repeat (u, 0) (S n)) = Some (el_proposal E u, s).
Proof.
  intros D S. unfold el_chain. rewrite D.
  assert (R : forall y, el_round ElNuMu E (Some (y, s)) (u, 0) = Some (el_proposal E u, s)).
  { intros y. unfold el_round. cbn [fst snd]. rewrite D, uniform_01. destruct (Rle_dec s 0); [lra|]. destruct (Req_EM_T s 0); auto.
    destruct (Rlt_dec 1 (s / s)); auto. destruct (Rlt_dec 0 (s / s)) as [_|X]; auto. exfalso. apply X. apply Rdiv_lt_0_compat; auto. }
  cbn [repeat fold_left]. rewrite R. induction n as [|n IH]; auto. cbn [repeat fold_left]. rewrite R. exact IH.
Qed.

Definition along_y : el_record := mkel ElNuMu 1 (mkv 0 1 0) 0 electron_mass [ElNuMu; ElEMinus] [].
Lemma sampled_half : exists u e nu r', 0 <= u < 1 /\ el_sample AbsDouble along_y u (repeat (u, 0) 41) 0 = Some (el_final (1 / 2), r', e, nu) /\
  r' = mkel ElNuMu 1 (mkv 0 1 0) 0 electron_mass [ElNuMu; ElEMinus] [(mkv 0 1 0, 0); (pp e, electron_mass)].
Proof.
  destruct range_one as [R1 R2]. destruct sigma_ratio as [s4 [s2 [[P Q] [D4 [D2 [S4 S2]]]]]].
  set (u := log_cdf el_ymin (el_ymax 1) (1 / 2)). assert (U : el_proposal 1 u = 1 / 2) by (apply proposal_hits; lra).
  assert (UR : 0 <= u < 1) by (apply cdf_range; lra). exists u. unfold el_sample. cbn [er_energy er_type along_y].
  rewrite (chain_same 1 u 40 s2) by (rewrite ?U; auto). rewrite U.
  assert (F : 0 <= el_final (1 / 2) <= el_ymax 1) by (unfold el_final; lra).
  destruct (electron_some AbsDouble (er_p along_y) 1 _ 0 ltac:(lra) F) as [px [py [X _]]].
  cbn [er_p along_y] in X. change (er_p along_y) with (mkv 0 1 0). rewrite X. eexists _, _, _. split; [exact UR|]. split; reflexivity.
Qed.

(** Energy is not conserved. *)
Theorem C91_conservation_refuted : exists r u0 rounds uphi fy r' e nu, 0 < er_energy r /\ vlen (er_p r) = er_energy r /\ er_mass r = 0 /\ er_target_mass r = electron_mass /\
  el_sample AbsDouble r u0 rounds uphi = Some (fy, r', e, nu) /\ pe e + pe nu <> er_energy r + electron_mass.
Proof.
  destruct sampled_half as [u [e [nu [r' [U [S _]]]]]]. exists along_y, u, (repeat (u, 0) 41), 0, (el_final (1 / 2)), r', e, nu.
  assert (V : vlen (mkv 0 1 0) = 1). { unfold vlen, vdot. cbn. replace (_ + _ + _) with 1 by ring. apply sqrt_1. }
  split; [cbn; lra|]. split; [exact V|]. split; [reflexivity|]. split; [reflexivity|]. split; [exact S|].
  destruct (C91_neutrino_unchanged AbsDouble along_y u (repeat (u, 0) 41) 0 _ _ _ _ ltac:(cbn; lra) V eq_refl em_pos S) as [F [X _]].
  rewrite X. cbn [er_energy along_y] in *. lra.
Qed.
Print Assumptions C91_conservation_refuted.

(** The weight of a sampled record is not the density at the y it was made for. *)
Theorem C91_weight_refuted : exists r u0 rounds uphi fy r' e nu, 0 < er_energy r /\ vlen (er_p r) = er_energy r /\ er_mass r = 0 /\ er_target_mass r = electron_mass /\
  el_sample AbsDouble r u0 rounds uphi = Some (fy, r', e, nu) /\
  forall txs, 0 < txs -> el_probability txs r' <> Some (sigma (er_type r) (er_energy r) fy / txs).
Proof.
  destruct sampled_half as [u [e [nu [r' [U [S RE]]]]]]. exists along_y, u, (repeat (u, 0) 41), 0, (el_final (1 / 2)), r', e, nu.
  assert (V : vlen (mkv 0 1 0) = 1). { unfold vlen, vdot. cbn. replace (_ + _ + _) with 1 by ring. apply sqrt_1. }
  split; [cbn; lra|]. split; [exact V|]. split; [reflexivity|]. split; [reflexivity|]. split; [exact S|]. intros txs T.
  pose proof (C90_record_formula ElNuMu 1 (mkv 0 1 0) (mkv 0 1 0) (pp e) ltac:(lra) V eq_refl) as D. cbv zeta in D. rewrite <- RE in D. rewrite V in D.
  replace (1 - 1 / 1) with 0 in D by field.
  destruct (sigma_one 0 ltac:(lra)) as [k [K [E0 [D0 S0]]]]. assert (F : 0 <= el_final (1 / 2) <= 1) by (unfold el_final; lra).
  destruct (sigma_one _ F) as [k' [K' [E1 [D1 S1]]]]. assert (KK : k' = k) by congruence. rewrite KK in D1, S1.
  unfold el_probability. rewrite D, D0. cbn [er_type er_energy along_y]. rewrite S1.
  pose proof (numu_terms 1 0 ltac:(lra) ltac:(lra)) as T0. destruct (Req_EM_T _ 0) as [Z|_]; [apply Rmult_integral in Z; destruct Z; lra|].
  destruct (Req_EM_T txs 0); [lra|]. intros X. injection X as X. apply Rmult_eq_reg_r in X; [|apply Rinv_neq_0_compat; lra].
  apply Rmult_eq_reg_l in X; [|lra]. unfold el_terms, el_final, electron_mass, clr in X. lra.
Qed.
Print Assumptions C91_weight_refuted.

(** If no round accepts, y keeps its starting value 0, which was never proposed. *)
Theorem C91_never_set_refuted : exists r u0 rounds, length rounds = 41%nat /\ Forall (fun q => 0 <= fst q < 1 /\ 0 <= snd q < 1) rounds /\ 0 <= u0 < 1 /\
  exists xs, el_chain (er_type r) (er_energy r) u0 rounds = Some (0, xs) /\ 0 < el_proposal (er_energy r) u0.
Proof.
  destruct range_one as [R1 R2]. destruct sigma_ratio as [s4 [s2 [[P Q] [D4 [D2 [S4 S2]]]]]].
  set (u4 := log_cdf el_ymin (el_ymax 1) (1 / 4)). assert (U4 : el_proposal 1 u4 = 1 / 4) by (apply proposal_hits; lra).
  set (u2 := log_cdf el_ymin (el_ymax 1) (1 / 2)). assert (U2 : el_proposal 1 u2 = 1 / 2) by (apply proposal_hits; lra).
  exists along_y, u4, (repeat (u2, 9 / 10) 41). split; [apply repeat_length|]. split.
  - apply Forall_forall. intros q I. apply repeat_spec in I. subst q. cbn [fst snd]. split; [apply cdf_range; lra|lra].
  - split; [apply cdf_range; lra|]. cbn [er_energy er_type along_y]. exists s4. split; [|rewrite U4; lra]. unfold el_chain. rewrite U4, D4.
    assert (R : el_round ElNuMu 1 (Some (0, s4)) (u2, 9 / 10) = Some (0, s4)).
    { unfold el_round. cbn [fst snd]. rewrite U2, D2, uniform_01. assert (L : s2 / s4 < 9 / 10). { apply Rmult_lt_reg_r with s4; [lra|]. unfold Rdiv at 1. rewrite Rmult_assoc, Rinv_l; lra. }
      destruct (Rle_dec s2 0); auto. destruct (Req_EM_T s4 0); [lra|]. destruct (Rlt_dec 1 (s2 / s4)); [lra|]. destruct (Rlt_dec (9 / 10) (s2 / s4)); [lra|]. reflexivity. }
    generalize 41%nat. intros n. induction n as [|n IH]; auto. cbn [repeat fold_left]. rewrite R. exact IH.
Qed.
Print Assumptions C91_never_set_refuted.

(** The small number added to y can take it past its limit; the electron is then not a number. *)
Theorem C91_past_limit_refuted : exists r u, 0 < er_energy r /\ vlen (er_p r) = er_energy r /\ 0 <= u < 1 /\
  el_sample AbsDouble r u (repeat (u, 0) 41) 0 = None.
Proof.
  destruct range_one as [R1 R2]. set (y := el_ymax 1 - / 10 ^ 17). assert (YB : 1 / 4 < y < el_ymax 1) by (unfold y; lra).
  assert (Y1 : el_ymax 1 < 1) by (apply ymax_range; lra).
  set (u := log_cdf el_ymin (el_ymax 1) y). assert (U : el_proposal 1 u = y) by (apply proposal_hits; lra).
  exists along_y, u. assert (V : vlen (mkv 0 1 0) = 1). { unfold vlen, vdot. cbn. replace (_ + _ + _) with 1 by ring. apply sqrt_1. }
  split; [cbn; lra|]. split; [exact V|]. split; [apply cdf_range; lra|]. unfold el_sample. cbn [er_energy er_type along_y].
  destruct (sigma_one y ltac:(lra)) as [k [K [_ [D _]]]]. pose proof (numu_terms 1 y ltac:(lra) ltac:(lra)) as T.
  rewrite (chain_same 1 u 40 _ ltac:(rewrite U; exact D)) by (apply Rmult_lt_0_compat; auto). rewrite U.
  rewrite electron_none; auto; [lra|]. unfold el_final, y. lra.
Qed.
Print Assumptions C91_past_limit_refuted.

Example C91_case : sigma ElNuMu 1 (1 / 2) < sigma ElNuMu 1 (1 / 4) /\ / 10 ^ 15 < 1 / 4 /\ 1 / 2 < 2 * 1 / (2 * 1 + electron_mass).
Proof. destruct sigma_ratio as [s4 [s2 [[P Q] [D4 [D2 [S4 S2]]]]]]. rewrite S4, S2. unfold electron_mass. repeat split; lra. Qed.
