(** Properties C179 to C182: charm production in deep inelastic scattering. *)
From Coq Require Import Reals List Lra Psatz Lia.
From Verif Require Import VectorModel RkModel RkSpec RkProofs RandomModel TurnModel DipoleSpec TurnProofs QkModel QkSpec QkProofs.
Import ListNotations.
Open Scope R_scope.

(** ** C179: the allowed region and the lepton *)

(** C179: the check accepts the values of the two variables that some lepton has, with a positive momentum transfer and enough mass for target and meson. *)
Theorem C179_allowed p m M xi y : 0 <= m -> 0 < vlength p -> clear_of_x p ->
  (charm_allowed xi y (vlength p) M m = true <->
   / 10 ^ 9 <= xi <= 1 /\ / 10 ^ 9 <= y /\ exists k, charged p m M charm_mass xi y k /\ 0 < 2 * M * vlength p * y * xi - charm_mass * charm_mass /\ (M + d0_mass) * (M + d0_mass) < hadronic p m M k).
Proof.
  intros HM HE HX. split.
  - intros A. pose proof (proj1 (allowed_iff _ _ _ _ _ HE) A) as (B1 & B2 & _ & B4 & B5 & _). split; [auto|]. split; [auto|]. set (c := mkcharm p 0 m M 0).
    destruct (exchanged_shape c xi y 0 HE eq_refl HX A) as (q & _ & Q1 & Q3 & Q4). destruct (lepton_charged c xi y HE HM A q Q1 Q3 Q4) as [L1 L2].
    exists (pp (ch_lepton c q)). split; [exact L1|]. split; [exact B4|]. change (ch_m3 c) with m in L2. change (ch_target c) with M in L2. change (ch_p c) with p in L2. rewrite L2. exact B5.
  - intros (B1 & B2 & k & C1 & C2 & C3). now apply (charged_allowed p m M xi y k).
Qed.
Print Assumptions C179_allowed.

(** C179: for allowed values the sampler makes that lepton, for any azimuth. *)
Theorem C179_lepton c xi y u : 0 < vlength (ch_p c) -> ch_m1 c = 0 -> 0 <= ch_m3 c -> clear_of_x (ch_p c) -> charm_allowed xi y (vlength (ch_p c)) (ch_target c) (ch_m3 c) = true ->
  exists q, exchanged AbsDouble c xi y u = Some q /\ let l := ch_lepton c q in on_shell l /\ pm l = ch_m3 c /\ pe l = vlength (ch_p c) * (1 - y) /\ charged (ch_p c) (ch_m3 c) (ch_target c) charm_mass xi y (pp l).
Proof.
  intros HE H1 H3 HX HA. destruct (exchanged_shape c xi y u HE H1 HX HA) as (q & Q0 & Q1 & Q3 & Q4). exists q. split; auto. destruct (lepton_shape c xi y HE H3 HA q Q1 Q3 Q4) as (P & L & Ms & S).
  destruct (lepton_charged c xi y HE H3 HA q Q1 Q3 Q4) as [C _]. cbv zeta. split; [|auto]. apply p4_of_shell. auto.
Qed.
Print Assumptions C179_lepton.

Lemma y_length : vlength (mkv 0 10 0) = 10.
Proof. unfold vlength, length_squared. cbn. replace (0 * 0 + 10 * 10 + 0 * 0) with (10 * 10) by ring. apply sqrt_square. lra. Qed.
Lemma y_clear : clear_of_x (mkv 0 10 0).
Proof. right. unfold vlen, vdot. cbn. replace (0 * 0 + 10 * 10 + 0 * 0) with (10 * 10) by ring. rewrite sqrt_square by lra. lra. Qed.
(** A neutrino of ten GeV that loses half of its energy. *)
Definition ten : charm := mkcharm (mkv 0 10 0) 0 (1 / 10) 1 d0_mass.
Lemma ten_allowed : charm_allowed (1 / 4) (1 / 2) 10 1 (1 / 10) = true.
Proof. apply allowed_iff; [lra|]. unfold slow_q2, slow_w2, charm_mass, d0_mass. cbv zeta. repeat split; lra. Qed.
Example C179_case u : exists q, exchanged AbsDouble ten (1 / 4) (1 / 2) u = Some q /\ pe (ch_lepton ten q) = 5.
Proof.
  destruct (C179_lepton ten (1 / 4) (1 / 2) u) as (q & A & _ & _ & B & _); cbn [ten ch_p ch_m1 ch_m3 ch_target]; try rewrite y_length; try lra; auto using y_clear, ten_allowed.
  exists q. split; auto. rewrite B. cbn [ten ch_p]. rewrite y_length. lra.
Qed.

(** ** C180: meson and remnant *)

(** C180: energy and momentum are kept by lepton, remnant and meson; the meson is on its mass shell and takes a drawn share of the exchanged momentum, and the remnant has a mass and a positive energy. *)
Theorem C180_final c xi y u zs l x d : 0 < vlength (ch_p c) -> ch_m1 c = 0 -> 0 <= ch_m3 c -> 0 < ch_target c -> 0 <= ch_d c <= ch_target c + d0_mass -> clear_of_x (ch_p c) ->
  charm_allowed xi y (vlength (ch_p c)) (ch_target c) (ch_m3 c) = true -> Forall (fun z => 0 <= z <= 1) zs -> charm_final AbsDouble c xi y u zs = Some (l, x, d) ->
  pe l + pe x + pe d = vlength (ch_p c) + ch_target c /\ vadd (vadd (pp l) (pp x)) (pp d) = ch_p c /\
  on_shell l /\ on_shell d /\ pm d = ch_d c /\ 0 < pe x /\ 0 <= pe x * pe x - vdot (pp x) (pp x) /\ exists z, In z zs /\ pp d = vscale z (vsub (ch_p c) (pp l)).
Proof.
  intros HE H1 H3 HT HD HX HA FZ. unfold charm_final. destruct (exchanged_shape c xi y u HE H1 HX HA) as (q & -> & Q1 & Q3 & Q4). destruct (Rle_dec 1 xi); [discriminate|].
  destruct (hadronize c xi q (firstn 500 zs)) as [[ch xx]|] eqn:H; [|discriminate]. intros K. assert (KL : l = ch_lepton c q) by congruence. assert (KX : xx = x) by congruence. assert (KD : ch = d) by congruence. clear K. subst xx ch.
  destruct (hadronize_some _ _ _ _ _ _ H) as (z & I & F & G). assert (IZ : In z zs) by (rewrite <- (firstn_skipn 500 zs); apply in_or_app; auto). pose proof (proj1 (Forall_forall _ _) FZ z IZ) as Z.
  pose proof (proj1 (allowed_iff _ _ _ _ _ HE) HA) as (B1 & B2 & B3 & B4 & B5 & _).
  assert (XT : 0 <= xi * ch_target c) by (apply Rmult_le_pos; lra). pose proof (fragment_sum c xi q z XT) as S. rewrite F in S. destruct S as (S1 & S2 & S3 & S4 & S5).
  destruct (lepton_shape c xi y HE H3 HA q Q1 Q3 Q4) as (P & L & _ & _). rewrite KL. set (E := vlength (ch_p c)) in *.
  split; [rewrite L; lra|]. split; [rewrite P, <- S2; apply veq; cbn; ring|]. split; [apply p4_of_shell; auto|].
  assert (SD : on_shell d). { unfold fragment in F. injection F as <- _. apply p4_of_shell. lra. } split; [exact SD|]. split; [exact S3|]. split; [|split].
  - assert (V : 0 <= vdot (pp q) (pp q)) by apply vdot_nonneg. set (V2 := vdot (pp q) (pp q)) in *. set (T := ch_target c + pe q) in *.
    assert (W : (ch_target c + d0_mass) * (ch_target c + d0_mass) + V2 < T * T). { unfold T. rewrite Q1, Q3. unfold slow_w2 in B5. unfold slow_q2. nra. }
    assert (PT : 0 < T). { unfold T. rewrite Q1. assert (0 < E * y) by (apply Rmult_lt_0_compat; lra). lra. }
    assert (DD : ch_d c * ch_d c <= (ch_target c + d0_mass) * (ch_target c + d0_mass)) by (apply Rmult_le_compat; lra).
    assert (ZZ : z * z * V2 <= V2). { assert (z * z <= 1) by nra. nra. }
    assert (PD : pe d < T). { rewrite S5. rewrite <- (sqrt_square T) by lra. apply sqrt_lt_1_alt. split; [|lra]. apply Rplus_le_le_0_compat; [nra|apply Rmult_le_pos; nra]. }
    lra.
  - exact G.
  - exists z. split; auto. rewrite S4, P. f_equal. apply veq; cbn; ring.
Qed.
Print Assumptions C180_final.

Lemma ten_half u : exists l x d, charm_final AbsDouble ten (1 / 4) (1 / 2) u [1 / 2] = Some (l, x, d).
Proof.
  assert (HA : charm_allowed (1 / 4) (1 / 2) (vlength (ch_p ten)) (ch_target ten) (ch_m3 ten) = true) by (cbn [ten ch_p ch_target ch_m3]; rewrite y_length; apply ten_allowed).
  assert (HE : 0 < vlength (ch_p ten)) by (cbn [ten ch_p]; rewrite y_length; lra).
  destruct (exchanged_shape ten (1 / 4) (1 / 2) u HE eq_refl y_clear HA) as (q & Q0 & Q1 & Q3 & _). unfold charm_final. rewrite Q0. destruct (Rle_dec 1 (1 / 4)); [lra|]. cbn [firstn hadronize].
  pose proof (fragment_sum ten (1 / 4) q (1 / 2)) as S. destruct (fragment ten (1 / 4) q (1 / 2)) as [ch x]. cbn [ten ch_target ch_d ch_p] in S, Q1, Q3. rewrite y_length in Q1, Q3. destruct S as (S1 & S2 & _ & S4 & S5); [lra|].
  assert (VX : vdot (pp x) (pp x) = 1 / 4 * vdot (pp q) (pp q)). { assert (pp x = vscale (1 / 2) (pp q)) as ->. { rewrite S4 in S2. rewrite <- S2 at 1. apply veq; cbn. - assert (vx (vadd (vscale (1 / 2) (pp q)) (pp x)) = vx (pp q)) as Y by (now rewrite S2). cbn in Y |- *. lra. - assert (vy (vadd (vscale (1 / 2) (pp q)) (pp x)) = vy (pp q)) as Y by (now rewrite S2). cbn in Y |- *. lra. - assert (vz (vadd (vscale (1 / 2) (pp q)) (pp x)) = vz (pp q)) as Y by (now rewrite S2). cbn in Y |- *. lra. } unfold vdot. cbn. field. }
  unfold slow_q2, charm_mass in Q3. assert (Q3' : vdot (pp q) (pp q) = 258616 / 10000) by (rewrite Q3; lra). rewrite Q3' in *.
  assert (PD : pe ch <= 32 / 10). { rewrite S5. rewrite <- (sqrt_square (32 / 10)) by lra. apply sqrt_le_1_alt. unfold d0_mass. lra. }
  assert (PX : 28 / 10 <= pe x) by lra. destruct (Rlt_dec (p4_dot x x) 0) as [C|]; [|eauto]. exfalso. unfold p4_dot in C. rewrite VX in C. nra.
Qed.
(** The neutrino of ten GeV, and a meson with half of the momentum of the charm. *)
Example C180_case u : exists l x d, charm_final AbsDouble ten (1 / 4) (1 / 2) u [1 / 2] = Some (l, x, d) /\ pe l + pe x + pe d = 11 /\ 0 < pe x.
Proof.
  destruct (ten_half u) as (l & x & d & H). exists l, x, d. split; auto. destruct (C180_final ten (1 / 4) (1 / 2) u [1 / 2] l x d) as (A & _ & _ & _ & _ & B & _); cbn [ten ch_p ch_m1 ch_m3 ch_target ch_d]; try rewrite y_length; auto using y_clear, ten_allowed; try (unfold d0_mass; lra).
  - repeat constructor; lra.
  - cbn [ten ch_p ch_target] in A. rewrite y_length in A. lra.
Qed.

(** ** C181: the record *)

(** C181: from the momenta in the record come back the two variables that were drawn. *)
Theorem C181_variables c xi y u q M' : 0 < vlength (ch_p c) -> ch_m1 c = 0 -> 0 <= ch_m3 c -> 0 < ch_target c -> 0 < M' -> clear_of_x (ch_p c) ->
  charm_allowed xi y (vlength (ch_p c)) (ch_target c) (ch_m3 c) = true -> exchanged AbsDouble c xi y u = Some q ->
  record_y M' (ch_primary c) (ch_lepton c q) = y /\ record_xi (vlength (ch_p c)) (ch_target c) M' (ch_primary c) (ch_lepton c q) = xi.
Proof.
  intros HE H1 H3 HT HM HX HA HQ. destruct (exchanged_shape c xi y u HE H1 HX HA) as (q' & Q0 & Q1 & Q3 & Q4). assert (q' = q) by congruence. subst q'. destruct (lepton_shape c xi y HE H3 HA q Q1 Q3 Q4) as (P & L & _ & _).
  pose proof (proj1 (allowed_iff _ _ _ _ _ HE) HA) as (B1 & B2 & _). pose proof (massless_energy c H1) as PE.
  assert (Y : record_y M' (ch_primary c) (ch_lepton c q) = y).
  { unfold record_y, p4_dot. rewrite rest_energy by lra. rewrite L, PE. set (E := vlength (ch_p c)) in *. cbn [p4_of pp]. unfold vdot. cbn [vx vy vz]. field. split; lra. }
  split; [exact Y|]. unfold record_xi. rewrite Y. assert (0 < y) by lra. destruct (Rlt_dec 0 y); [|lra].
  assert (V : pp (p4_sub (ch_primary c) (ch_lepton c q)) = pp q) by (cbn [p4_sub pp]; rewrite P; apply veq; cbn; ring).
  unfold record_q2, p4_dot. rewrite V, Q3. cbn [p4_sub pe]. rewrite L, PE. set (E := vlength (ch_p c)) in *. unfold slow_q2. field. repeat split; lra.
Qed.
Print Assumptions C181_variables.

(** C181: the fractions of the mesons add up to one, so the total cross sections of the signatures add up to that of the spline. *)
Theorem C181_total xs : record_total xs MesonD0 + record_total xs MesonDplus + record_total xs MesonDs = xs.
Proof. unfold record_total, fraction. field. Qed.
Print Assumptions C181_total.

(** Finding (C181): the fraction of the meson divides the total but not the differential cross section, so the probability density of a signature is too large by the inverse of the fraction; for equal cross sections it is above one. *)
Theorem C181_density_refuted : exists m, forall dxs xs, 0 < dxs -> 0 < xs -> 49 / 30 * (dxs / xs) <= charm_probability dxs xs m.
Proof.
  exists MesonD0. intros d x D X. unfold charm_probability, record_total, fraction. destruct (Req_EM_T d 0); [lra|]. replace (d / (x * (6 / 10 / (98 / 100)))) with (49 / 30 * (d / x)) by (field; lra). lra.
Qed.
Print Assumptions C181_density_refuted.

Example C181_case : record_total 98 MesonD0 = 60 /\ record_total 98 MesonDplus = 23 /\ record_total 98 MesonDs = 15.
Proof. unfold record_total, fraction. lra. Qed.

(** ** C182: the table of the fragmentation *)

(** C182: for a density that is not negative, the table increases with the nodes. *)
Theorem C182_monotone_partial pdf j : (forall x, 0 <= pdf x) -> cdf_vector pdf j <= cdf_vector pdf (S j) /\ cdf_z j < cdf_z (S j).
Proof.
  intros H. split.
  - destruct j as [|k].
    + cbn [cdf_vector]. pose proof (H (z_node 0)) as A. assert (0 <= z_node 0) by (unfold z_node; cbn; lra). nra.
    + change (cdf_vector pdf (S (S k))) with (5 / 10 * (pdf_vector pdf (S k - 1) + pdf (z_node (S k))) * (z_node (S k) - z_node (S k - 1)) + cdf_vector pdf (S k)).
      replace (S k - 1)%nat with k by lia. rewrite z_step. assert (0 <= pdf_vector pdf k) by (destruct k; cbn; auto; lra). pose proof (H (z_node (S k))). lra.
  - destruct j as [|k]; cbn [cdf_z]; [unfold z_node; cbn; lra|]. pose proof (z_step k). lra.
Qed.
Print Assumptions C182_monotone_partial.

(** C182: what the table holds: from the second node on, the left value of a trapezium is that of the node before the left one. *)
Theorem C182_table_partial pdf k : cdf_vector pdf (S (S k)) - cdf_vector pdf (S k) = (match k with O => 0 | S i => pdf (z_node i) end + pdf (z_node (S k))) / 2 * (z_node (S k) - z_node k).
Proof.
  change (cdf_vector pdf (S (S k))) with (5 / 10 * (pdf_vector pdf (S k - 1) + pdf (z_node (S k))) * (z_node (S k) - z_node (S k - 1)) + cdf_vector pdf (S k)). replace (S k - 1)%nat with k by lia. unfold pdf_vector. destruct k; field.
Qed.
Print Assumptions C182_table_partial.

(** Finding (C182): the densities are read one place too low, so the table is not the integral by trapezia, whatever the density, as soon as it is positive at the first node. *)
Theorem C182_shift_refuted : exists j, forall pdf, 0 < pdf (z_node 0) -> cdf_vector pdf j < trapezia cdf_z (fun i => match i with O => 0 | S k => pdf (z_node k) end) j.
Proof.
  exists 2%nat. intros pdf P. cbn [trapezia cdf_z]. change (cdf_vector pdf 2) with (5 / 10 * (0 + pdf (z_node 1)) * (z_node 1 - z_node 0) + z_node 0 * pdf (z_node 0) * (5 / 10)).
  rewrite (z_step 0). lra.
Qed.
Print Assumptions C182_shift_refuted.

(** The density at the first node is positive, and the table differs. *)
Example C182_case : 0 < sample_pdf 1 (z_node 0) /\ cdf_vector (sample_pdf 1) 2 < trapezia cdf_z (fun i => match i with O => 0 | S k => sample_pdf 1 (z_node k) end) 2.
Proof.
  assert (P : 0 < sample_pdf 1 (z_node 0)). { replace (z_node 0) with (1 / 100) by (unfold z_node; cbn; lra). unfold sample_pdf. lra. }
  split; auto. cbn [trapezia cdf_z]. change (cdf_vector (sample_pdf 1) 2) with (5 / 10 * (0 + sample_pdf 1 (z_node 1)) * (z_node 1 - z_node 0) + z_node 0 * sample_pdf 1 (z_node 0) * (5 / 10)). rewrite (z_step 0). lra.
Qed.
