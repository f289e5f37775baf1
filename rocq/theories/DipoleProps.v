(** Properties C86 to C88. *)
From Coquelicot Require Import Coquelicot.
From Coq Require Import Reals Bool List Lra Lia Psatz.
From Verif Require Import VectorModel RkModel RkSpec RkProofs RandomModel DipoleModel DipoleSpec DipoleProofs.
Import ListNotations.
Open Scope R_scope.

(** ** C86 *)

Theorem C86_conserved : forall o d s h p u1 u2, 0 < hnl_mass d -> 0 <= u1 <= 1 ->
  exists r g nu, sample_final_state o d s h p (hnl_mass d) u1 u2 = Some (r, g, nu) /\
  conserved p (hnl_mass d) g nu /\
  nth (gamma_index s) (rec_secondaries r) (mkv 0 0 0, 1) = (pp g, 0) /\
  nth (nu_index s) (rec_secondaries r) (mkv 0 0 0, 1) = (pp nu, 0).
Proof.
  intros o d s h p u1 u2 H U. pose proof (cos_range d _ u1 (alpha_pm s h) U) as C.
  destruct (products_eq o d p (hnl_mass d) (cos_theta_drawn d (alpha_of s h) u1) u2 H) as [l [_ [_ E]]].
  pose proof (conserve o d p _ u2 _ _ H C E) as K. unfold sample_final_state. rewrite E.
  eexists _, _, _. split; [reflexivity|]. split; [exact K|]. destruct K as [M _]. cbn [rec_secondaries].
  unfold nu_index, gamma_index. destruct (ptype_eqb _ Gamma); split; reflexivity.
Qed.
Print Assumptions C86_conserved.

(** If the record's mass is not the mass of the decay model, energy is not conserved. *)
Theorem C86_mass_refuted : exists o d s h p mass u1 u2 r g nu, 0 < hnl_mass d /\ 0 < mass /\ 0 <= u1 <= 1 /\
  sample_final_state o d s h p mass u1 u2 = Some (r, g, nu) /\ pe g + pe nu <> energy p mass.
Proof.
  set (d := mkdipole 1 1 1 1 Majorana). set (s := mksig N4 [Gamma; NuE]).
  exists AbsDouble, d, s, 1, (mkv 0 0 0), 2, (1 / 2), (1 / 2).
  destruct (products_eq AbsDouble d (mkv 0 0 0) 2 (cos_theta_drawn d (alpha_of s 1) (1 / 2)) (1 / 2) ltac:(lra)) as [l [_ [B E]]].
  assert (H : 0 <= hnl_mass d) by (cbn; lra).
  pose proof (cos_range d _ (1 / 2) (alpha_pm s 1) ltac:(lra)) as C.
  destruct (rest_photon_ok AbsDouble d (mkv 0 0 0) _ (1 / 2) C H) as [S0 [M0 [E0 L0]]]. unfold sample_final_state. rewrite E.
  set (g2 := rest_photon _ _ _ _ _) in *.
  assert (Z : vlength (mkv 0 0 0) = 0) by (unfold vlength, length_squared; cbn; replace (_ + _ + _) with 0 by ring; apply sqrt_0).
  assert (G : pe (p4_of (mkv 0 0 0) 2) / 2 = 1).
  { unfold p4_of; cbn [pe]. replace (2 * 2 + length_squared (mkv 0 0 0)) with (Rsqr 2) by (unfold Rsqr, length_squared; cbn; ring). rewrite sqrt_Rsqr; lra. }
  rewrite G, Z in B. pose proof (boost_time l _ _ _ g2 B S0) as T. pose proof (boost_space l _ _ _ g2 B) as P.
  unfold lorentz_time in T. unfold lorentz_space in P.
  assert (P' : pp (p4_boost l g2) = pp g2) by (rewrite P; generalize (vdot (direction (mkv 0 0 0)) (pp g2)) (direction (mkv 0 0 0)) (pe g2) (pp g2); intros; apply veq; cbn; field).
  eexists _, _, _. split; [cbn; lra|]. split; [lra|]. split; [lra|]. split; [reflexivity|]. rewrite T, P'.
  cbn [pe p4_of]. replace (length_squared (vsub (mkv 0 0 0) (pp g2))) with (length_squared (pp g2)) by (unfold length_squared; cbn; ring).
  replace (0 * 0 + length_squared (pp g2)) with (length_squared (pp g2)) by ring. fold (vlength (pp g2)). rewrite L0, E0. cbn [hnl_mass d].
  unfold energy, vdot. cbn [vx vy vz]. replace (2 * 2 + (0 * 0 + 0 * 0 + 0 * 0)) with (Rsqr 2) by (unfold Rsqr; ring). rewrite sqrt_Rsqr by lra. lra.
Qed.
Print Assumptions C86_mass_refuted.

(** A decay of a particle with mass 4 and momentum 3 along y. *)
Example C86_case : let d := mkdipole 4 0 1 0 Dirac in
  exists r g nu, sample_final_state AbsDouble d (mksig N4 [NuMu; Gamma]) (- (1)) (mkv 0 3 0) 4 (1 / 4) (1 / 3) = Some (r, g, nu) /\
  pe g + pe nu = 5 /\ vadd (pp g) (pp nu) = mkv 0 3 0 /\ nth 1 (rec_secondaries r) (mkv 0 0 0, 1) = (pp g, 0).
Proof.
  intros d. destruct (C86_conserved AbsDouble d (mksig N4 [NuMu; Gamma]) (- (1)) (mkv 0 3 0) (1 / 4) (1 / 3)) as [r [g [nu [E [[_ [_ [_ [_ [K1 K2]]]]] [G _]]]]]]; [cbn; lra|lra|].
  exists r, g, nu. repeat split; auto. rewrite K1. unfold energy, vdot. cbn. replace (_ + _) with (Rsqr 5) by (unfold Rsqr; ring). apply sqrt_Rsqr; lra.
Qed.

(** ** C87 *)

Theorem C87_drawn : forall d s h u, 0 <= u <= 1 ->
  let alpha := polarisation (sig_primary s) h in
  let c := cos_theta_drawn d (alpha_of s h) u in
  -1 <= c <= 1 /\ (forall t, -1 <= t <= 1 -> (c <= t <-> u <= angular_cdf (chiral d) alpha t)) /\
  angular_cdf (chiral d) alpha 1 = 1.
Proof.
  intros d s h u U alpha c. unfold alpha, c. rewrite <- alpha_pol. pose proof (alpha_pm s h) as A.
  split; [apply cos_range; auto|]. split; [|apply cdf_one]. intros t T. apply cdf_drawn; auto.
Qed.
Print Assumptions C87_drawn.

(** The density evaluated for a sampled record, for any meaning of [abs]. *)
Lemma density_at : forall o d s h p u1 u2, 0 < hnl_mass d -> 0 <= u1 <= 1 -> width d s <> 0 -> chiral d = Dirac -> p <> mkv 0 0 0 ->
  let c := cos_theta_drawn d (alpha_of s h) u1 in
  exists r g nu, sample_final_state o d s h p (hnl_mass d) u1 u2 = Some (r, g, nu) /\
  final_state_probability d r = Some ((1 + alpha_of s h * vdot (rot_vec (rotation_between o x_axis (direction p)) (mkv c (sin (acos c)) 0)) (direction p)) / 2).
Proof.
  intros o d s h p u1 u2 H U W D N c. pose proof (cos_range d _ u1 (alpha_pm s h) U) as C. fold c in C.
  destruct (products_eq o d p (hnl_mass d) c u2 H) as [l [L [_ E]]].
  destruct (rest_is (p4_of p (hnl_mass d)) (p4_of_shell p _ (Rlt_le _ _ H)) H) as [b [R _]].
  unfold sample_final_state. fold c. rewrite E. eexists _, _, _. split; [reflexivity|].
  unfold final_state_probability, differential_width. rewrite D. cbn [rec_sig rec_momentum rec_mass rec_helicity rec_secondaries]. rewrite R.
  set (G := p4_boost l (rest_photon o d p c u2)). set (Nu := p4_of (vsub p (pp G)) 0).
  assert (X : nth (gamma_index s) (if Nat.eqb (gamma_index s) 0 then [(pp G, pm G); (pp Nu, pm Nu)] else [(pp Nu, pm Nu); (pp G, pm G)]) (mkv 0 0 0, 0) = (pp G, pm G)).
  { unfold gamma_index. destruct (ptype_eqb _ Gamma); reflexivity. }
  rewrite X. unfold G. rewrite (evaluated o d p c u2 l b H C N L R).
  set (k := vdot _ (direction p)). f_equal. destruct (Req_EM_T _ 0) as [Z|Z].
  - apply Rmult_integral in Z. destruct Z as [Z|Z]; [exfalso; apply W; lra|lra].
  - destruct (Req_EM_T _ 0); [contradiction|]. field. auto.
Qed.

(** For a moving particle whose direction is not almost, but not exactly, along the x axis;
    [abs] the one of doubles. *)
Theorem C87_weight_partial : forall d s h p u1 u2, 0 < hnl_mass d -> 0 <= u1 <= 1 -> width d s <> 0 ->
  (chiral d = Majorana \/ (p <> mkv 0 0 0 /\ clear_of_x p)) ->
  exists r g nu, sample_final_state AbsDouble d s h p (hnl_mass d) u1 u2 = Some (r, g, nu) /\
  final_state_probability d r = Some (angular_density (chiral d) (polarisation (sig_primary s) h) (cos_theta_drawn d (alpha_of s h) u1)).
Proof.
  intros d s h p u1 u2 H U W K. destruct (chiral d) eqn:D.
  - destruct K as [K|[N K]]; [discriminate|]. destruct (density_at AbsDouble d s h p u1 u2 H U W D N) as [r [g [nu [E F]]]].
    exists r, g, nu. split; auto. rewrite F, evaluated_exact by auto. unfold angular_density. rewrite alpha_pol. reflexivity.
  - destruct (C86_conserved AbsDouble d s h p u1 u2 H U) as [r [g [nu [E _]]]]. exists r, g, nu. split; auto.
    assert (S : rec_sig r = s).
    { unfold sample_final_state in E. destruct (decay_products _ _ _ _ _ _) as [[a b]|]; [|discriminate]. injection E as <- _ _. reflexivity. }
    unfold final_state_probability, differential_width. rewrite D, S. cbn [angular_density].
    destruct (Req_EM_T _ 0); [exfalso; apply W; lra|]. destruct (Req_EM_T _ 0); [contradiction|]. f_equal. field. auto.
Qed.
Print Assumptions C87_weight_partial.

Lemma quarter (d : dipole) : chiral d = Dirac -> cos_theta_drawn d (alpha_of (mksig N4Bar [Gamma; NuMuBar]) 1) (1 / 4) = 0 /\
  alpha_of (mksig N4Bar [Gamma; NuMuBar]) 1 = 1.
Proof.
  intros D. assert (A : alpha_of (mksig N4Bar [Gamma; NuMuBar]) 1 = 1) by (unfold alpha_of, copysign1; cbn; destruct (Rlt_dec 1 0); lra).
  split; auto. rewrite A. unfold cos_theta_drawn. rewrite D, uniform_01, cos_dirac_plus by lra.
  replace (1 / 4) with (Rsqr (1 / 2)) by (unfold Rsqr; field). rewrite sqrt_Rsqr by lra. field.
Qed.

(** The density evaluated at the sampled record is not the one of the drawn cosine. *)
Definition wrong_weight (o : abs_overload) (p : vec) : Prop :=
  exists d s h u1 u2 r g nu, 0 < hnl_mass d /\ 0 <= u1 <= 1 /\ width d s <> 0 /\
  sample_final_state o d s h p (hnl_mass d) u1 u2 = Some (r, g, nu) /\
  final_state_probability d r <> Some (angular_density (chiral d) (polarisation (sig_primary s) h) (cos_theta_drawn d (alpha_of s h) u1)).

Lemma wrong_if_identity o p : p <> mkv 0 0 0 -> rotation_between o x_axis (direction p) = rot_identity -> vy (direction p) <> 0 -> wrong_weight o p.
Proof.
  intros N I Y. set (d := mkdipole 1 0 1 0 Dirac). set (s := mksig N4Bar [Gamma; NuMuBar]).
  assert (W : width d s <> 0).
  { unfold width. cbn. unfold c_pi. pose proof PI_RGT_0. apply Rgt_not_eq. apply Rmult_lt_0_compat; [|lra]. apply Rdiv_lt_0_compat; lra. }
  assert (U : 0 <= 1 / 4 <= 1) by lra. assert (H : 0 < hnl_mass d) by (cbn; lra).
  destruct (density_at o d s 1 p (1 / 4) 0 H U W eq_refl N) as [r [g [nu [E F]]]].
  destruct (quarter d eq_refl) as [Q A]. fold s in Q, A.
  exists d, s, 1, (1 / 4), 0, r, g, nu. repeat (split; [assumption|]). rewrite F, I, rot_vec_raw, id_raw by apply uq_identity.
  rewrite <- alpha_pol, Q, A, acos_0, sin_PI2. unfold angular_density. cbn [chiral d]. intros X. injection X as X. apply Y.
  unfold vdot in X. cbn [vx vy vz] in X. lra.
Qed.

(** At rest the code compares with a zero direction, so the cosine is always taken as zero. *)
Theorem C87_at_rest_refuted : exists p, p = mkv 0 0 0 /\ wrong_weight AbsDouble p.
Proof.
  exists (mkv 0 0 0). split; auto. set (d := mkdipole 1 0 1 0 Dirac). set (s := mksig N4Bar [Gamma; NuMuBar]).
  assert (W : width d s <> 0).
  { unfold width. cbn. unfold c_pi. pose proof PI_RGT_0. apply Rgt_not_eq. apply Rmult_lt_0_compat; [|lra]. apply Rdiv_lt_0_compat; lra. }
  assert (U : 0 <= 1 <= 1) by lra. assert (H : 0 < hnl_mass d) by (cbn; lra).
  destruct (products_eq AbsDouble d (mkv 0 0 0) (hnl_mass d) (cos_theta_drawn d (alpha_of s 1) 1) 0 H) as [l [L [_ E]]].
  destruct (rest_is (p4_of (mkv 0 0 0) (hnl_mass d)) (p4_of_shell _ _ (Rlt_le _ _ H)) H) as [b [R _]].
  exists d, s, 1, 1, 0. unfold sample_final_state. rewrite E. eexists _, _, _. repeat (split; [assumption|]). split; [reflexivity|].
  unfold final_state_probability, differential_width. cbn [chiral d]. cbn [rec_sig rec_momentum rec_mass rec_helicity rec_secondaries]. fold d. rewrite R.
  cbn [gamma_index s sig_secondary nth ptype_eqb Nat.eqb]. fold s.
  assert (Z : vnormalized (mkv 0 0 0) = mkv 0 0 0).
  { unfold vnormalized, vmag. cbn. replace (_ + _ + _) with 0 by ring. rewrite sqrt_0. destruct (Req_EM_T 0 0); [auto|lra]. }
  rewrite Z. set (v := vnormalized _). assert (V : vdot v (mkv 0 0 0) = 0) by (unfold vdot; cbn; ring). rewrite V.
  assert (A : alpha_of s 1 = 1) by (unfold alpha_of, copysign1; cbn; destruct (Rlt_dec 1 0); lra).
  assert (Q : cos_theta_drawn d (alpha_of s 1) 1 = 1).
  { rewrite A. unfold cos_theta_drawn. cbn [chiral d]. rewrite uniform_01, cos_dirac_plus, sqrt_1 by lra. ring. }
  rewrite <- alpha_pol, Q, A. unfold angular_density.
  replace (width d s / 2 * (1 + 1 * 0)) with (width d s / 2) by field.
  destruct (Req_EM_T _ 0); [exfalso; apply W; lra|]. destruct (Req_EM_T _ 0); [exfalso; apply W; lra|]. intros X. injection X as X.
  replace (width d s / 2 / width d s) with (1 / 2) in X by (field; auto). lra.
Qed.
Print Assumptions C87_at_rest_refuted.

(** For directions within 4.5e-5 of the x axis the drawn cosine is not the one between photon and parent. *)
Theorem C87_near_axis_refuted : exists p, p <> mkv 0 0 0 /\ wrong_weight AbsDouble p.
Proof.
  set (t := / 10 ^ 5). assert (T : 0 < t < 1) by (unfold t; split; lra). assert (D : 0 < 1 + t * t) by nra.
  set (p := mkv ((1 - t * t) / (1 + t * t)) (2 * t / (1 + t * t)) 0).
  assert (U : vdot p p = 1) by (unfold p, vdot; cbn [vx vy vz]; field; lra).
  assert (L : vlength p = 1) by (apply vlength_unit; auto).
  assert (E : direction p = p).
  { unfold direction. rewrite L. destruct (Rlt_dec 0 1); [|lra]. destruct p. apply veq; cbn; field. }
  assert (Y : 0 < vy p) by (cbn; apply Rdiv_lt_0_compat; lra).
  assert (N : p <> mkv 0 0 0) by (intros X; rewrite X in Y; cbn in Y; lra).
  exists p. split; auto. apply wrong_if_identity; auto; rewrite E; [|lra].
  unfold rotation_between. cbn [c_abs]. replace (vdot x_axis p) with ((1 - t * t) / (1 + t * t)) by (unfold vdot, x_axis, p; cbn [vx vy vz]; field; lra).
  replace (1 - (1 - t * t) / (1 + t * t)) with (2 * (t * t) / (1 + t * t)) by (field; lra).
  assert (K : 2 * (t * t) / (1 + t * t) <= 2 * (t * t)).
  { apply Rmult_le_reg_r with (1 + t * t); auto. replace (2 * (t * t) / (1 + t * t) * (1 + t * t)) with (2 * (t * t)) by (field; lra).
    assert (0 <= 2 * (t * t) * (t * t)) by nra. lra. }
  assert (K' : 0 <= 2 * (t * t) / (1 + t * t)) by (apply Rdiv_le_0_compat; nra).
  rewrite Rabs_right by lra. destruct (Rlt_dec _ rot_eps) as [_|X]; auto. exfalso. apply X.
  apply Rle_lt_trans with (2 * (t * t)); auto. unfold t, rot_eps. lra.
Qed.
Print Assumptions C87_near_axis_refuted.

(** Where abs means the integer function, every direction less than 90 degrees off the x axis is concerned. *)
Theorem C87_integer_abs_refuted : exists p, p = mkv 3 4 0 /\ wrong_weight AbsInt p.
Proof.
  exists (mkv 3 4 0). split; auto.
  assert (L : vlength (mkv 3 4 0) = 5).
  { unfold vlength, length_squared; cbn. replace (_ + _ + _) with (Rsqr 5) by (unfold Rsqr; ring). apply sqrt_Rsqr; lra. }
  assert (E : direction (mkv 3 4 0) = mkv (3 / 5) (4 / 5) 0).
  { unfold direction. rewrite L. destruct (Rlt_dec 0 5); [|lra]. apply veq; cbn; field. }
  apply wrong_if_identity.
  - intros X. injection X. intros. lra.
  - rewrite E. unfold rotation_between. cbn [c_abs].
    replace (1 - vdot x_axis (mkv (3 / 5) (4 / 5) 0)) with (2 / 5) by (unfold vdot, x_axis; cbn [vx vy vz]; field).
    rewrite Rabs_right by lra. unfold Int_part. replace (up (2 / 5)) with 1%Z by (apply tech_up; cbn; lra). cbn [Z.sub Z.opp Z.add Z.pos_sub].
    destruct (Rlt_dec 0 rot_eps) as [_|N]; auto. exfalso. apply N, rot_eps_pos.
  - rewrite E. cbn. lra.
Qed.
Print Assumptions C87_integer_abs_refuted.

(** A Dirac antiparticle of positive helicity, moving along y, with the draw 1/4: cosine 0. *)
Example C87_case : let d := mkdipole 4 0 1 0 Dirac in let s := mksig N4Bar [Gamma; NuMuBar] in
  (mkv 0 3 0 <> mkv 0 0 0 /\ clear_of_x (mkv 0 3 0)) /\ width d s <> 0 /\
  cos_theta_drawn d (alpha_of s 1) (1 / 4) = 0 /\
  exists r g nu, sample_final_state AbsDouble d s 1 (mkv 0 3 0) 4 (1 / 4) (1 / 3) = Some (r, g, nu) /\ final_state_probability d r = Some (1 / 2).
Proof.
  intros d s. assert (N : mkv 0 3 0 <> mkv 0 0 0) by (intros X; injection X; intros; lra).
  assert (C : clear_of_x (mkv 0 3 0)) by (right; cbn [vx]; unfold Rdiv; rewrite Rmult_0_l; lra).
  assert (W : width d s <> 0).
  { unfold width. cbn. unfold c_pi. pose proof PI_RGT_0. apply Rgt_not_eq. apply Rmult_lt_0_compat; [|lra]. apply Rdiv_lt_0_compat; lra. }
  destruct (quarter d eq_refl) as [Q A]. split; auto. split; auto. split; auto.
  destruct (C87_weight_partial d s 1 (mkv 0 3 0) (1 / 4) (1 / 3)) as [r [g [nu [E F]]]]; auto; [cbn; lra|lra|].
  exists r, g, nu. split; auto. rewrite F. rewrite <- alpha_pol. fold s in Q, A. rewrite Q, A. cbn [chiral d angular_density]. f_equal. field.
Qed.

(** ** C88 *)

Definition sum (l : list R) : R := fold_right Rplus 0 l.

Theorem C88_widths : forall d primary, primary = N4 \/ primary = N4Bar ->
  signatures_from primary <> [] /\ NoDup (signatures_from primary) /\
  (forall s, In s (signatures_from primary) -> sig_primary s = primary /\ two_body s) /\
  sum (map (width d) (signatures_from primary)) = width_all d.
Proof.
  intros d primary [-> | ->]; (split; [discriminate|split; [|split]]).
  - cbn. repeat constructor; cbn; intuition discriminate.
  - intros s H. cbn in H. destruct H as [<-|[<-|[<-|[]]]]; (split; [reflexivity|]); eexists; (split; [|left; reflexivity]); discriminate.
  - unfold width_all, width, signatures_from, sum; cbn. unfold Rdiv. ring.
  - cbn. repeat constructor; cbn; intuition discriminate.
  - intros s H. cbn in H. destruct H as [<-|[<-|[<-|[]]]]; (split; [reflexivity|]); eexists; (split; [|left; reflexivity]); discriminate.
  - unfold width_all, width, signatures_from, sum; cbn. unfold Rdiv. ring.
Qed.
Print Assumptions C88_widths.

(** The decay length is momentum over mass, times the lifetime, times h-bar c. *)
Theorem C88_length : forall w p m, 0 < m -> decay_length w p m = Some (vlen p / m * (1 / w) * hbarc).
Proof.
  intros w p m H. unfold decay_length.
  assert (P : 0 < pe (p4_of p m)) by (cbn [pe p4_of]; apply sqrt_lt_R0; rewrite lsq; pose proof (vdot_nonneg p); nra).
  unfold p4_beta, p4_gamma, ensure_mass. cbn [pm pp p4_of]. fold (p4_of p m).
  destruct (Req_EM_T (pe (p4_of p m)) 0); [lra|]. destruct (Req_EM_T m 0); [lra|]. destruct (Rle_dec m 0); [lra|].
  rewrite Rabs_right by lra. f_equal. change (vlen p) with (vlength p). set (e := pe (p4_of p m)) in *. clearbody e. unfold Rdiv. 
  replace (vlength p * / e * (e * / m)) with (vlength p * / m * (e * / e)) by ring. rewrite Rinv_r by auto. ring.
Qed.
Print Assumptions C88_length.

Theorem C88_lengths : forall d primary p m, primary = N4 \/ primary = N4Bar -> 0 < m -> p <> mkv 0 0 0 -> hnl_mass d <> 0 ->
  d_e d <> 0 -> d_mu d <> 0 -> d_tau d <> 0 ->
  exists all ls, decay_length (width_all d) p m = Some all /\
  map (fun s => decay_length (width d s) p m) (signatures_from primary) = map Some ls /\
  0 <> all /\ / all = sum (map Rinv ls).
Proof.
  intros d primary p m K H N M E1 E2 E3. pose proof (vlength_pos p N) as L.
  pose proof (C88_widths d primary K) as [_ [_ [_ S]]].
  exists (vlen p / m * (1 / width_all d) * hbarc), (map (fun s => vlen p / m * (1 / width d s) * hbarc) (signatures_from primary)).
  split; [apply C88_length; auto|]. split; [rewrite map_map; apply map_ext; intros; apply C88_length; auto|].
  assert (HB : hbarc <> 0) by (unfold hbarc; apply Rgt_not_eq; repeat apply Rmult_lt_0_compat; lra).
  assert (W : 0 <> hnl_mass d ^ 3 / (4 * c_pi)).
  { unfold c_pi. pose proof PI_RGT_0. apply not_eq_sym. unfold Rdiv. apply Rmult_integral_contrapositive_currified; [apply pow_nonzero; auto|apply Rinv_neq_0_compat; lra]. }
  set (k := hnl_mass d ^ 3 / (4 * c_pi)) in *. pose proof (not_eq_sym W) as W'.
  assert (WA : width_all d = (d_e d * d_e d + d_mu d * d_mu d + d_tau d * d_tau d) * k) by (unfold width_all, k; cbn; unfold Rdiv; ring).
  assert (A0 : width_all d <> 0).
  { rewrite WA. apply Rmult_integral_contrapositive_currified; [|auto]. assert (0 < d_e d * d_e d) by nra. nra. }
  change (vlen p) with (vlength p). split.
  - apply not_eq_sym. repeat apply Rmult_integral_contrapositive_currified; auto; try lra; apply Rinv_neq_0_compat; lra.
  - rewrite <- S. assert (FW : Forall (fun s => width d s <> 0) (signatures_from primary)).
    { assert (Q : forall c, c <> 0 -> c * c * hnl_mass d ^ 3 / (4 * c_pi) * 1 <> 0).
      { intros c C. replace (c * c * hnl_mass d ^ 3 / (4 * c_pi) * 1) with (c * c * k) by (unfold k, Rdiv; ring).
        apply Rmult_integral_contrapositive_currified; [apply Rmult_integral_contrapositive_currified|]; assumption. }
      destruct K as [-> | ->]; (apply Forall_cons; [apply (Q _ E1)|apply Forall_cons; [apply (Q _ E2)|apply Forall_cons; [apply (Q _ E3)|apply Forall_nil]]]). }
    assert (G : / (vlength p / m * (1 / sum (map (width d) (signatures_from primary))) * hbarc) = sum (map (width d) (signatures_from primary)) * (m / (vlength p * hbarc))).
    { rewrite S. field. repeat split; auto; lra. }
    rewrite G. clear G S. rewrite map_map. induction FW as [|s l Ws _ IH]; cbn; [ring|]. fold (sum (map (width d) l)).
    fold (sum (map (fun s => / (vlength p / m * (1 / width d s) * hbarc)) l)). rewrite <- IH. field. repeat split; auto; lra.
Qed.
Print Assumptions C88_lengths.

(** The total width does not depend on the parent; a parent without signatures has one too. *)
Theorem C88_other_parent_refuted : exists d primary, sum (map (width d) (signatures_from primary)) <> width_all d.
Proof.
  exists (mkdipole 1 1 0 0 Dirac), (OtherType 7). unfold width_all; cbn. unfold c_pi. pose proof PI_RGT_0.
  assert (0 < (0 + 1 * 1 + 0 * 0 + 0 * 0) * (1 * (1 * (1 * 1))) / (4 * PI) * 1); [|lra]. apply Rmult_lt_0_compat; [|lra]. apply Rdiv_lt_0_compat; lra.
Qed.
Print Assumptions C88_other_parent_refuted.

Example C88_case : let d := mkdipole 2 1 2 3 Dirac in
  sum (map (width d) (signatures_from N4Bar)) = 28 / PI /\ exists x, decay_length (width_all d) (mkv 3 0 4) 2 = Some x /\ x = 5 * PI / 56 * hbarc.
Proof.
  intros d. assert (W : width_all d = 28 / PI).
  { unfold width_all, c_pi; cbn. pose proof PI_RGT_0. field. lra. }
  rewrite (proj2 (proj2 (proj2 (C88_widths d N4Bar (or_intror eq_refl))))). split; auto. rewrite C88_length by lra. eexists; split; [reflexivity|].
  rewrite W. pose proof PI_RGT_0. unfold vlen, vdot. cbn. replace (3 * 3 + 0 * 0 + 4 * 4) with (Rsqr 5) by (unfold Rsqr; ring). rewrite sqrt_Rsqr by lra. field. lra.
Qed.
