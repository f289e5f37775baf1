(** Properties C94 and C95. *)
From Coquelicot Require Import Coquelicot.
From Coq Require Import Reals Bool List Lra Lia Psatz.
From Verif Require Import VectorModel RkModel RkSpec RkProofs RandomModel DipoleModel DipoleSpec DipoleProofs TurnModel TurnProofs HnlModel HnlSpec HnlProofs.
Import ListNotations.
Open Scope R_scope.

(** ** C94 *)

Lemma sampler_index s l x : lepton_meson s l x ->
  sampler_lepton l = true /\ hs_at s (sampler_lep_index s) = l /\ hs_at s (1 - sampler_lep_index s) = x /\ width_lep_index s = sampler_lep_index s.
Proof.
  intros [Q [[f L] [X NL]]].
  assert (SL : sampler_lepton l = true) by (destruct L as [->|[->|[->| ->]]]; reflexivity).
  assert (SX : sampler_lepton x = false).
  { destruct x; try reflexivity; exfalso; destruct (X f0) as [? [? [? ?]]]; congruence. }
  assert (WX : width_lepton x = false) by (destruct x; try congruence; exact SX).
  assert (WL : width_lepton l = true) by (destruct L as [->|[->|[->| ->]]]; reflexivity).
  split; auto. unfold width_lep_index, sampler_lep_index, hs_at. destruct Q as [-> | ->]; cbn [nth]; rewrite ?SL, ?SX, ?WL, ?WX; cbn; auto.
Qed.

Theorem C94_kept : forall mass_of o d s h p u1 u2 l x mX mL, lepton_meson s l x ->
  mass_of x = Some mX -> mass_of l = Some mL -> 0 <= mX -> 0 <= mL -> 0 < n_mass d -> mX + mL <= n_mass d -> 0 <= u1 <= 1 ->
  exists r pX pL, hnl_sample2 mass_of o d s h p (n_mass d) u1 u2 = Some (r, pX, pL) /\
  kept p (n_mass d) mX mL pX pL /\
  exists i j, nth_error (hs_secondary s) i = Some x /\ nth_error (hr_secondaries r) i = Some (pp pX, mX) /\
              nth_error (hs_secondary s) j = Some l /\ nth_error (hr_secondaries r) j = Some (pp pL, mL) /\ (i + j = 1)%nat.
Proof.
  intros mass_of o d s h p u1 u2 l x mX mL LM EX EL HX HL H K U. destruct (sampler_index s l x LM) as [SL [IL [IX _]]].
  pose proof (hnl_cos_range d _ u1 (hnl_alpha_bound d s x h H) U) as C.
  destruct (hnl_products_eq o d p mX mL _ u2 C H HX HL K) as [b [_ [B E]]].
  destruct (rest_meson_ok o d p mX mL _ u2 C H HX HL K) as [S [M [EE Q]]].
  destruct (rest_energy _ _ _ H HX HL K) as [K1 [K2 K3]].
  unfold hnl_sample2. rewrite IL, IX, EX, EL, SL, E. eexists _, _, _. split; [reflexivity|].
  assert (KP : kept p (n_mass d) mX mL (p4_boost b (rest_meson o d p mX mL (hnl_cos d (hnl_alpha d s x h) u1) u2))
     (p4_of (vsub p (pp (p4_boost b (rest_meson o d p mX mL (hnl_cos d (hnl_alpha d s x h) u1) u2)))) mL)).
  { rewrite <- M at 1. apply pair_kept; auto; rewrite EE, ?Q; [lra|exact K3]. }
  split; [exact KP|]. destruct KP as [MA [MB _]]. cbn [hr_secondaries]. rewrite MA, MB.
  unfold sampler_lep_index, hs_at in *. destruct LM as [[LS|LS] _]; rewrite LS in *; cbn [nth] in *.
  - rewrite SL in *. cbn. exists 1%nat, 0%nat. cbn. auto.
  - destruct (sampler_lepton x) eqn:SX.
    + cbn in IL, IX. subst l. cbn. exists 1%nat, 0%nat. cbn. auto.
    + cbn. exists 0%nat, 1%nat. cbn. auto.
Qed.
Print Assumptions C94_kept.

(** The three neutrinos share the momentum. *)
Theorem C94_three_momenta : forall p m, fold_right vadd (mkv 0 0 0) (map pp (hnl_three_neutrinos p m)) = p.
Proof. intros. cbn. apply veq; cbn; field. Qed.
Print Assumptions C94_three_momenta.

(** The three neutrinos of an invisible decay have the momentum as energy: the mass of the parent is lost. *)
Theorem C94_three_neutrinos_refuted : exists p m, 0 < m /\ fold_right Rplus 0 (map pe (hnl_three_neutrinos p m)) <> energy p m.
Proof.
  exists (mkv 0 0 0), 1. split; [lra|]. cbn. unfold energy, vdot, length_squared. cbn.
  replace (_ + (1 / 3 * 0 * (1 / 3 * 0) + _ + _)) with 0 by ring. rewrite sqrt_0. replace (1 * 1 + _) with 1 by ring. rewrite sqrt_1. lra.
Qed.
Print Assumptions C94_three_neutrinos_refuted.

(** Below threshold the square root is of a negative number. *)
Theorem C94_threshold_refuted : exists mass_of o d s h p u1 u2, 0 < n_mass d /\ lepton_meson s (HMinus FlE) (HOther 211) /\
  mass_of (HMinus FlE) = Some (1 / 2) /\ mass_of (HOther 211) = Some 1 /\
  hnl_sample2 mass_of o d s h p (n_mass d) u1 u2 = None.
Proof.
  exists (fun t => match t with HMinus FlE => Some (1 / 2) | _ => Some 1 end), AbsDouble, (mkhnl 1 Dirac), (mkhsig HN4 [HMinus FlE; HOther 211]), 1, (mkv 0 3 0), (1 / 2), (1 / 2).
  split; [cbn; lra|]. split.
  { split; [left; reflexivity|]. split; [exists FlE; auto|]. split; [intros; repeat split; discriminate|discriminate]. }
  split; [reflexivity|]. split; [reflexivity|]. unfold hnl_sample2. cbn [sampler_lep_index hs_at hs_secondary nth sampler_lepton Nat.sub].
  unfold hnl_products. destruct (lab_is (p4_of (mkv 0 3 0) 1) (p4_of_shell _ 1 (Rlt_le _ _ Rlt_0_1)) Rlt_0_1) as [b [E _]]. cbn [n_mass]. rewrite E.
  destruct (Rlt_dec _ 0) as [_|N]; [reflexivity|]. exfalso. apply N. lra.
Qed.
Print Assumptions C94_threshold_refuted.

(** A particle of mass 5, momentum 12 along y, decaying to particles of masses 2 and 3/2. *)
Example C94_case : let mass_of := fun t => match t with HMinus FlMu => Some (3 / 2) | HOther _ => Some 2 | _ => None end in
  let d := mkhnl 5 Dirac in let s := mkhsig HN4 [HMinus FlMu; HOther 211] in
  exists r pX pL, hnl_sample2 mass_of AbsDouble d s (- (1)) (mkv 0 12 0) 5 (1 / 4) (1 / 3) = Some (r, pX, pL) /\
  pe pX + pe pL = 13 /\ vadd (pp pX) (pp pL) = mkv 0 12 0 /\ pm pX = 2 /\ pm pL = 3 / 2 /\ nth_error (hr_secondaries r) 0 = Some (pp pL, 3 / 2).
Proof.
  intros mass_of d s. assert (LM : lepton_meson s (HMinus FlMu) (HOther 211)).
  { split; [left; reflexivity|]. split; [exists FlMu; auto|]. split; [intros; repeat split; discriminate|discriminate]. }
  destruct (C94_kept mass_of AbsDouble d s (- (1)) (mkv 0 12 0) (1 / 4) (1 / 3) _ _ 2 (3 / 2) LM eq_refl eq_refl) as [r [pX [pL [E [[K1 [K2 [_ [_ [K5 K6]]]]] [i [j [I1 [I2 [J1 [J2 S]]]]]]]]]]]; try lra; try (cbn; lra).
  exists r, pX, pL. split; [exact E|]. split.
  { rewrite K5. unfold energy, vdot. cbn. replace (_ + _) with (Rsqr 13) by (unfold Rsqr; ring). apply sqrt_Rsqr; lra. }
  split; [exact K6|]. split; [exact K1|]. split; [exact K2|]. destruct j as [|[|j]]; [exact J2|cbn in J1; discriminate|lia].
Qed.

(** ** C95 *)

(** The cosine is drawn from the distribution of the asymmetry the code works with, whose size is
    the right one; where the asymmetry is less than 1e-12 it is drawn flat, which is as close. *)
Theorem C95_drawn : forall d s x h u, 0 < n_mass d -> 0 <= u <= 1 ->
  let alpha := hnl_sign (hs_primary s) h * Rabs (get_alpha d x) in
  let c := hnl_cos d (hnl_alpha d s x h) u in
  -1 <= c <= 1 /\
  (n_nature d = Majorana \/ / 10 ^ 12 <= Rabs (get_alpha d x) ->
     forall t, -1 <= t <= 1 -> (c <= t <-> u <= angular_cdf (n_nature d) alpha t)) /\
  Rabs (angular_cdf (n_nature d) alpha c - u) <= / 10 ^ 12.
Proof.
  intros d s x h u H U alpha c. pose proof (hnl_alpha_bound d s x h H) as A. pose proof (hnl_cos_range d _ u A U) as C. fold c in C.
  assert (EA : hnl_alpha d s x h = alpha) by apply hnl_alpha_sign. split; [exact C|]. 
  assert (EAA : Rabs alpha = Rabs (get_alpha d x)) by (rewrite <- EA; apply hnl_alpha_abs).
  assert (P12 : 0 < / 10 ^ 12) by (apply Rinv_0_lt_compat, pow_lt; lra).
  assert (L : n_nature d = Majorana \/ / 10 ^ 12 <= Rabs (get_alpha d x) -> forall t, -1 <= t <= 1 -> (c <= t <-> u <= angular_cdf (n_nature d) alpha t)).
  { intros K t T. rewrite cdf_formula. unfold c, hnl_cos. rewrite EA in *. destruct (n_nature d).
    - destruct K as [K|K]; [discriminate|]. rewrite EAA. destruct (Rlt_dec _ _); [lra|]. rewrite uniform_01. apply tilted; auto.
      intros Z. rewrite Z, Rabs_R0 in EAA. rewrite <- EAA in K. lra.
    - rewrite uniform_sym. lra. }
  split; [exact L|]. destruct (n_nature d) eqn:ND.
  - destruct (Rlt_dec (Rabs alpha) (/ 10 ^ 12)) as [Z|Z].
    + rewrite cdf_formula. assert (EC : c = 2 * u - 1).
      { unfold c, hnl_cos. rewrite ND, EA, uniform_sym. destruct (Rlt_dec _ _); [reflexivity|contradiction]. }
      rewrite EC. replace ((2 * u - 1 + 1) / 2 + alpha * ((2 * u - 1) * (2 * u - 1) - 1) / 4 - u) with (alpha * (u * u - u)) by field.
      rewrite Rabs_mult. apply Rle_trans with (Rabs alpha * 1); [|lra]. apply Rmult_le_compat_l; [apply Rabs_pos|]. apply Rabs_le. nra.
    + assert (Z' : / 10 ^ 12 <= Rabs (get_alpha d x)) by lra. pose proof (L (or_intror Z')) as L'.
      destruct (L' c C) as [L1 _]. pose proof (L1 (Rle_refl _)) as GE.
      assert (LE : angular_cdf Dirac alpha c <= u).
      { destruct (Rle_dec (angular_cdf Dirac alpha c) u) as [?|NL]; auto. exfalso. apply Rnot_le_lt in NL.
        (* take a smaller cosine: still enough probability below it *)
        rewrite cdf_formula in NL. 
        assert (CM : -1 < c). { destruct (Req_dec c (- (1))) as [E1|E1]; [|lra]. rewrite E1 in NL. replace (_ + _) with 0 in NL by field. lra. }
        set (gap := (c + 1) / 2 + alpha * (c * c - 1) / 4 - u) in *. assert (G : 0 < gap) by (unfold gap; lra).
        set (e := Rmin gap (c + 1)). assert (Ee : 0 < e <= gap /\ e <= c + 1).
        { unfold e. pose proof (Rmin_l gap (c + 1)). pose proof (Rmin_r gap (c + 1)). pose proof (Rmin_glb_lt gap (c + 1) 0 G). lra. }
        specialize (L' (c - e) ltac:(lra)). destruct L' as [_ L2].
        assert (c <= c - e); [|lra]. apply L2. rewrite cdf_formula.
        rewrite EA in A. assert (J : Rabs (alpha * (2 * c - e)) <= 2).
        { rewrite Rabs_mult. replace 2 with (1 * 2) at 2 by ring. apply Rmult_le_compat; try apply Rabs_pos; apply Rabs_le; lra. }
        apply Rabs_le_between in J.
        replace ((c - e + 1) / 2 + alpha * ((c - e) * (c - e) - 1) / 4) with (gap + u - e / 2 - e * (alpha * (2 * c - e)) / 4) by (unfold gap; field).
        assert (e * (alpha * (2 * c - e)) <= e * 2) by (apply Rmult_le_compat_l; lra). lra. }
      rewrite Rabs_right by lra. lra.
  - rewrite cdf_formula. unfold c, hnl_cos. rewrite ND, uniform_sym. replace (_ - u) with 0 by field. rewrite Rabs_R0. lra.
Qed.
Print Assumptions C95_drawn.

(** The density evaluated at a sampled record is the one its cosine was drawn from: for a moving
    particle whose direction is not almost along the x axis, above threshold. *)
Theorem C95_weight : forall mass_of d s h p u1 u2 l x mX mL w, lepton_meson s l x ->
  mass_of x = Some mX -> mass_of l = Some mL -> 0 <= mX -> 0 <= mL -> 0 < n_mass d -> mX + mL < n_mass d -> 0 <= u1 <= 1 -> w <> 0 ->
  (n_nature d = Majorana \/ (p <> mkv 0 0 0 /\ clear_of_x p)) ->
  exists r pX pL, hnl_sample2 mass_of AbsDouble d s h p (n_mass d) u1 u2 = Some (r, pX, pL) /\
  hnl_probability2 w d r = Some (angular_density (n_nature d) (hnl_sign (hs_primary s) h * Rabs (get_alpha d x)) (hnl_cos d (hnl_alpha d s x h) u1)).
Proof.
  intros mass_of d s h p u1 u2 l x mX mL w LM EX EL HX HL H K U W NC. destruct (sampler_index s l x LM) as [SL [IL [IX WI]]].
  pose proof (hnl_cos_range d _ u1 (hnl_alpha_bound d s x h H) U) as C.
  destruct (hnl_products_eq AbsDouble d p mX mL _ u2 C H HX HL (Rlt_le _ _ K)) as [b [EB [B E]]].
  destruct (rest_is (p4_of p (n_mass d)) (p4_of_shell p _ (Rlt_le _ _ H)) H) as [rb [R _]].
  unfold hnl_sample2. rewrite IL, IX, EX, EL, SL, E. eexists _, _, _. split; [reflexivity|].
  rewrite <- hnl_alpha_sign. unfold hnl_probability2, hnl_width2. destruct (n_nature d) eqn:ND.
  - destruct NC as [?|[N CL]]; [discriminate|]. cbn [hr_sig hr_momentum hr_mass hr_helicity hr_secondaries]. rewrite R, WI, IX.
    set (c := hnl_cos _ _ _) in *. set (PX := p4_boost b _). set (PL := p4_of (vsub p (pp PX)) mL).
    assert (X : nth (1 - sampler_lep_index s) (if Nat.eqb (1 - sampler_lep_index s) 0 then [(pp PX, pm PX); (pp PL, pm PL)] else [(pp PL, pm PL); (pp PX, pm PX)]) (mkv 0 0 0, 0) = (pp PX, pm PX)).
    { unfold sampler_lep_index. destruct (sampler_lepton (hs_at s 0)); reflexivity. }
    rewrite X. unfold PX. rewrite (hnl_evaluated d p mX mL c u2 b rb C H HX HL K N CL EB R).
    set (al := hnl_alpha d s x h). f_equal. unfold angular_density. destruct (Req_EM_T _ 0) as [Z|Z].
    + apply Rmult_integral in Z. destruct Z as [Z|Z]; [exfalso; apply W; lra|lra].
    + destruct (Req_EM_T w 0); [contradiction|]. field. auto.
  - destruct (Req_EM_T _ 0); [exfalso; apply W; lra|]. destruct (Req_EM_T _ 0); [contradiction|]. f_equal. cbn. field. auto.
Qed.
Print Assumptions C95_weight.

(** The size of the asymmetry: full for a pseudoscalar, the one of the masses for a vector. *)
Theorem C95_size : forall d, get_alpha d HPi0 = 1 /\ get_alpha d HEta = 1 /\ get_alpha d HEtaPrime = 1 /\
  get_alpha d HRho0 = vector_asymmetry (n_mass d) rho0_mass /\ get_alpha d HOmega = vector_asymmetry (n_mass d) omega_mass /\
  get_alpha d HPhi = vector_asymmetry (n_mass d) phi_mass /\ get_alpha d HKPrime0 = vector_asymmetry (n_mass d) kprime0_mass /\
  get_alpha d HZ0 = vector_asymmetry (n_mass d) z_mass.
Proof.
  intros d. assert (V : forall m, (n_mass d * n_mass d - 2 * m * m) / (n_mass d * n_mass d + 2 * m * m) = vector_asymmetry (n_mass d) m).
  { intros m. unfold vector_asymmetry. replace (n_mass d ^ 2) with (n_mass d * n_mass d) by ring. replace (2 * m ^ 2) with (2 * m * m) by ring. reflexivity. }
  repeat split; cbn; try apply V; reflexivity.
Qed.
Print Assumptions C95_size.

(** The sign of the asymmetry is overwritten by the one of the helicity: wrong for a vector meson of more than 0.7 times the parent's mass. *)
Theorem C95_sign_refuted : exists d s h u t, n_nature d = Dirac /\ hs_primary s = HN4 /\ rho0_mass < n_mass d /\ 0 <= u <= 1 /\ -1 <= t <= 1 /\
  ~ (hnl_cos d (hnl_alpha d s HRho0 h) u <= t <-> u <= angular_cdf Dirac (hnl_sign HN4 h * vector_asymmetry (n_mass d) rho0_mass) t).
Proof.
  set (d := mkhnl 1 Dirac). set (s := mkhsig HN4 [HNu FlE; HRho0]). exists d, s, (- (1)), (1 / 2), 0.
  assert (H : 0 < n_mass d) by (cbn; lra). assert (U : 0 <= 1 / 2 <= 1) by lra.
  split; [reflexivity|]. split; [reflexivity|]. split; [cbn; unfold rho0_mass; lra|]. split; [lra|]. split; [lra|].
  assert (AV : vector_asymmetry (n_mass d) rho0_mass < - / 20) by (unfold vector_asymmetry, rho0_mass; cbn [n_mass d]; lra).
  assert (GA : get_alpha d HRho0 = vector_asymmetry (n_mass d) rho0_mass) by apply (C95_size d).
  assert (AB : Rabs (get_alpha d HRho0) = - vector_asymmetry (n_mass d) rho0_mass) by (rewrite GA, Rabs_left; lra).
  assert (SG : hnl_sign HN4 (- (1)) = 1) by (unfold hnl_sign; destruct (Rlt_dec _ _); lra).
  destruct (C95_drawn d s HRho0 (- (1)) (1 / 2) H U) as [_ [L _]].
  assert (BIG : / 10 ^ 12 <= Rabs (get_alpha d HRho0)) by (rewrite AB; lra).
  specialize (L (or_intror BIG) 0 ltac:(lra)). rewrite AB in L. cbn [hs_primary s n_nature d] in L. rewrite SG in *.
  intros X. rewrite L in X. rewrite !cdf_formula in X. set (v := vector_asymmetry _ _) in *. clearbody v. lra.
Qed.
Print Assumptions C95_sign_refuted.

(** A decay to a pion: the draw 1/4 gives cosine 0, density one half. *)
Example C95_case : let mass_of := fun t => match t with HNu FlMu => Some 0 | HPi0 => Some (135 / 1000) | _ => None end in
  let d := mkhnl 1 Dirac in let s := mkhsig HN4Bar [HNu FlMu; HPi0] in
  lepton_meson s (HNu FlMu) HPi0 /\ (mkv 0 3 0 <> mkv 0 0 0 /\ clear_of_x (mkv 0 3 0)) /\
  exists r pX pL, hnl_sample2 mass_of AbsDouble d s 1 (mkv 0 3 0) 1 (1 / 4) (1 / 3) = Some (r, pX, pL) /\ hnl_probability2 7 d r = Some (1 / 2).
Proof.
  intros mass_of d s. assert (LM : lepton_meson s (HNu FlMu) HPi0).
  { split; [left; reflexivity|]. split; [exists FlMu; auto|]. split; [intros; repeat split; discriminate|discriminate]. }
  assert (N : mkv 0 3 0 <> mkv 0 0 0) by (intros X; injection X; intros; lra).
  assert (C : clear_of_x (mkv 0 3 0)) by (right; cbn [vx]; unfold Rdiv; rewrite Rmult_0_l; lra).
  split; auto. split; auto.
  destruct (C95_weight mass_of d s 1 (mkv 0 3 0) (1 / 4) (1 / 3) _ _ (135 / 1000) 0 7 LM eq_refl eq_refl) as [r [pX [pL [E F]]]]; try lra; try (cbn; lra); auto.
  exists r, pX, pL. split; [exact E|]. rewrite F. f_equal. cbn [n_nature d angular_density].
  assert (A : hnl_alpha d s HPi0 1 = 1) by (unfold hnl_alpha, copysign; cbn; rewrite Rabs_R1; destruct (Rlt_dec 1 0); lra).
  rewrite A. unfold hnl_cos. cbn [n_nature d]. rewrite Rabs_R1. destruct (Rlt_dec 1 _) as [Z|_]; [exfalso; lra|].
  rewrite uniform_01, cos_dirac_plus by lra. replace (1 / 4) with (Rsqr (1 / 2)) by (unfold Rsqr; field). rewrite sqrt_Rsqr by lra. field.
Qed.
