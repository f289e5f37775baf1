(** Properties C183 to C186: heavy neutral leptons from deep inelastic scattering. *)
From Coq Require Import Reals List Bool ZArith Lra Psatz Lia.
From Verif Require Import RandomModel HdisModel HdisSpec HdisProofs.
Import ListNotations.
Open Scope R_scope.

Lemma can_make_iff E M m : 0 < E -> 0 < M -> 0 <= m -> (can_make E M m <-> (m + M) ^ 2 <= M * M + 2 * M * E).
Proof.
  intros HE HM Hm. unfold can_make. replace ((E + M) ^ 2 - E ^ 2) with (M * M + 2 * M * E) by ring.
  assert (P : 0 <= M * M + 2 * M * E) by nra. pose proof (sqrt_pos (M * M + 2 * M * E)). pose proof (sqrt_sqrt _ P). split; intros; nra.
Qed.

(** ** C183: the total cross section *)

(** C183: the threshold is the energy from which lepton and isoscalar nucleon can be made. *)
Theorem C183_threshold c E : 0 < E -> 0 <= h_mass c -> (h_threshold c <= E <-> can_make E iso_mass (h_mass c)).
Proof. intros HE Hm. rewrite can_make_iff by (auto using iso_pos). now apply threshold_iff. Qed.
Print Assumptions C183_threshold.

(** C183: the total cross section is nothing where the lepton cannot be made; otherwise it is the value of the spline times the squared coupling of
    the family, for listed primaries and energies of the table, and an error for others. *)
Theorem C183_total c t i E : 0 < E -> 0 <= h_mass c -> family t i ->
  (~ can_make E iso_mass (h_mass c) -> h_total_record c t E = Some 0) /\
  (can_make E iso_mass (h_mass c) -> forall s, h_total_record c t E = Some s <->
     In t (h_primaries c) /\ h_lo c <= log10 E <= h_hi c /\ s = h_coupling c i ^ 2 * (h_unit c * Rpower 10 (h_total c (log10 E)))).
Proof.
  intros HE Hm F. rewrite <- C183_threshold by auto. unfold h_total_record. split.
  - intros N. destruct (Rlt_dec E (h_threshold c)); [auto|lra].
  - intros N s. destruct (Rlt_dec E (h_threshold c)); [lra|]. unfold h_total_xs. rewrite (norm_family _ _ _ F).
    destruct (existsb (Z.eqb t) (h_primaries c)) eqn:Ex; cbn [negb].
    + apply existsb_exists in Ex. destruct Ex as (z & I & Q). apply Z.eqb_eq in Q. subst z.
      destruct (Rlt_dec (log10 E) (h_lo c)); [split; [discriminate|intros (_ & ? & _); lra]|].
      destruct (Rlt_dec (h_hi c) (log10 E)); [split; [discriminate|intros (_ & ? & _); lra]|]. rewrite Rmult_assoc. split.
      * intros H. split; [auto|]. split; [lra|]. congruence.
      * intros (_ & _ & ->). reflexivity.
    + split; [discriminate|]. intros (I & _). exfalso. assert (existsb (Z.eqb t) (h_primaries c) = true) by (apply existsb_exists; exists t; split; [auto|apply Z.eqb_refl]). congruence.
Qed.
Print Assumptions C183_total.

(** A muon neutrino of 1.52 GeV and a lepton of 1 GeV; target mass and class are left open. *)
Definition one (dipole : bool) (M : R) : hdis :=
  mkhdis dipole [14%Z] [1000080160%Z] 1 (fun i => match i with 1%nat => 3 | _ => 0 end) M 0 1
         (log10 (152 / 100)) (log10 (152 / 100)) (fun _ => 0) (log10 (152 / 100)) (log10 (152 / 100)) (fun _ _ _ => true) (fun _ _ _ => 0).
Lemma one_below M b : 152 / 100 < h_threshold (one b M).
Proof.
  unfold h_threshold. cbn [h_mass one]. unfold iso_mass. set (I := / 2 * (938272 / 10 ^ 6 + 939565 / 10 ^ 6)). assert (HI : I = 9389185 / 10 ^ 7) by (unfold I; lra).
  rewrite HI. lra.
Qed.
(** Ten GeV, the same lepton, any class. *)
Definition high (dipole : bool) (g : R) : hdis :=
  mkhdis dipole [14%Z] [1000080160%Z] 1 (fun i => match i with 1%nat => g | _ => 0 end) iso_mass 0 1
         (log10 10) (log10 10) (fun _ => 0) (log10 10) (log10 10) (fun _ _ _ => true) (fun _ _ _ => 0).
Lemma high_above b g : h_threshold (high b g) <= 10.
Proof.
  unfold h_threshold. cbn [h_mass high]. unfold iso_mass. set (I := / 2 * (938272 / 10 ^ 6 + 939565 / 10 ^ 6)). assert (HI : I = 9389185 / 10 ^ 7) by (unfold I; lra).
  rewrite HI. lra.
Qed.
Example C183_case b : h_total_record (high b 3) 14 10 = Some (9 * 1).
Proof.
  apply (C183_total (high b 3) 14 1 10); cbn [h_mass h_primaries h_lo h_hi h_coupling h_unit h_total high]; try lra; [split; [lia|reflexivity]| |].
  - apply (C183_threshold (high b 3)); cbn [h_mass high]; try lra. apply high_above.
  - split; [now left|]. split; [lra|]. rewrite Rpower_O by lra. ring.
Qed.

(** Finding (C183): below the threshold a primary that the cross section does not support gets the cross section zero instead of the error (HNLDISFromSpline.cxx:258-265). *)
Theorem C183_unsupported_refuted : exists c t E, ~ In t (h_primaries c) /\ h_total_xs c t E = None /\ h_total_record c t E = Some 0.
Proof.
  exists (one false 1), 12%Z, (152 / 100). split; [cbn; intuition lia|]. split; [reflexivity|]. unfold h_total_record.
  pose proof (one_below 1 false). destruct (Rlt_dec _ _); [auto|lra].
Qed.
Print Assumptions C183_unsupported_refuted.

(** ** C184: the check of the kinematics *)

(** C184: the check of HNLDISFromSpline accepts the points that some lepton of real momentum has, and no others. *)
Theorem C184_exact x y E M m : 0 < E -> 0 < M -> 0 <= m -> 0 < x < 1 -> 0 < y < 1 ->
  (mixing_allowed x y E M m = true <-> exists e kl kt, leaves E M m x y e kl kt).
Proof. intros. rewrite mixing_iff, leaves_iff by auto. reflexivity. Qed.
Print Assumptions C184_exact.

(** C184: the check of either class accepts only such points. *)
Theorem C184_sound c x y E : 0 < E -> 0 < h_target_mass c -> 0 <= h_mass c -> 0 < x < 1 -> 0 < y < 1 -> h_allowed c x y E = true ->
  exists e kl kt, leaves E (h_target_mass c) (h_mass c) x y e kl kt /\ h_mass c <= e.
Proof.
  intros HE HM Hm Hx Hy H. apply allowed_mixing in H; auto. apply C184_exact in H; auto. destruct H as (e & kl & kt & H). exists e, kl, kt. split; auto.
  destruct H as (-> & H & _). assert (0 < (1 - y) * E) by (apply Rmult_lt_0_compat; lra). pose proof (pow2_ge_0 kl). pose proof (pow2_ge_0 kt). nra.
Qed.
Print Assumptions C184_sound.

(** C184: it accepts nothing below the energy from which the lepton and the target can be made. *)
Theorem C184_threshold c x y E : 0 < E -> 0 < h_target_mass c -> 0 <= h_mass c -> 0 < x < 1 -> 0 < y < 1 -> h_allowed c x y E = true ->
  can_make E (h_target_mass c) (h_mass c).
Proof.
  intros HE HM Hm Hx Hy H. apply allowed_mixing in H; auto. apply mixing_iff in H; auto. apply good_side in H; auto. apply side_energy in H; auto.
  apply can_make_iff; auto. destruct H. apply (above_threshold _ _ _ x); auto; lra.
Qed.
Print Assumptions C184_threshold.

Lemma high_point : dipole_allowed (13 / 20) (2 / 5) 10 1 1 = true.
Proof.
  unfold dipole_allowed. cbv zeta. destruct (Rle_dec _ 0); [lra|]. destruct (Req_EM_T 10 1); [lra|]. destruct (Rlt_dec (13 / 20) _); [lra|]. destruct (Rlt_dec 1 (13 / 20)); [lra|].
  destruct (Rlt_dec _ 0); [lra|]. match goal with |- context [sqrt ?a] => assert (S1 : 7 / 10 <= sqrt a) by (rewrite <- (sqrt_square (7 / 10)) by lra; apply sqrt_le_1_alt; lra) end.
  match goal with |- context [sqrt ?a] => set (sq := sqrt a) in * end. clearbody sq.
  destruct (Rlt_dec (2 / 5) _); [exfalso; lra|]. destruct (Rlt_dec _ (2 / 5)); [exfalso; lra|reflexivity].
Qed.
Example C184_case : exists e kl kt, leaves 10 1 1 (13 / 20) (2 / 5) e kl kt.
Proof.
  destruct (C184_sound (mkhdis true [14%Z] [] 1 (fun _ => 1) 1 0 1 0 0 (fun _ => 0) 0 0 (fun _ _ _ => true) (fun _ _ _ => 0)) (13 / 20) (2 / 5) 10) as (e & kl & kt & H & _); cbn; try lra.
  - exact high_point.
  - exists e, kl, kt. exact H.
Qed.

(** C184: the check of the dipole class, whose recoil energy leaves out the mass of the target (HNLDipoleDISFromSpline.cxx:45-47), accepts nothing in the lower half of x. *)
Theorem C184_dipole_x x y E M m : 0 < E -> 0 < M -> 0 < x -> 0 < y < 1 -> dipole_allowed x y E M m = true -> 1 / 2 < x.
Proof. apply dipole_high_x. Qed.
Print Assumptions C184_dipole_x.

(** Finding (C184): the check of the dipole class rejects points that a lepton can have: a lepton of 0.1 GeV from 100 GeV at x = 0.1, y = 0.5, like every point with x up to one half at any energy (HNLDipoleDISFromSpline.cxx:45-47, the recoil energy without the mass of the target). *)
Theorem C184_dipole_refuted : exists x y E M m, 0 < x < 1 /\ 0 < y < 1 /\ 0 < M /\ 0 < m < E /\
  (exists e kl kt, leaves E M m x y e kl kt) /\ dipole_allowed x y E M m = false.
Proof.
  exists (1 / 10), (1 / 2), 100, 1, (1 / 10). repeat split; try lra.
  - apply C184_exact; try lra. apply mixing_iff; lra.
  - destruct (dipole_allowed _ _ _ _ _) eqn:H; auto. apply dipole_high_x in H; lra.
Qed.
Print Assumptions C184_dipole_refuted.

(** ** C185: the probability of a final state *)

(** C185: with the isoscalar target mass, where the differential cross section is not zero the probability is the quotient of the two splines: no coupling and no unit is left. *)
Theorem C185_quotient c t i E x y q : 0 < E -> 0 <= h_mass c -> h_target_mass c = iso_mass -> family t i -> In t (h_primaries c) -> h_lo c <= log10 E <= h_hi c ->
  h_diff_xs c t E x y q <> 0 ->
  h_probability c t E x y q = Some (Rpower 10 (h_diff c (log10 E) (log10 x) (log10 y)) / Rpower 10 (h_total c (log10 E))).
Proof.
  intros HE Hm HM F I L N. destruct (diff_nonzero _ _ _ _ _ _ N) as (_ & X & Y & _ & A & _ & V). unfold h_probability. cbv zeta.
  assert (Th : can_make E iso_mass (h_mass c)). { rewrite <- HM. apply (C184_threshold c x y E); auto. rewrite HM. apply iso_pos. }
  assert (T : h_total_record c t E = Some (h_coupling c i ^ 2 * (h_unit c * Rpower 10 (h_total c (log10 E))))) by (apply (C183_total c t i E HE Hm F); auto).
  rewrite T. rewrite (norm_family _ _ _ F) in V. set (a := Rpower 10 (h_diff _ _ _ _)) in *. set (b := Rpower 10 (h_total _ _)) in *.
  assert (B : b <> 0) by (unfold b, Rpower; pose proof (exp_pos (h_total c (log10 E) * ln 10)); lra). clearbody a b.
  assert (K : h_coupling c i ^ 2 <> 0) by (intros Z; apply N; rewrite V, Z; ring). assert (U : h_unit c <> 0) by (intros Z; apply N; rewrite V, Z; ring).
  destruct (Req_EM_T _ 0); [contradiction|]. destruct (Req_EM_T _ 0) as [Z|_].
  - exfalso. apply Rmult_integral in Z. destruct Z as [Z | Z]; [contradiction|]. apply Rmult_integral in Z. tauto.
  - f_equal. rewrite V. field. repeat split; auto. intros Z. apply K. rewrite Z. ring.
Qed.
Print Assumptions C185_quotient.

(** C185: it is zero where the differential cross section is zero, whenever there is a total cross section; and the differential cross section is zero outside the unit square, below the least momentum transfer and where the lepton cannot go. *)
Theorem C185_zero c t E x y q s : h_total_record c t E = Some s ->
  (h_diff_xs c t E x y q = 0 -> h_probability c t E x y q = Some 0) /\
  (0 < E -> 0 < h_target_mass c -> 0 <= h_mass c ->
   ~ (0 < x < 1) \/ ~ (0 < y < 1) \/ (exists v, q = Some v /\ v < h_min_q2 c) \/ ~ (exists e kl kt, leaves E (h_target_mass c) (h_mass c) x y e kl kt) ->
   h_diff_xs c t E x y q = 0).
Proof.
  intros T. split.
  - intros Z. unfold h_probability. cbv zeta. rewrite T, Z. destruct (Req_EM_T 0 0); [auto|lra].
  - intros HE HM Hm O. destruct (Req_dec (h_diff_xs c t E x y q) 0) as [|N]; auto. exfalso. destruct (diff_nonzero _ _ _ _ _ _ N) as (_ & X & Y & Q & A & _).
    destruct O as [O | [O | [(v & -> & O) | O]]]; [tauto|tauto|lra|]. apply O. destruct (C184_sound c x y E HE HM Hm X Y A) as (e & kl & kt & H & _). eauto.
Qed.
Print Assumptions C185_zero.

Lemma high_iso : mixing_allowed (13 / 20) (2 / 5) 10 iso_mass 1 = true.
Proof. assert (HI : iso_mass = 9389185 / 10 ^ 7) by (unfold iso_mass; lra). rewrite HI. apply mixing_iff; lra. Qed.
Example C185_case g : g <> 0 -> h_probability (high false g) 14 10 (13 / 20) (2 / 5) None = Some (1 / 1).
Proof.
  intros G. replace 1 with (Rpower 10 0) by (apply Rpower_O; lra). apply (C185_quotient (high false g) 14 1); cbn [h_mass h_target_mass h_primaries h_lo h_hi high]; try lra.
  - split; [lia|reflexivity].
  - now left.
  - unfold h_diff_xs. cbv zeta. cbn [h_dlo h_dhi h_min_q2 h_found high h_target_mass h_unit h_diff]. pose proof iso_pos.
    repeat (match goal with |- context [Rlt_dec ?a ?b] => destruct (Rlt_dec a b); [exfalso; lra|] | |- context [Rle_dec ?a ?b] => destruct (Rle_dec a b); [exfalso; lra|] end).
    unfold h_allowed. cbn [high h_dipole h_target_mass h_mass]. rewrite high_iso. cbn [negb]. rewrite (norm_family _ _ 1%nat) by (split; [lia|reflexivity]). cbn [h_coupling].
    rewrite Rpower_O by lra. intros Z. change (g ^ 2 * 1 * 1 = 0) in Z. assert (Q : g * g = 0). { rewrite <- Z. ring. } apply Rmult_integral in Q. tauto.
Qed.

(** Finding (C185): for a target mass above the isoscalar one there are points with a differential cross section, and with enough energy for the target, whose probability is zero: the threshold does not look at the target mass (HNLDISFromSpline.cxx:364-369). *)
Theorem C185_target_refuted : exists c t E x y, h_diff_xs c t E x y None <> 0 /\ can_make E (h_target_mass c) (h_mass c) /\ h_probability c t E x y None = Some 0.
Proof.
  exists (one false 1), 14%Z, (152 / 100), (98 / 100), (17 / 100). split; [|split].
  - unfold h_diff_xs. cbv zeta. cbn [h_dlo h_dhi h_min_q2 h_found one h_target_mass h_unit h_diff].
    repeat (match goal with |- context [Rlt_dec ?a ?b] => destruct (Rlt_dec a b); [exfalso; lra|] | |- context [Rle_dec ?a ?b] => destruct (Rle_dec a b); [exfalso; lra|] end).
    unfold h_allowed. cbn [one h_dipole h_target_mass h_mass]. rewrite (proj2 (mixing_iff (98 / 100) (17 / 100) (152 / 100) 1 1 ltac:(lra) ltac:(lra) ltac:(lra) ltac:(lra) ltac:(lra)) ltac:(lra)).
    cbn [negb]. rewrite (norm_family _ _ 1%nat) by (split; [lia|reflexivity]). change (3 ^ 2 * 1 * Rpower 10 0 <> 0). rewrite Rpower_O by lra. lra.
  - apply can_make_iff; cbn [h_mass h_target_mass one]; lra.
  - unfold h_probability, h_total_record. cbv zeta. pose proof (one_below 1 false). destruct (Rlt_dec _ _); [|lra].
    destruct (Req_EM_T _ 0); [auto|]. destruct (Req_EM_T 0 0); [auto|lra].
Qed.
Print Assumptions C185_target_refuted.

(** ** C186: signatures *)

(** C186: the constructor fails exactly if some primary is not a neutrino; otherwise the signatures are, in the order of the sets, one for each primary and target, with the heavy lepton for neutrinos and its antiparticle for antineutrinos. *)
Theorem C186_signatures ps ts :
  (h_signatures ps ts = None <-> exists p, In p ps /\ ~ exists i, family p i) /\
  (forall l, h_signatures ps ts = Some l ->
    map (fun s => (hs_primary s, hs_target s)) l = list_prod ps ts /\
    forall s, In s l -> hs_secondaries s = [(5914 * Z.sgn (hs_primary s))%Z; (-2000001006)%Z]).
Proof.
  assert (N : forall p, is_neutrino p = true <-> exists i, family p i).
  { intros p. unfold is_neutrino, family. rewrite !orb_true_iff, !Z.eqb_eq. split.
    - intros [[[[[-> | ->] | ->] | ->] | ->] | ->]; [exists 0%nat|exists 0%nat|exists 1%nat|exists 1%nat|exists 2%nat|exists 2%nat]; split; solve [lia | reflexivity].
    - intros (i & Hi & Hp). assert (i = 0 \/ i = 1 \/ i = 2)%nat as [-> | [-> | ->]] by lia; lia. }
  induction ps as [|p r (IH1 & IH2)]; cbn [h_signatures list_prod].
  - split; [split; [discriminate|intros (p & [] & _)]|]. intros l [= <-]. split; [reflexivity|]. intros s [].
  - destruct (is_neutrino p) eqn:P; cbn [negb].
    + assert (FP : exists i, family p i) by (now apply N). split.
      * split.
        -- intros H. destruct (h_signatures r ts); [discriminate|]. destruct (proj1 IH1 eq_refl) as (z & I & Q). exists z. split; [now right|auto].
        -- intros (z & [<- | I] & Q); [contradiction|]. now rewrite (proj2 IH1 (ex_intro _ z (conj I Q))).
      * intros l H. destruct (h_signatures r ts) as [l'|]; [|discriminate]. destruct (IH2 l' eq_refl) as [J1 J2].
        assert (L : l = map (fun t => mkhsig p t [if (0 <? p)%Z then 5914%Z else (-5914)%Z; (-2000001006)%Z]) ts ++ l') by congruence. subst l. split.
        -- rewrite map_app, map_map, J1. reflexivity.
        -- intros s I. apply in_app_or in I. destruct I as [I | I]; [|auto]. apply in_map_iff in I. destruct I as (t & <- & _). cbn [hs_secondaries hs_primary].
           destruct FP as (i & _ & F). destruct (Z.ltb_spec 0 p); f_equal; lia.
    + split; [|discriminate]. split; [intros _|reflexivity]. exists p. split; [now left|]. rewrite <- N. congruence.
Qed.
Print Assumptions C186_signatures.
Example C186_case : h_signatures [12; -14]%Z [1000080160; 2212]%Z = Some [mkhsig 12 1000080160 [5914; -2000001006]%Z; mkhsig 12 2212 [5914; -2000001006]%Z; mkhsig (-14) 1000080160 [-5914; -2000001006]%Z; mkhsig (-14) 2212 [-5914; -2000001006]%Z]
  /\ h_signatures [12; 11]%Z [2212]%Z = None.
Proof. split; reflexivity. Qed.
