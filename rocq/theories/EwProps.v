(** Decays of the W and Z bosons: theorems. *)
From Coquelicot Require Import Coquelicot.
From Coq Require Import Reals Bool List ZArith Lra Lia.
From Verif Require Import VectorModel RkModel RkSpec RkProofs RandomModel DipoleModel DipoleSpec DipoleProofs TurnModel
  TurnProofs DisModel HnlModel HnlSpec HnlProofs EwModel EwSpec EwProofs.
Import ListNotations.
Open Scope R_scope.

(** C139: the possible decays of a boson are exactly those that keep the charge, the baryon number
    and the three lepton numbers, into two quarks or leptons lighter than the top quark. *)
Theorem C139_exactly : forall p x y, (p = Wp \/ p = Wm \/ p = Zz) ->
  (In (x, y) (ew_signatures p) <-> allowed p x y).
Proof. exact allowed_listed. Qed.
Print Assumptions C139_exactly.

(** C139: no decay is listed twice, and other primaries have none. *)
Theorem C139_once : forall p, NoDup (ew_signatures p) /\
  (p <> Wp -> p <> Wm -> p <> Zz -> ew_signatures p = []).
Proof.
  intros p. split.
  - destruct p; cbn; repeat (apply NoDup_cons; [cbn [In]; intuition discriminate|]); apply NoDup_nil.
  - intros A B C. destruct p; try reflexivity; congruence.
Qed.
Print Assumptions C139_once.

(** C139: the two W bosons decay to antiparticles of each other's products, in the same order. *)
Theorem C139_conjugate :
  ew_signatures Wm = map (fun s => (antiparticle (fst s), antiparticle (snd s))) (ew_signatures Wp).
Proof. reflexivity. Qed.
Print Assumptions C139_conjugate.

Example C139_case : allowed Wp (Up F2) (DownBar F3) /\ ~ allowed Wp (AntiLepton F1) (Nu F2) /\
  allowed Zz (Lepton F3) (AntiLepton F3).
Proof.
  split; [|split].
  - apply (C139_exactly Wp); [auto|]. cbn. auto 20.
  - intros H. apply (C139_exactly Wp) in H; [|auto]. cbn in H. intuition discriminate.
  - apply (C139_exactly Zz); [auto|]. cbn. auto 20.
Qed.

(** C140: the width of a possible decay is positive when the boson is heavier than its products, and
    zero otherwise. *)
Theorem C140_open : forall p m x y a b, (p = Wp \/ p = Wm \/ p = Zz) -> allowed p x y ->
  secondary_mass x = Some a -> secondary_mass y = Some b ->
  exists w, ew_width p m x y = Some w /\ (a + b < m -> 0 < w) /\ (m <= a + b -> w = 0).
Proof.
  intros p m x y a b B K A C. apply allowed_listed in K; [|exact B].
  destruct (light p x y B K) as [a' [b' [A' [C' [_ [_ L]]]]]].
  rewrite A in A'. rewrite C in C'. injection A' as <-. injection C' as <-.
  destruct (Rle_dec m (a + b)) as [H|H].
  - exists 0. split; [apply (width_closed p m x y a b); assumption|]. split; [intros; lra|reflexivity].
  - destruct (bare_pos p x y B K) as [w [W P]]. exists w. split; [|split; [intros _; exact P|intros; lra]].
    rewrite <- W. apply (width_open p m 9 x y a b A C); lra.
Qed.
Print Assumptions C140_open.

(** C140: the total widths: three leptons and two rows of the mixing matrix in three colours for the W
    bosons; for the Z, twice the squares of the couplings of each product, again in three colours. *)
Theorem C140_total :
  ew_total Wp = Some (gamma_w * (3 + 3 * ((974 / 1000) ^ 2 + (2265 / 10000) ^ 2 + (36 / 10000) ^ 2 +
                                          (2263 / 10000) ^ 2 + (9732 / 10000) ^ 2 + (405 / 10000) ^ 2))) /\
  ew_total Wm = ew_total Wp /\
  ew_total Zz = Some (gweak ^ 2 * z_mass / (48 * PI * (1 - theta_weinberg)) *
    2 * (3 * (1 / 2) ^ 2 + 3 * ((27 / 100) ^ 2 + (23 / 100) ^ 2) + 6 * ((35 / 100) ^ 2 + (15 / 100) ^ 2) +
         9 * ((42 / 100) ^ 2 + (8 / 100) ^ 2))).
Proof.
  unfold ew_total.
  rewrite (sum_heavy Wp), (sum_heavy Wm), (sum_heavy Zz) by (cbn; unfold w_mass, z_mass; auto; lra).
  rewrite !sum_nine by auto. split; [|split; [reflexivity|]]; f_equal.
  - field.
  - fold z_unit. field.
Qed.
Print Assumptions C140_total.

(** C140: the total width of a W boson differs from that of nine equal channels by less than two in a
    hundred thousand: the two rows of the mixing matrix are almost of length one. *)
Theorem C140_nine_channels : forall p w, p = Wp \/ p = Wm -> ew_total p = Some w ->
  Rabs (w - 9 * gamma_w) < 9 * gamma_w * (2 / 10 ^ 5).
Proof.
  intros p w P H. destruct C140_total as [T [T' _]].
  assert (E : w = gamma_w * (3 + 3 * (199996139 / 10 ^ 8))).
  { destruct P as [-> | ->]; [|rewrite T' in H]; rewrite T in H; injection H as <-; field. }
  pose proof gamma_w_pos. rewrite E. rewrite Rabs_left; lra.
Qed.
Print Assumptions C140_nine_channels.

(** C140: for a boson heavier than two bottom quarks the widths of its own mass add up to the total
    width, which is calculated with the nominal mass. *)
Theorem C140_record : forall p m, (p = Wp \/ p = Wm \/ p = Zz) -> 2 * (4198 / 1000) < m ->
  ew_sum p m (ew_signatures p) = ew_total p.
Proof.
  intros p m B M. unfold ew_total. rewrite sum_heavy by (auto; lra). symmetry. apply sum_heavy; [exact B|].
  destruct B as [-> | [-> | ->]]; cbn; unfold w_mass, z_mass; lra.
Qed.
Print Assumptions C140_record.

(** C140: in a Z lighter than two electrons only the neutrinos are open, and the sum of the widths at
    its mass is not the total width. *)
Theorem C140_light_refuted : exists p m, 0 < m /\ (p = Wp \/ p = Wm \/ p = Zz) /\
  ew_sum p m (ew_signatures p) <> ew_total p.
Proof.
  exists Zz, (1 / 10000). split; [lra|]. split; [auto|].
  unfold ew_total. rewrite (sum_heavy Zz (pole_mass Zz)) by (cbn; unfold z_mass; auto; lra). rewrite sum_nine by auto.
  assert (E : ew_sum Zz (1 / 10000) (ew_signatures Zz) = Some (z_unit * (3 / 2))).
  { unfold ew_sum. cbn [ew_signatures combine app anti_leptons leptons nus anti_nus up_quarks up_anti down_quarks down_anti
      fold_left fst snd].
    rewrite (width_open Zz (1 / 10000) 9 (Nu F1) (NuBar F1) 0 0), (width_open Zz (1 / 10000) 9 (Nu F2) (NuBar F2) 0 0),
      (width_open Zz (1 / 10000) 9 (Nu F3) (NuBar F3) 0 0) by (reflexivity || lra).
    rewrite (width_closed Zz _ (Lepton F1) _ (511 / 10 ^ 6) (511 / 10 ^ 6)) by (reflexivity || lra).
    rewrite (width_closed Zz _ (Lepton F2) _ (105658374 / 10 ^ 9) (105658374 / 10 ^ 9)) by (reflexivity || lra).
    rewrite (width_closed Zz _ (Lepton F3) _ (177686 / 10 ^ 5) (177686 / 10 ^ 5)) by (reflexivity || lra).
    rewrite (width_closed Zz _ (Up F1) _ (232 / 10 ^ 5) (232 / 10 ^ 5)) by (reflexivity || lra).
    rewrite (width_closed Zz _ (Up F2) _ (1280 / 1000) (1280 / 1000)) by (reflexivity || lra).
    rewrite (width_closed Zz _ (Down F1) _ (471 / 10 ^ 5) (471 / 10 ^ 5)) by (reflexivity || lra).
    rewrite (width_closed Zz _ (Down F2) _ (929 / 10000) (929 / 10000)) by (reflexivity || lra).
    rewrite (width_closed Zz _ (Down F3) _ (4198 / 1000) (4198 / 1000)) by (reflexivity || lra).
    assert (N : forall f, ew_width Zz 9 (Nu f) (NuBar f) = Some (z_unit * (1 / 2))).
    { intros f. unfold ew_width. cbn [secondary_mass]. destruct (Rle_dec 9 (0 + 0)) as [C|_]; [lra|].
      destruct f; cbn -[z_width]; f_equal; rewrite z_width_eq; field. }
    rewrite !N. f_equal. field. }
  rewrite E. intros C. injection C as C. pose proof z_unit_pos. lra.
Qed.
Print Assumptions C140_light_refuted.

(** C140: a decay that breaks lepton numbers, W to an electron and a muon antineutrino, has the full width,
    although it is not among the possible decays. *)
Theorem C140_mixed_refuted : exists p x y w, ew_width p (pole_mass p) x y = Some w /\ 0 < w /\
  ~ allowed p x y /\ ~ In (x, y) (ew_signatures p).
Proof.
  exists Wm, (Lepton F1), (NuBar F2), gamma_w.
  assert (N : ~ In (Lepton F1, NuBar F2) (ew_signatures Wm)) by (cbn; intuition discriminate).
  split; [|split; [exact gamma_w_pos|split; [intros H; apply N, C139_exactly; auto|exact N]]].
  unfold ew_width. cbn [secondary_mass pole_mass].
  destruct (Rle_dec w_mass _) as [C|_]; [unfold w_mass in C; lra|]. reflexivity.
Qed.
Print Assumptions C140_mixed_refuted.

Example C140_case : ew_width Zz z_mass (Up F1) (UpBar F1) = Some (z_unit * (87 / 100)) /\
  ew_width Wp w_mass (Up F3) (DownBar F3) = Some 0.
Proof.
  split.
  - unfold ew_width. cbn [secondary_mass]. destruct (Rle_dec z_mass _) as [C|_]; [unfold z_mass in C; lra|].
    cbn -[z_width]. f_equal. rewrite z_width_eq. field.
  - apply (width_closed Wp _ _ _ (1733 / 10) (4198 / 1000)); try reflexivity. unfold w_mass. lra.
Qed.

(** C141: for every possible decay of a boson heavier than its products, sampling succeeds whatever is
    drawn; both products have their masses, are on their mass shells, and carry the energy and
    momentum of the boson. *)
Theorem C141_kept : forall o p q m x y mX mY u1 u2, (p = Wp \/ p = Wm \/ p = Zz) -> allowed p x y ->
  secondary_mass x = Some mX -> secondary_mass y = Some mY -> 0 < m -> mX + mY <= m -> 0 <= u1 <= 1 ->
  exists a b, ew_sample o q m x y u1 u2 = Some (a, b) /\ kept q m mX mY a b.
Proof.
  intros o p q m x y mX mY u1 u2 B K EX EY M L U.
  assert (X0 : 0 <= mX) by (apply (mass_bound x mX EX)). assert (Y0 : 0 <= mY) by (apply (mass_bound y mY EY)).
  unfold ew_sample. rewrite EX, EY.
  destruct (lab_is (p4_of q m) (p4_of_shell q m ltac:(lra)) M) as [l [E LB]]. rewrite E.
  replace (m * m - mY * mY + mX * mX) with (m * m + mX * mX - mY * mY) by ring.
  destruct (rest_energy m mX mY M X0 Y0 L) as [K1 [K2 K3]]. set (ex := (m * m + mX * mX - mY * mY) / (2 * m)) in *.
  destruct (Rlt_dec _ 0) as [C|_]; [lra|]. set (c := uniform (- (1)) 1 u1).
  assert (C : -1 <= c <= 1) by (unfold c; rewrite uniform_sym; lra).
  pose proof (circle_sq _ c K1 C) as Q. cbv zeta in Q. set (v := vscale (sqrt (ex * ex - mX * mX)) (mkv c (sin (acos c)) 0)) in *.
  set (k := turn o q u2 (p4_of v mX)).
  assert (S : on_shell k) by (apply turn_shell, p4_of_shell; exact X0).
  assert (EK : pe k = ex).
  { unfold k. rewrite turn_energy. cbn [pe p4_of]. rewrite lsq, Q.
    replace (mX * mX + (ex * ex - mX * mX)) with (Rsqr ex) by (unfold Rsqr; ring). apply sqrt_Rsqr. lra. }
  assert (PK : vdot (pp k) (pp k) = ex * ex - mX * mX).
  { unfold k. rewrite turn_square. cbn [pp p4_of]. exact Q. }
  assert (J : kept q m mX mY (p4_boost l k) (p4_of (vsub q (pp (p4_boost l k))) mY)).
  { change mX with (pm k) at 1. apply pair_kept; auto; rewrite EK, ?PK; [lra|exact K3]. }
  destruct J as [J1 [J2 [J3 [J4 [J5 J6]]]]]. unfold p4_m, p4_sub. cbn [pe pp].
  change (pp (p4_of q m)) with q. set (w := vsub q (pp (p4_boost l k))) in *.
  assert (EQ : pe (p4_of q m) - pe (p4_boost l k) = pe (p4_of w mY)).
  { assert (pe (p4_of q m) = energy q m) by (cbn [pe p4_of]; rewrite lsq; reflexivity). lra. }
  rewrite EQ.
  assert (SQ : pe (p4_of w mY) * pe (p4_of w mY) - length_squared w = mY * mY).
  { destruct (p4_of_shell w mY Y0) as [_ [_ G]]. rewrite G. cbn [pm pp p4_of]. rewrite lsq. ring. }
  rewrite SQ. destruct (Rlt_dec (mY * mY) 0) as [N|_]; [nra|]. rewrite (sqrt_square mY Y0).
  exists (p4_boost l k), (p4_of w mY). split; [reflexivity|]. repeat split; assumption.
Qed.
Print Assumptions C141_kept.

(** C141: the density of the cosine drawn is one half, for every decay with a width, and it integrates
    to one; it is zero where there is no width. *)
Theorem C141_density : forall p m x y w, ew_width p m x y = Some w ->
  (w <> 0 -> ew_probability p m x y = Some (1 / 2)) /\ (w = 0 -> ew_probability p m x y = Some 0) /\
  is_RInt (fun _ => 1 / 2) (- (1)) 1 1.
Proof.
  intros p m x y w H. unfold ew_probability, ew_diff. rewrite H. split; [|split].
  - intros N. destruct (Req_EM_T (1 / 2 * w) 0) as [C|_]; [lra|]. destruct (Req_EM_T w 0) as [C|_]; [contradiction|].
    f_equal. field. exact N.
  - intros ->. destruct (Req_EM_T (1 / 2 * 0) 0) as [_|C]; [reflexivity|lra].
  - replace 1 with (scal (1 - - (1)) (1 / 2)) at 3 by (unfold scal; cbn; unfold mult; cbn; field).
    apply (is_RInt_const (V := R_NormedModule)).
Qed.
Print Assumptions C141_density.

(** C141: a fraction [t] of the numbers of the generator gives a cosine up to [2 t - 1]. *)
Theorem C141_cosine : forall u c, uniform (- (1)) 1 u <= c <-> u <= (c + 1) / 2.
Proof. intros u c. rewrite uniform_sym. lra. Qed.
Print Assumptions C141_cosine.

Example C141_case : exists a b, ew_sample AbsDouble (mkv 3 4 0) z_mass (Lepton F3) (AntiLepton F3) (1 / 4) (1 / 8) = Some (a, b) /\
  pm a = 177686 / 10 ^ 5 /\ pm b = 177686 / 10 ^ 5.
Proof.
  destruct (C141_kept AbsDouble Zz (mkv 3 4 0) z_mass (Lepton F3) (AntiLepton F3) (177686 / 10 ^ 5) (177686 / 10 ^ 5) (1 / 4) (1 / 8))
    as [a [b [E [A [B _]]]]]; try reflexivity; try (unfold z_mass; lra); auto.
  - apply C139_exactly; [auto|]. cbn. auto 20.
  - exists a, b. auto.
Qed.
