(** Lemmas for the tabulated dipole upscattering. *)
From Coq Require Import Reals Lra Psatz.
From Verif Require Import YtabModel YtabSpec.
Open Scope R_scope.

Section Kinematics.
Variables E m M : R.
Hypothesis E0 : 0 < E.
Hypothesis m0 : 0 < m.
Hypothesis M0 : 0 < M.
Hypothesis above : threshold m M <= E.
Let s := square_s E M.
Let d := root_term E m M.

Lemma above_product : 2 * M * m + m * m <= 2 * E * M.
Proof.
  unfold threshold in above. apply (Rmult_le_compat_r (2 * M)) in above; [|lra].
  replace ((m + m * m / (2 * M)) * (2 * M)) with (2 * M * m + m * m) in above by (field; lra). lra.
Qed.

Lemma s_pos : 0 < s.
Proof. unfold s, square_s. nra. Qed.

Lemma d_factors : d = (s - (M + m) * (M + m)) * (s - (M - m) * (M - m)).
Proof. unfold d, s, root_term, square_s. ring. Qed.

Lemma d_nonneg : 0 <= d.
Proof. rewrite d_factors. pose proof above_product. unfold s, square_s. apply Rmult_le_pos; nra. Qed.

Let w := sqrt d.

Lemma w_nonneg : 0 <= w.
Proof. apply sqrt_pos. Qed.

Lemma w_square : w * w = d.
Proof. apply sqrt_sqrt, d_nonneg. Qed.

Lemma w_bound : w <= 2 * E * M.
Proof.
  pose proof above_product as P. pose proof w_square as Q. unfold d, root_term in Q.
  assert (X : 0 < E * M) by (apply Rmult_lt_0_compat; auto). assert (Y : 0 < M * m) by (apply Rmult_lt_0_compat; auto).
  assert (Z : 0 <= m * m * (4 * E * M + 4 * (M * M) - m * m)) by (apply Rmult_le_pos; nra).
  apply Rsqr_incr_0_var; [|lra]. unfold Rsqr. lra.
Qed.

Definition low : R := 1 / (2 * s) * (2 * E * M - m * m - M * (m * m) / E - w).
Definition high : R := 1 / (2 * s) * (2 * E * M - m * m - M * (m * m) / E + w).

Lemma low_high : low <= high.
Proof. unfold low, high. pose proof s_pos. apply Rmult_le_compat_l; [|pose proof w_nonneg; lra]. left. apply Rdiv_lt_0_compat; lra. Qed.

Lemma high_below : high < 1.
Proof.
  unfold high. pose proof s_pos as P. pose proof w_bound. apply Rmult_lt_reg_l with (2 * s); [lra|].
  replace (2 * s * (1 / (2 * s) * (2 * E * M - m * m - M * (m * m) / E + w))) with (2 * E * M - m * m - M * (m * m) / E + w) by (field; lra).
  assert (0 < M * (m * m) / E) by (apply Rdiv_lt_0_compat; auto; repeat apply Rmult_lt_0_compat; auto).
  assert (0 < m * m) by (apply Rmult_lt_0_compat; auto). assert (0 < M * M) by (apply Rmult_lt_0_compat; auto). unfold s, square_s. lra.
Qed.

Lemma quadratic y : 4 * (E * E) * s * ((y - low) * (y - high)) =
  (2 * E * (E * (1 - y)) - m * m - 2 * M * E * y) * (2 * E * (E * (1 - y)) - m * m - 2 * M * E * y) - 4 * (E * E) * ((E * (1 - y)) * (E * (1 - y)) - m * m).
Proof.
  pose proof s_pos as P. unfold low, high. set (b := 2 * E * M - m * m - M * (m * m) / E).
  replace (4 * (E * E) * s * ((y - 1 / (2 * s) * (b - w)) * (y - 1 / (2 * s) * (b + w)))) with
    (4 * (E * E) * s * (y * y) - 4 * (E * E) * b * y + (E * E) * (b * b - w * w) / s) by (field; lra).
  rewrite w_square. replace (E * E * (b * b - d) / s) with (m * m * (m * m)).
  - unfold b, s, square_s. field. lra.
  - apply Rmult_eq_reg_r with s; [|lra]. replace (E * E * (b * b - d) / s * s) with (E * E * (b * b - d)) by (field; lra).
    unfold b, d, root_term, s, square_s. field. lra.
Qed.

(** The two roots bound the allowed fractions. *)
Lemma allowed_roots y : allowed E m M y <-> low <= y <= high.
Proof.
  pose proof s_pos as P. pose proof low_high as L. pose proof (quadratic y) as Q. assert (EE : 0 < 4 * (E * E) * s) by (apply Rmult_lt_0_compat; nra).
  set (K := 2 * E * (E * (1 - y)) - m * m - 2 * M * E * y) in *. set (n := (E * (1 - y)) * (E * (1 - y)) - m * m) in *. split.
  - intros (q & c & Hq & Hc & Hm & Hn & Hr). assert (EK : K = 2 * E * q * c). { unfold K. unfold n in Hn. nra. }
    assert (KK : K * K <= 4 * (E * E) * n). { fold n in Hn. rewrite <- Hn, EK. assert (c * c <= 1) by nra. assert (0 <= q * q * (E * E)) by nra. nra. }
    assert (G : (y - low) * (y - high) <= 0) by nra. nra.
  - intros H. assert (G : (y - low) * (y - high) <= 0) by nra. assert (KK : K * K <= 4 * (E * E) * n) by nra.
    assert (N : 0 <= n) by nra. pose proof high_below as HB. assert (E3 : 0 < E * (1 - y)) by nra.
    assert (Hm : m <= E * (1 - y)) by (unfold n in N; nra).
    set (q := sqrt n). assert (q0 : 0 <= q) by apply sqrt_pos. assert (qq : q * q = n) by now apply sqrt_sqrt.
    destruct (Req_dec q 0) as [Z|Z].
    + exists q, 0. rewrite Z in *. assert (K0 : K = 0) by nra. split; [lra|]. split; [lra|]. split; [exact Hm|]. split; [exact qq|].
      unfold K in K0. unfold n in qq. nra.
    + assert (q1 : 0 < q) by lra. exists q, (K / (2 * E * q)). assert (D : 0 < 2 * E * q) by nra.
      assert (B : - (2 * E * q) <= K <= 2 * E * q) by (split; nra). repeat split; auto.
      * apply Rmult_le_reg_r with (2 * E * q); auto. replace (K / (2 * E * q) * (2 * E * q)) with K by (field; lra). lra.
      * apply Rmult_le_reg_r with (2 * E * q); auto. replace (K / (2 * E * q) * (2 * E * q)) with K by (field; lra). lra.
      * replace (2 * E * q * (K / (2 * E * q))) with K by (field; lra). rewrite qq. unfold n, K. ring.
Qed.

Lemma min_bound : y_min E m M = Rmax (if Rlt_dec (m * m / s) (1 / 10 ^ 6) then s * (M * M / s) * (m * m * (m * m) / (s * s)) / (M * M / s - 1) ^ 2 / (2 * E * M) else low) low.
Proof.
  pose proof s_pos as P. unfold y_min. fold s. cbv zeta. fold d. fold w. f_equal. destruct (Rlt_dec (m * m / s) (1 / 10 ^ 6)); auto.
  assert (R0 : sqrt ((M * M / s - 1) ^ 2 + (m * m * (m * m) / (s * s) - 2 * (1 + M * M / s) * (m * m / s))) = w / s).
  { apply sqrt_lem_1.
    - replace ((M * M / s - 1) ^ 2 + (m * m * (m * m) / (s * s) - 2 * (1 + M * M / s) * (m * m / s))) with (d / (s * s)).
      + apply Rmult_le_pos; [apply d_nonneg|]. left. apply Rinv_0_lt_compat. nra.
      + rewrite d_factors. field. lra.
    - apply Rmult_le_pos; [apply w_nonneg|]. left. now apply Rinv_0_lt_compat.
    - replace (w / s * (w / s)) with (w * w / (s * s)) by (field; lra). rewrite w_square, d_factors. field. lra. }
  rewrite R0. unfold low. assert (X : 2 * E * M = s - M * M) by (unfold s, square_s; ring).
  assert (Y : E = (s - M * M) / (2 * M)) by (rewrite <- X; field; lra).
  assert (Z : s - M * M <> 0) by (rewrite <- X; nra). rewrite X. replace (M * (m * m) / E) with (2 * (M * M) * (m * m) / (s - M * M)) by (rewrite <- X; field; lra).
  field. split; [auto|lra].
Qed.

Lemma max_bound : y_max E m M = Rmin (1 / (2 * s) * (2 * E * M - m * m - M * (m * m) / E) + w) high.
Proof.
  pose proof s_pos as P. unfold y_max. fold s. cbv zeta. fold d. fold w. f_equal.
  replace (M * M * (M * M) + (m * m - s) ^ 2 - 2 * (M * M) * (m * m + s)) with d by (rewrite d_factors; ring). fold w. unfold high.
  assert (X : 2 * E * M = s - M * M) by (unfold s, square_s; ring).
  assert (Z : s - M * M <> 0) by (rewrite <- X; nra). rewrite X. replace (M * (m * m) / E) with (2 * (M * M) * (m * m) / (s - M * M)) by (rewrite <- X; field; lra).
  field. split; [auto|lra].
Qed.

Lemma max_high : 1 <= 2 * s -> y_max E m M = high.
Proof.
  intros H. rewrite max_bound. apply Rmin_right. unfold high. pose proof s_pos. rewrite Rmult_plus_distr_l. apply Rplus_le_compat_l.
  pose proof w_nonneg. apply Rmult_le_reg_l with (2 * s); [lra|]. replace (2 * s * (1 / (2 * s) * w)) with w by (field; lra). nra.
Qed.

Lemma min_low : 1 / 10 ^ 6 <= m * m / s -> y_min E m M = low.
Proof. intros H. rewrite min_bound. destruct (Rlt_dec (m * m / s) (1 / 10 ^ 6)); [lra|]. apply Rmax_left. lra. Qed.

Lemma inside_roots y : y_min E m M <= y <= y_max E m M -> low <= y <= high.
Proof. rewrite min_bound, max_bound. intros [A B]. split; [eapply Rle_trans; [apply Rmax_r|apply A]|eapply Rle_trans; [apply B|apply Rmin_r]]. Qed.

(** The final state. *)
Lemma lepton_allowed y : low <= y <= high -> let l := lepton E m M y in
  f_e l = E * (1 - y) /\ f_x l * f_x l + f_y l * f_y l = (E * (1 - y)) * (E * (1 - y)) - m * m /\ f_x l = E * (1 - y) - M * y - m * m / (2 * E).
Proof.
  intros H. pose proof s_pos as P. pose proof low_high as L. pose proof (quadratic y) as Q. assert (EE : 0 < 4 * (E * E) * s) by (apply Rmult_lt_0_compat; nra).
  assert (G : (y - low) * (y - high) <= 0) by nra. pose proof high_below as HB. assert (E3 : 0 < E * (1 - y)) by nra.
  unfold lepton. cbv zeta. cbn [f_e f_x f_y]. set (x := E * (1 - y) - M * y - m * m / (2 * E)) in *.
  assert (X : 2 * E * (E * (1 - y)) - m * m - 2 * M * E * y = 2 * E * x) by (unfold x; field; lra). rewrite X in Q.
  assert (N : 0 <= E * (1 - y) * (E * (1 - y)) - m * m - x * x). { apply Rmult_le_reg_l with (4 * (E * E)); [nra|]. nra. }
  rewrite (sqrt_sqrt _ N). replace (x * x + (E * (1 - y) * (E * (1 - y)) - m * m - x * x) + m * m) with (E * (1 - y) * (E * (1 - y))) by ring.
  rewrite sqrt_square by lra. repeat split. ring.
Qed.
End Kinematics.
