(** Bounds on the series used for 1 - exp(-x) and its logarithm. *)
From Coquelicot Require Import Coquelicot.
From Coq Require Import Reals Lra.
From Verif Require Import VertexModel.
Open Scope R_scope.

(** A function that starts at or above zero and does not decrease stays there. *)
Lemma from_zero f df a : (forall x, 0 <= x <= a -> is_derive f x (df x)) ->
  (forall x, 0 <= x <= a -> 0 <= df x) -> 0 <= f 0 -> forall x, 0 <= x <= a -> 0 <= f x.
Proof.
  intros Hd Hp H0 x Hx. destruct (MVT_gen f 0 x df) as (c & Hc & E).
  - intros t Ht. rewrite Rmin_left, Rmax_right in Ht by lra. apply Hd. lra.
  - intros t Ht. rewrite Rmin_left, Rmax_right in Ht by lra.
    apply continuity_pt_filterlim. apply (ex_derive_continuous f t). exists (df t). apply Hd. lra.
  - rewrite Rmin_left, Rmax_right in Hc by lra. pose proof (Hp c ltac:(lra)).
    assert (0 <= df c * (x - 0)) by (apply Rmult_le_pos; lra). lra.
Qed.

Ltac grow d := apply (from_zero _ d) with (a := 1); [intros ? ?; auto_derive; [try exact Logic.I; lra || auto|field] | | | lra].

(** ** Exponential *)

Lemma exp_ge1 x : 0 <= x -> 1 <= exp x.
Proof. intro H. pose proof (exp_ineq1_le x). lra. Qed.

Lemma exp_low x : 0 <= x <= 1 -> 1 + x + x * x / 2 + x * x * x / 6 <= exp x.
Proof.
  assert (H1 : forall x, 0 <= x <= 1 -> 0 <= exp x - 1 - x).
  { intros y Hy. pose proof (exp_ineq1_le y). lra. }
  assert (H2 : forall x, 0 <= x <= 1 -> 0 <= exp x - 1 - x - x * x / 2).
  { apply (from_zero _ (fun y => exp y - 1 - y)); auto.
    - intros y Hy. auto_derive; auto. field.
    - rewrite exp_0. lra. }
  assert (H3 : forall x, 0 <= x <= 1 -> 0 <= exp x - 1 - x - x * x / 2 - x * x * x / 6).
  { apply (from_zero _ (fun y => exp y - 1 - y - y * y / 2)); auto.
    - intros y Hy. auto_derive; auto. field.
    - rewrite exp_0. lra. }
  intros Hx. specialize (H3 x Hx). lra.
Qed.

Lemma exp_minus_high x : 0 <= x -> 1 - exp (- x) <= x.
Proof. intro H. pose proof (exp_ineq1_le (- x)). lra. Qed.

Lemma exp_minus_low x : 0 <= x <= 1 -> x - x * x / 2 <= 1 - exp (- x).
Proof.
  intros Hx. cut (0 <= 1 - exp (- x) - x + x * x / 2); [lra|]. revert x Hx.
  apply (from_zero _ (fun y => exp (- y) - 1 + y)).
  - intros y Hy. auto_derive; auto. field.
  - intros y Hy. pose proof (exp_ineq1_le (- y)). lra.
  - rewrite Ropp_0, exp_0. lra.
Qed.

Lemma exp_minus_lt1 x : 0 < x -> 0 < exp (- x) < 1.
Proof.
  intro H. split; [apply exp_pos|]. rewrite <- exp_0. apply exp_increasing. lra.
Qed.

Lemma exp3 : 189/10 <= exp 3.
Proof.
  replace 3 with (1 + (1 + 1)) by lra. rewrite !exp_plus. pose proof (exp_low 1 ltac:(lra)) as H.
  assert (8/3 <= exp 1) by lra. set (e := exp 1) in *. clearbody e.
  assert (64/9 <= e * e) by nra. nra.
Qed.

(** ** Hyperbolic sine *)

Definition sh y := (exp y - exp (- y)) / 2.
Definition ch y := (exp y + exp (- y)) / 2.

Lemma sh_derive y : is_derive sh y (ch y).
Proof. unfold sh, ch. auto_derive; auto. field. Qed.
Lemma ch_derive y : is_derive ch y (sh y).
Proof. unfold sh, ch. auto_derive; auto. field. Qed.
Lemma sh_0 : sh 0 = 0.
Proof. unfold sh. rewrite Ropp_0. lra. Qed.
Lemma ch_0 : ch 0 = 1.
Proof. unfold ch. rewrite Ropp_0, exp_0. lra. Qed.

Ltac chain f df := apply (from_zero f df); [intros y Hy|intros y Hy|].

Lemma sh_low : forall y, 0 <= y <= 1 -> y + y ^ 3 / 6 + y ^ 5 / 120 <= sh y.
Proof.
  assert (C0 : forall y, 0 <= y <= 1 -> 0 <= ch y - 1).
  { intros y Hy. unfold ch. pose proof (exp_ge1 y ltac:(lra)). pose proof (exp_pos (- y)).
    assert (E : exp y * exp (- y) = 1) by (rewrite <- exp_plus, Rplus_opp_r; apply exp_0).
    set (a := exp y) in *. set (b := exp (- y)) in *. clearbody a b.
    pose proof (Rle_0_sqr (a - b)) as Hs. unfold Rsqr in Hs. nra. }
  assert (S1 : forall y, 0 <= y <= 1 -> 0 <= sh y - y).
  { chain (fun y => sh y - y) (fun y => ch y - 1); [|auto|rewrite sh_0; lra].
    apply (is_derive_minus sh (fun y => y)); [apply sh_derive|apply (is_derive_id (K := R_AbsRing))]. }
  assert (C2 : forall y, 0 <= y <= 1 -> 0 <= ch y - (1 + y ^ 2 / 2)).
  { chain (fun y => ch y - (1 + y ^ 2 / 2)) (fun y => sh y - y); [|auto|rewrite ch_0; lra].
    apply (is_derive_minus ch (fun y => 1 + y ^ 2 / 2)); [apply ch_derive|auto_derive; auto; field]. }
  assert (S3 : forall y, 0 <= y <= 1 -> 0 <= sh y - (y + y ^ 3 / 6)).
  { chain (fun y => sh y - (y + y ^ 3 / 6)) (fun y => ch y - (1 + y ^ 2 / 2)); [|auto|rewrite sh_0; lra].
    apply (is_derive_minus sh (fun y => y + y ^ 3 / 6)); [apply sh_derive|auto_derive; auto; field]. }
  assert (C4 : forall y, 0 <= y <= 1 -> 0 <= ch y - (1 + y ^ 2 / 2 + y ^ 4 / 24)).
  { chain (fun y => ch y - (1 + y ^ 2 / 2 + y ^ 4 / 24)) (fun y => sh y - (y + y ^ 3 / 6)); [|auto|rewrite ch_0; lra].
    apply (is_derive_minus ch (fun y => 1 + y ^ 2 / 2 + y ^ 4 / 24)); [apply ch_derive|auto_derive; auto; field]. }
  assert (S5 : forall y, 0 <= y <= 1 -> 0 <= sh y - (y + y ^ 3 / 6 + y ^ 5 / 120)).
  { chain (fun y => sh y - (y + y ^ 3 / 6 + y ^ 5 / 120)) (fun y => ch y - (1 + y ^ 2 / 2 + y ^ 4 / 24)); [|auto|rewrite sh_0; lra].
    apply (is_derive_minus sh (fun y => y + y ^ 3 / 6 + y ^ 5 / 120)); [apply sh_derive|auto_derive; auto; field]. }
  intros y Hy. specialize (S5 y Hy). lra.
Qed.

Lemma sh_high : forall y, 0 <= y <= 1 -> sh y <= y + y ^ 3 / 6 + y ^ 5 / 120 + y ^ 7 / 2520.
Proof.
  assert (C0 : forall y, 0 <= y <= 1 -> 0 <= 2 - ch y).
  { intros y Hy. unfold ch. assert (exp y <= 3).
    { apply Rle_trans with (2 := exp_le_3). destruct (proj2 Hy) as [H|H]; [left; now apply exp_increasing|subst; lra]. }
    assert (exp (- y) <= 1). { rewrite <- exp_0. destruct (proj1 Hy) as [H1|H1]; [left; apply exp_increasing; lra|subst; rewrite Ropp_0; lra]. }
    lra. }
  assert (S1 : forall y, 0 <= y <= 1 -> 0 <= 2 * y - sh y).
  { chain (fun y => 2 * y - sh y) (fun y => 2 - ch y); [|auto|rewrite sh_0; lra].
    apply (is_derive_minus (fun y => 2 * y) sh); [auto_derive; auto; field|apply sh_derive]. }
  assert (C2 : forall y, 0 <= y <= 1 -> 0 <= 1 + y ^ 2 - ch y).
  { chain (fun y => 1 + y ^ 2 - ch y) (fun y => 2 * y - sh y); [|auto|rewrite ch_0; lra].
    apply (is_derive_minus (fun y => 1 + y ^ 2) ch); [auto_derive; auto; field|apply ch_derive]. }
  assert (S3 : forall y, 0 <= y <= 1 -> 0 <= y + y ^ 3 / 3 - sh y).
  { chain (fun y => y + y ^ 3 / 3 - sh y) (fun y => 1 + y ^ 2 - ch y); [|auto|rewrite sh_0; lra].
    apply (is_derive_minus (fun y => y + y ^ 3 / 3) sh); [auto_derive; auto; field|apply sh_derive]. }
  assert (C4 : forall y, 0 <= y <= 1 -> 0 <= 1 + y ^ 2 / 2 + y ^ 4 / 12 - ch y).
  { chain (fun y => 1 + y ^ 2 / 2 + y ^ 4 / 12 - ch y) (fun y => y + y ^ 3 / 3 - sh y); [|auto|rewrite ch_0; lra].
    apply (is_derive_minus (fun y => 1 + y ^ 2 / 2 + y ^ 4 / 12) ch); [auto_derive; auto; field|apply ch_derive]. }
  assert (S5 : forall y, 0 <= y <= 1 -> 0 <= y + y ^ 3 / 6 + y ^ 5 / 60 - sh y).
  { chain (fun y => y + y ^ 3 / 6 + y ^ 5 / 60 - sh y) (fun y => 1 + y ^ 2 / 2 + y ^ 4 / 12 - ch y); [|auto|rewrite sh_0; lra].
    apply (is_derive_minus (fun y => y + y ^ 3 / 6 + y ^ 5 / 60) sh); [auto_derive; auto; field|apply sh_derive]. }
  assert (C6 : forall y, 0 <= y <= 1 -> 0 <= 1 + y ^ 2 / 2 + y ^ 4 / 24 + y ^ 6 / 360 - ch y).
  { chain (fun y => 1 + y ^ 2 / 2 + y ^ 4 / 24 + y ^ 6 / 360 - ch y) (fun y => y + y ^ 3 / 6 + y ^ 5 / 60 - sh y); [|auto|rewrite ch_0; lra].
    apply (is_derive_minus (fun y => 1 + y ^ 2 / 2 + y ^ 4 / 24 + y ^ 6 / 360) ch); [auto_derive; auto; field|apply ch_derive]. }
  assert (S7 : forall y, 0 <= y <= 1 -> 0 <= y + y ^ 3 / 6 + y ^ 5 / 120 + y ^ 7 / 2520 - sh y).
  { chain (fun y => y + y ^ 3 / 6 + y ^ 5 / 120 + y ^ 7 / 2520 - sh y) (fun y => 1 + y ^ 2 / 2 + y ^ 4 / 24 + y ^ 6 / 360 - ch y); [|auto|rewrite sh_0; lra].
    apply (is_derive_minus (fun y => y + y ^ 3 / 6 + y ^ 5 / 120 + y ^ 7 / 2520) sh); [auto_derive; auto; field|apply sh_derive]. }
  intros y Hy. specialize (S7 y Hy). lra.
Qed.

(** ** Logarithm *)

Lemma ln1p_high z : 0 <= z <= 1 -> ln (1 + z) <= z - z ^ 2 / 2 + z ^ 3 / 3.
Proof.
  intros Hz. cut (0 <= z - z ^ 2 / 2 + z ^ 3 / 3 - ln (1 + z)); [lra|]. revert z Hz.
  apply (from_zero _ (fun z => z ^ 3 / (1 + z))).
  - intros z Hz. auto_derive; [lra|]. field. lra.
  - intros z Hz. apply Rmult_le_pos; [apply pow_le; lra|left; apply Rinv_0_lt_compat; lra].
  - rewrite Rplus_0_r, ln_1. lra.
Qed.

Lemma ln1p_low z : 0 <= z <= 1 -> z - z ^ 2 / 2 + z ^ 3 / 3 - z ^ 4 / 4 <= ln (1 + z).
Proof.
  intros Hz. cut (0 <= ln (1 + z) - (z - z ^ 2 / 2 + z ^ 3 / 3 - z ^ 4 / 4)); [lra|]. revert z Hz.
  apply (from_zero _ (fun z => z ^ 4 / (1 + z))).
  - intros z Hz. auto_derive; [lra|]. field. lra.
  - intros z Hz. apply Rmult_le_pos; [apply pow_le; lra|left; apply Rinv_0_lt_compat; lra].
  - rewrite Rplus_0_r, ln_1. lra.
Qed.

Lemma ln_mono a b : 0 < a -> a <= b -> ln a <= ln b.
Proof. intros Ha [H|H]; [left; now apply ln_increasing|subst; lra]. Qed.

(** ** The series below 0.1 *)

Lemma small_form x : 0 < x -> ln (1 - exp (- x)) - small_series x =
  ln (sh (x / 2) / (x / 2)) - (x / 2) ^ 2 / 6 + (x / 2) ^ 4 / 180.
Proof.
  intros Hx. pose proof (exp_minus_lt1 x Hx) as He.
  assert (Hs : 0 < sh (x / 2)).
  { unfold sh. assert (exp (- (x / 2)) < exp (x / 2)) by (apply exp_increasing; lra). lra. }
  assert (E : 1 - exp (- x) = x * (exp (- (x / 2)) * (sh (x / 2) / (x / 2)))).
  { replace (x * (exp (- (x / 2)) * (sh (x / 2) / (x / 2)))) with (2 * (exp (- (x / 2)) * sh (x / 2))) by (field; lra).
    unfold sh. replace (- x) with (- (x / 2) + - (x / 2)) by field. rewrite exp_plus.
    assert (E1 : exp (- (x / 2)) * exp (x / 2) = 1) by (rewrite <- exp_plus; replace (- (x / 2) + x / 2) with 0 by ring; apply exp_0).
    rewrite <- E1 at 1. field. }
  assert (Hq : 0 < sh (x / 2) / (x / 2)) by (apply Rdiv_lt_0_compat; lra).
  rewrite E, ln_mult, ln_mult, ln_exp; auto.
  - unfold small_series. field.
  - apply exp_pos.
  - apply Rmult_lt_0_compat; [apply exp_pos|auto].
Qed.

Lemma small_error x : 0 < x <= 1/10 -> 0 <= ln (1 - exp (- x)) - small_series x <= x ^ 6 / 115200.
Proof.
  intros Hx. rewrite small_form by lra. set (y := x / 2). assert (Hy : 0 < y <= 1/20) by (unfold y; lra).
  replace (x ^ 6 / 115200) with ((y ^ 2) ^ 3 / 1800) by (unfold y; field).
  set (s := y ^ 2). assert (Hs : 0 < s <= 1/400).
  { unfold s. split; [apply pow_lt; lra|]. cbn. nra. }
  replace (y ^ 4) with (s ^ 2) by (unfold s; ring).
  pose proof (sh_low y ltac:(lra)) as L. pose proof (sh_high y ltac:(lra)) as U.
  assert (L' : 1 + s * (1/6 + s / 120) <= sh y / y).
  { apply Rmult_le_reg_r with y; [lra|]. unfold Rdiv at 3. rewrite Rmult_assoc, Rinv_l, Rmult_1_r by lra.
    replace ((1 + s * (1/6 + s / 120)) * y) with (y + y ^ 3 / 6 + y ^ 5 / 120) by (unfold s; field). exact L. }
  assert (U' : sh y / y <= 1 + s * (1/6 + s / 120 + s ^ 2 / 2520)).
  { apply Rmult_le_reg_r with y; [lra|]. unfold Rdiv at 1. rewrite Rmult_assoc, Rinv_l, Rmult_1_r by lra.
    replace ((1 + s * (1/6 + s / 120 + s ^ 2 / 2520)) * y) with (y + y ^ 3 / 6 + y ^ 5 / 120 + y ^ 7 / 2520) by (unfold s; field). exact U. }
  clearbody s. clear L U. split.
  - set (w := 1/6 + s / 120) in *. assert (Hw : 1/6 <= w <= 17/100) by (unfold w; lra).
    assert (Hz : 0 <= s * w <= 1) by nra.
    pose proof (ln1p_low (s * w) Hz) as Ln.
    pose proof (ln_mono (1 + s * w) (sh y / y) ltac:(lra) L') as Lm.
    cut (0 <= s * w - (s * w) ^ 2 / 2 + (s * w) ^ 3 / 3 - (s * w) ^ 4 / 4 - s / 6 + s ^ 2 / 180); [lra|].
    replace (s * w - (s * w) ^ 2 / 2 + (s * w) ^ 3 / 3 - (s * w) ^ 4 / 4 - s / 6 + s ^ 2 / 180)
      with (s ^ 2 * (1/72 - w ^ 2 / 2 + s * w ^ 3 / 3 - s ^ 2 * w ^ 4 / 4)) by (unfold w; field).
    apply Rmult_le_pos; [apply pow_le; lra|].
    assert (W2 : w ^ 2 = 1/36 + s / 360 + s ^ 2 / 14400) by (unfold w; field).
    assert (W3 : 1/216 <= w ^ 3). { replace (1/216) with ((1/6) ^ 3) by field. apply pow_incr. lra. }
    assert (W4 : w ^ 4 <= 1/1000).
    { apply Rle_trans with ((17/100) ^ 4); [apply pow_incr; lra|lra]. }
    assert (s * (1/216) <= s * w ^ 3) by (apply Rmult_le_compat_l; lra).
    assert (s ^ 2 <= s / 400) by (cbn; nra).
    assert (s ^ 2 * w ^ 4 <= s ^ 2 * (1/1000)) by (apply Rmult_le_compat_l; [apply pow_le; lra|lra]).
    lra.
  - set (w := 1/6 + s / 120 + s ^ 2 / 2520) in *.
    assert (Hs2 : 0 <= s ^ 2 <= s / 400) by (cbn; nra).
    assert (Hw : 1/6 <= w <= 16669/100000) by (unfold w; lra).
    assert (Hz : 0 <= s * w <= 1) by nra.
    pose proof (ln1p_high (s * w) Hz) as Ln.
    assert (0 < sh y / y) by (assert (0 <= s * (1/6 + s / 120)) by nra; lra).
    pose proof (ln_mono (sh y / y) (1 + s * w) ltac:(lra) U') as Lm.
    cut (s * w - (s * w) ^ 2 / 2 + (s * w) ^ 3 / 3 - s / 6 + s ^ 2 / 180 <= s ^ 3 / 1800); [lra|].
    replace (s * w - (s * w) ^ 2 / 2 + (s * w) ^ 3 / 3 - s / 6 + s ^ 2 / 180)
      with (s ^ 2 * (1/72 + s / 2520 - w ^ 2 / 2 + s * w ^ 3 / 3)) by (unfold w; field).
    replace (s ^ 3 / 1800) with (s ^ 2 * (s / 1800)) by field.
    apply Rmult_le_compat_l; [lra|].
    assert (W2 : 1/36 + s / 360 <= w ^ 2).
    { replace (1/36 + s / 360) with ((1/6 + s / 120) ^ 2 - s ^ 2 / 14400) by field.
      assert ((1/6 + s / 120) ^ 2 <= w ^ 2) by (apply pow_incr; unfold w; lra). lra. }
    assert (W3 : w ^ 3 <= 46317/10000000).
    { apply Rle_trans with ((16669/100000) ^ 3); [apply pow_incr; lra|lra]. }
    assert (s * w ^ 3 <= s * (46317/10000000)) by (apply Rmult_le_compat_l; lra).
    lra.
Qed.

(** ** The series above 3 *)

Lemma large_error x : 3 < x -> let q := exp (- x) in
  0 < q <= 10/189 /\ 0 <= large_series x - ln (1 - q) <= q ^ 7 / (7 * (1 - q)).
Proof.
  intros Hx q. assert (Hq : 0 < q <= 10/189).
  { unfold q. split; [apply exp_pos|]. apply Rle_trans with (exp (- (3))); [left; apply exp_increasing; lra|].
    rewrite exp_Ropp. replace (10/189) with (/ (189/10)) by field. apply Rinv_le_contravar; [lra|exact exp3]. }
  split; [exact Hq|]. unfold large_series. fold q. clearbody q.
  set (P := fun q => q + q ^ 2 / 2 + q ^ 3 / 3 + q ^ 4 / 4 + q ^ 5 / 5 + q ^ 6 / 6).
  replace (- (q + q * q / 2 + q * q * q / 3 + q * q * q * q / 4 + q * q * q * q * q / 5 + q * q * q * q * q * q / 6))
    with (- P q) by (unfold P; field).
  assert (A : forall t, 0 <= t <= 1/2 -> 0 <= - P t - ln (1 - t)).
  { apply (from_zero _ (fun t => t ^ 6 / (1 - t))).
    - intros t Ht. unfold P. auto_derive; [lra|]. field. lra.
    - intros t Ht. apply Rmult_le_pos; [apply pow_le; lra|left; apply Rinv_0_lt_compat; lra].
    - unfold P. rewrite Rminus_0_r, ln_1. lra. }
  assert (B : forall t, 0 <= t <= 1/2 -> 0 <= t ^ 7 / (7 * (1 - t)) - (- P t - ln (1 - t))).
  { apply (from_zero _ (fun t => t ^ 7 / (7 * (1 - t) ^ 2))).
    - intros t Ht. unfold P. auto_derive; [lra|]. field. lra.
    - intros t Ht. apply Rmult_le_pos; [apply pow_le; lra|left; apply Rinv_0_lt_compat].
      apply Rmult_lt_0_compat; [lra|apply pow_lt; lra].
    - unfold P. rewrite Rminus_0_r, ln_1. lra. }
  specialize (A q ltac:(lra)). specialize (B q ltac:(lra)). lra.
Qed.
