(** Proofs about sampling along a path. *)
From Coquelicot Require Import Coquelicot.
From Coq Require Import Reals Lra Bool.
From Verif Require Import VectorModel QuatModel QuatSpec QuatProofs QuatPlace VertexModel VertexSpec VertexBounds.
Open Scope R_scope.

Notation tiny := (1 / 1000000).

(** ** Approximations *)

Lemma one_minus_exp_bounds x : 0 < x ->
  (1 - exp (- x)) * (1 - 1 / 100000000000) <= one_minus_exp x <= 1 - exp (- x).
Proof.
  intros Hx. pose proof (exp_minus_lt1 x Hx) as He. unfold one_minus_exp.
  destruct (Rlt_dec x (1/10)) as [H|H]; [|nra].
  pose proof (small_error x ltac:(lra)) as [A B].
  set (D := ln (1 - exp (- x)) - small_series x) in *.
  replace (small_series x) with (ln (1 - exp (- x)) + - D) by (unfold D; ring).
  rewrite exp_plus, exp_ln by lra.
  assert (HD : D <= 1 / 100000000000).
  { apply Rle_trans with (1 := B). assert (x ^ 6 <= (1/10) ^ 6) by (apply pow_incr; lra). lra. }
  pose proof (exp_ineq1_le (- D)).
  assert (exp (- D) <= 1). { rewrite <- exp_0. destruct A as [A|A]; [left; apply exp_increasing; lra|rewrite <- A, Ropp_0; lra]. }
  split; [apply Rmult_le_compat_l; lra|]. rewrite <- (Rmult_1_r (1 - exp (- x))) at 2. apply Rmult_le_compat_l; lra.
Qed.

Lemma log_small x : 0 < x < 1/10 -> 1 <= - ln (1 - exp (- x)).
Proof.
  intros Hx. pose proof (exp_minus_lt1 x ltac:(lra)). pose proof (exp_minus_high x ltac:(lra)).
  assert (Q : ln (1 - exp (- x)) <= ln (exp (- (1)))); [|rewrite ln_exp in Q; lra].
  apply ln_mono; [lra|]. rewrite (exp_Ropp 1). apply Rle_trans with (/ 3); [lra|].
  apply Rinv_le_contravar; [apply exp_pos|apply exp_le_3].
Qed.

Lemma ln_le_sub q : 0 <= q < 1 -> ln (1 - q) <= - q.
Proof. intros Hq. rewrite <- (ln_exp (- q)). apply ln_mono; [lra|]. pose proof (exp_ineq1_le (- q)). lra. Qed.

Lemma log_bounds x : 0 < x -> approx (1 / 100000000) (log_one_minus_exp x) (ln (1 - exp (- x))).
Proof.
  intros Hx. unfold approx, log_one_minus_exp. pose proof (exp_minus_lt1 x Hx) as He.
  destruct (Rlt_dec x (1/10)) as [H|H].
  - pose proof (log_small x ltac:(lra)). pose proof (small_error x ltac:(lra)) as [A B].
    assert (x ^ 6 <= (1/10) ^ 6) by (apply pow_incr; lra).
    rewrite !Rabs_left1 by lra. lra.
  - destruct (Rlt_dec 3 x) as [H3|H3].
    + destruct (large_error x H3) as [Q [A B]]. set (q := exp (- x)) in *. clearbody q.
      pose proof (ln_le_sub q ltac:(lra)) as L.
      rewrite Rabs_pos_eq by lra. rewrite Rabs_left1 by lra.
      assert (q ^ 6 <= (10/189) ^ 6) by (apply pow_incr; lra).
      assert (q ^ 7 / (7 * (1 - q)) <= 1 / 100000000 * q).
      { apply Rmult_le_reg_r with (7 * (1 - q)); [lra|]. unfold Rdiv at 1. rewrite Rmult_assoc, Rinv_l, Rmult_1_r by lra.
        replace (q ^ 7) with (q * q ^ 6) by ring.
        apply Rle_trans with (q * ((10/189) ^ 6)); [apply Rmult_le_compat_l; lra|].
        replace (1 / 100000000 * q * (7 * (1 - q))) with (q * (7 / 100000000 * (1 - q))) by field.
        apply Rmult_le_compat_l; lra. }
      lra.
    + rewrite Rminus_eq_0, Rabs_R0. apply Rmult_le_pos; [lra|apply Rabs_pos].
Qed.

(** The absolute error of the logarithm. *)
Lemma log_abs x : 0 < x -> Rabs (log_one_minus_exp x - ln (1 - exp (- x))) <= 1 / 1000000000.
Proof.
  intros Hx. unfold log_one_minus_exp. pose proof (exp_minus_lt1 x Hx) as He.
  destruct (Rlt_dec x (1/10)) as [H|H].
  - pose proof (small_error x ltac:(lra)) as [A B].
    assert (x ^ 6 <= (1/10) ^ 6) by (apply pow_incr; lra).
    rewrite Rabs_left1 by lra. lra.
  - destruct (Rlt_dec 3 x) as [H3|H3].
    + destruct (large_error x H3) as [Q [A B]]. set (q := exp (- x)) in *. clearbody q.
      rewrite Rabs_pos_eq by lra.
      assert (q ^ 7 <= (10/189) ^ 7) by (apply pow_incr; lra).
      assert (q ^ 7 / (7 * (1 - q)) <= 1 / 1000000000).
      { apply Rmult_le_reg_r with (7 * (1 - q)); [lra|]. unfold Rdiv at 1. rewrite Rmult_assoc, Rinv_l, Rmult_1_r by lra. lra. }
      lra.
    + rewrite Rminus_eq_0, Rabs_R0. lra.
Qed.

Lemma interaction_bounds T : 0 <= T ->
  approx tiny (interaction_probability T) (1 - exp (- T)) /\ 0 <= interaction_probability T <= 1.
Proof.
  intros HT. destruct (Req_dec T 0) as [->|N].
  { unfold interaction_probability, approx. destruct (Rlt_dec 0 tiny); [|lra].
    rewrite Ropp_0, exp_0, !Rminus_eq_0, Rabs_R0. lra. }
  pose proof (exp_minus_lt1 T ltac:(lra)) as He. unfold interaction_probability, approx.
  destruct (Rlt_dec T tiny) as [H|H].
  - pose proof (exp_minus_high T ltac:(lra)). pose proof (exp_minus_low T ltac:(lra)).
    rewrite !Rabs_pos_eq by lra. split; [|lra]. assert (T * T <= tiny * T) by (apply Rmult_le_compat_r; lra).
    nra.
  - pose proof (one_minus_exp_bounds T ltac:(lra)) as [A B]. split; [|nra].
    rewrite Rabs_left1 by lra. rewrite Rabs_pos_eq by lra. nra.
Qed.

Lemma survival_bounds T : 0 <= T ->
  0 <= survival_probability T <= 1 /\ survival_probability T = 1 - interaction_probability T /\
  Rabs (survival_probability T - exp (- T)) <= tiny.
Proof.
  intros HT. destruct (interaction_bounds T HT) as [A B].
  assert (E : survival_probability T = 1 - interaction_probability T).
  { unfold survival_probability. cbv zeta. destruct (Rlt_dec (1 - interaction_probability T) 0); [lra|].
    destruct (Rlt_dec 1 (1 - interaction_probability T)); lra. }
  rewrite E. split; [lra|]. split; [auto|].
  assert (0 <= 1 - exp (- T) <= 1).
  { pose proof (exp_pos (- T)). pose proof (exp_ineq1_le T). assert (exp (- T) <= 1); [|lra].
    rewrite exp_Ropp. rewrite <- Rinv_1. apply Rinv_le_contravar; lra. }
  unfold approx in A. rewrite (Rabs_pos_eq (1 - exp (- T))) in A by lra.
  replace (1 - interaction_probability T - exp (- T)) with (- (interaction_probability T - (1 - exp (- T)))) by ring.
  rewrite Rabs_Ropp. lra.
Qed.

(** ** Depth of the vertex *)

Lemma depth_arg T y : 0 < T -> 0 <= y <= 1 -> exp (- T) <= y * exp (- T) + (1 - y) <= 1.
Proof. intros HT Hy. pose proof (exp_minus_lt1 T HT). nra. Qed.

Lemma depth_exp T y : tiny <= T -> 0 <= y <= 1 -> 1 - exp (- traversed_depth T y) = y * (1 - exp (- T)).
Proof.
  intros HT Hy. unfold traversed_depth. destruct (Rlt_dec T tiny); [lra|]. cbv zeta. rewrite Ropp_involutive.
  pose proof (depth_arg T y ltac:(lra) Hy). pose proof (exp_pos (- T)). rewrite exp_ln by lra. ring.
Qed.

Lemma depth_onto T : 0 < T -> onto_interval (traversed_depth T) T.
Proof.
  intros HT. pose proof (exp_minus_lt1 T HT) as He. unfold traversed_depth.
  destruct (Rlt_dec T tiny) as [H|H]; cbv zeta.
  - constructor; [lra|lra| |].
    + intros y z H0 H1 H2. apply Rmult_lt_compat_r; lra.
    + intros t Ht. exists (t / T). split; [|field; lra]. split.
      * apply Rmult_le_pos; [lra|left; apply Rinv_0_lt_compat; lra].
      * apply Rmult_le_reg_r with T; [lra|]. unfold Rdiv. rewrite Rmult_assoc, Rinv_l by lra. lra.
  - constructor.
    + replace (0 * exp (- T) + (1 - 0)) with 1 by ring. rewrite ln_1. lra.
    + replace (1 * exp (- T) + (1 - 1)) with (exp (- T)) by ring. rewrite ln_exp. lra.
    + intros y z H0 H1 H2. apply Ropp_lt_contravar, ln_increasing; [|nra].
      pose proof (depth_arg T z HT ltac:(lra)). lra.
    + intros t Ht. exists ((1 - exp (- t)) / (1 - exp (- T))).
      assert (Hexp : exp (- T) <= exp (- t) <= 1).
      { split; [destruct (proj2 Ht) as [L|L]; [left; apply exp_increasing; lra|subst; lra]|].
        rewrite <- exp_0. destruct (proj1 Ht) as [L|L]; [left; apply exp_increasing; lra|rewrite <- L, Ropp_0; lra]. }
      split.
      * split; [apply Rmult_le_pos; [lra|left; apply Rinv_0_lt_compat; lra]|].
        apply Rmult_le_reg_r with (1 - exp (- T)); [lra|]. unfold Rdiv. rewrite Rmult_assoc, Rinv_l by lra. lra.
      * replace ((1 - exp (- t)) / (1 - exp (- T)) * exp (- T) + (1 - (1 - exp (- t)) / (1 - exp (- T)))) with (exp (- t)) by (field; lra).
        rewrite ln_exp. lra.
Qed.

Lemma depth_range T y : 0 < T -> 0 <= y <= 1 -> 0 <= traversed_depth T y <= T.
Proof.
  intros HT Hy. destruct (depth_onto T HT) as [A B C _]. split.
  - destruct (proj1 Hy) as [H|H]; [rewrite <- A; left; apply C; lra|subst; lra].
  - destruct (proj2 Hy) as [H|H]; [rewrite <- B at 2; left; apply C; lra|subst; rewrite B; lra].
Qed.

Lemma int_exp k a b : is_RInt (fun t => k * exp (- t)) a b (k * (exp (- a) - exp (- b))).
Proof.
  pose proof (is_RInt_derive (fun t => - k * exp (- t)) (fun t => k * exp (- t)) a b) as H.
  match type of H with ?A -> ?B -> _ => assert (HA : A); [|assert (HB : B)] end.
  - intros t _. auto_derive; auto. ring.
  - intros t _. apply (ex_derive_continuous (fun t => k * exp (- t)) t). auto_derive; auto.
  - specialize (H HA HB). change (is_RInt (fun t => k * exp (- t)) a b (- k * exp (- b) - - k * exp (- a))) in H.
    replace (k * (exp (- a) - exp (- b))) with (- k * exp (- b) - - k * exp (- a)) by ring. exact H.
Qed.

Lemma int_const k b : is_RInt (fun _ : R => k) 0 b (b * k).
Proof.
  pose proof (is_RInt_const 0 b k) as H. change (is_RInt (fun _ : R => k) 0 b ((b - 0) * k)) in H.
  rewrite Rminus_0_r in H. exact H.
Qed.

Lemma depth_density_exact T : tiny <= T -> has_density (traversed_depth T) (truncated_exponential T).
Proof.
  intros HT y Hy. pose proof (exp_minus_lt1 T ltac:(lra)) as He. unfold truncated_exponential.
  apply (is_RInt_ext (fun t => / (1 - exp (- T)) * exp (- t))).
  { intros t _. change (/ (1 - exp (- T)) * exp (- t) = exp (- t) / (1 - exp (- T))). field. lra. }
  pose proof (int_exp (/ (1 - exp (- T))) 0 (traversed_depth T y)) as H.
  rewrite Ropp_0, exp_0, depth_exp in H by auto.
  replace y with (/ (1 - exp (- T)) * (y * (1 - exp (- T)))) at 2 by (field; lra). exact H.
Qed.

(** The constant by which the density used when weighting is off. *)
Definition density_factor T := if Rlt_dec T tiny then 1 else exp (ln (1 - exp (- T)) - log_one_minus_exp T).

Lemma factor_bound T : 0 < T -> Rabs (density_factor T - 1) <= 2 / 1000000000.
Proof.
  intros HT. unfold density_factor. destruct (Rlt_dec T tiny); [rewrite Rminus_eq_0, Rabs_R0; lra|].
  pose proof (log_abs T HT) as H. set (e := ln (1 - exp (- T)) - log_one_minus_exp T).
  assert (He : Rabs e <= 1 / 1000000000) by (unfold e; rewrite Rabs_minus_sym; exact H). clearbody e.
  apply Rabs_le_between in He. pose proof (exp_ineq1_le e). pose proof (exp_ineq1_le (- e)) as H1.
  assert (exp e <= / (1 - e)).
  { replace (exp e) with (/ exp (- e)) by (rewrite exp_Ropp, Rinv_inv; auto). apply Rinv_le_contravar; lra. }
  assert (/ (1 - e) <= 1 + 2 / 1000000000).
  { apply Rmult_le_reg_r with (1 - e); [lra|]. rewrite Rinv_l by lra. nra. }
  apply Rabs_le_between. lra.
Qed.

Lemma factor_middle T : 1 / 10 <= T <= 3 -> density_factor T = 1.
Proof.
  intros HT. unfold density_factor, log_one_minus_exp. destruct (Rlt_dec T tiny); auto.
  destruct (Rlt_dec T (1/10)); [lra|]. destruct (Rlt_dec 3 T); [lra|]. rewrite Rminus_eq_0. apply exp_0.
Qed.

Lemma density_used T t : tiny <= T -> position_density 1 T t = density_factor T * truncated_exponential T t.
Proof.
  intros HT. unfold position_density, density_factor, truncated_exponential.
  destruct (Rlt_dec T tiny); [lra|]. pose proof (exp_minus_lt1 T ltac:(lra)).
  unfold Rminus at 1 2. rewrite !exp_plus, exp_ln by lra. field. lra.
Qed.

Lemma depth_density_used T : 0 < T -> forall y, 0 <= y <= 1 ->
  is_RInt (fun t => position_density 1 T t) 0 (traversed_depth T y) (density_factor T * y).
Proof.
  intros HT y Hy. destruct (Rlt_dec T tiny) as [H|H].
  - unfold position_density, traversed_depth, density_factor. destruct (Rlt_dec T tiny); [|lra].
    pose proof (int_const (1 / T) (y * T)) as I0. replace (1 * y) with (y * T * (1 / T)) by (field; lra). exact I0.
  - apply (is_RInt_ext (fun t => scal (density_factor T) (truncated_exponential T t))).
    { intros t _. symmetry. apply density_used. lra. }
    apply (is_RInt_scal (truncated_exponential T) 0 (traversed_depth T y) (density_factor T) y).
    apply depth_density_exact; lra.
Qed.

(** Below 1e-6 the depth is drawn uniformly. *)
Lemma depth_small T y : 0 < T < tiny -> 0 < y <= 1 ->
  y <= (1 - exp (- traversed_depth T y)) / (1 - exp (- T)) <= y * (1 + tiny).
Proof.
  intros HT Hy. unfold traversed_depth. destruct (Rlt_dec T tiny); [|lra].
  pose proof (exp_minus_lt1 T ltac:(lra)) as He.
  assert (P : 0 < y * T <= T) by nra.
  pose proof (exp_minus_high (y * T) ltac:(lra)) as H1. pose proof (exp_minus_low T ltac:(lra)) as H4.
  split.
  - apply Rmult_le_reg_r with (1 - exp (- T)); [lra|]. unfold Rdiv. rewrite Rmult_assoc, Rinv_l, Rmult_1_r by lra.
    cut (exp (- (y * T)) <= (1 - y) * 1 + y * exp (- T)); [lra|].
    (* convexity of the exponential *)
    pose proof (exp_ineq1_le (y * T)) as A. 
    set (g := fun s => (1 - s) * 1 + s * exp (- T) - exp (- (s * T))).
    cut (0 <= g y); [unfold g; lra|].
    (* tangent lines at y from both ends *)
    pose proof (exp_ineq1_le (- (0) + y * T)) as B0. 
    pose proof (exp_ineq1_le (- T + y * T)) as B1.
    assert (E0 : exp (- (0) + y * T) * exp (- (y * T)) = 1).
    { rewrite <- exp_plus. replace (- (0) + y * T + - (y * T)) with 0 by ring. apply exp_0. }
    assert (E1 : exp (- T + y * T) * exp (- (y * T)) = exp (- T)).
    { rewrite <- exp_plus. f_equal. ring. }
    pose proof (exp_pos (- (y * T))) as Pe. unfold g. rewrite <- E1.
    set (q := exp (- (y * T))) in *.
    replace ((1 - y) * 1 + y * (exp (- T + y * T) * q) - q)
      with (q * ((1 - y) * exp (- 0 + y * T) + y * exp (- T + y * T) - 1))
      by (transitivity ((1 - y) * (exp (- 0 + y * T) * q) + y * (exp (- T + y * T) * q) - q); [ring|rewrite E0; ring]).
    apply Rmult_le_pos; [lra|].
    apply Rle_trans with ((1 - y) * (1 + (- 0 + y * T)) + y * (1 + (- T + y * T)) - 1); [apply Req_le; ring|].
    apply Rplus_le_compat_r, Rplus_le_compat; apply Rmult_le_compat_l; lra.
  - apply Rmult_le_reg_r with (1 - exp (- T)); [lra|]. unfold Rdiv at 1. rewrite Rmult_assoc, Rinv_l, Rmult_1_r by lra.
    apply Rle_trans with (1 := H1).
    replace (y * (1 + tiny) * (1 - exp (- T))) with (y * ((1 + tiny) * (1 - exp (- T)))) by ring.
    apply Rmult_le_compat_l; [lra|].
    apply Rle_trans with ((1 + tiny) * (T - T * T / 2)); [|apply Rmult_le_compat_l; lra].
    assert (T * T <= tiny * T) by (apply Rmult_le_compat_r; lra). nra.
Qed.

(** ** Decay in flight *)

Lemma decay_arg x y : 0 < x -> 0 <= y <= 1 -> exp (- x) <= y * (exp (- x) - 1) + 1 <= 1.
Proof. intros Hx Hy. pose proof (exp_minus_lt1 x Hx). nra. Qed.

Lemma decay_onto L D : 0 < L -> 0 < D -> onto_interval (decay_distance L D) D.
Proof.
  intros HL HD. unfold decay_distance. replace (- D / L) with (- (D / L)) by (field; lra).
  assert (Hx : 0 < D / L) by (apply Rdiv_lt_0_compat; lra).
  pose proof (exp_minus_lt1 (D / L) Hx) as He. constructor.
  - rewrite Rmult_0_l, Rplus_0_l, ln_1. ring.
  - replace (1 * (exp (- (D / L)) - 1) + 1) with (exp (- (D / L))) by ring. rewrite ln_exp. field. lra.
  - intros y z H0 H1 H2. pose proof (decay_arg (D / L) z Hx ltac:(lra)).
    assert (ln (z * (exp (- (D / L)) - 1) + 1) < ln (y * (exp (- (D / L)) - 1) + 1)) by (apply ln_increasing; nra).
    nra.
  - intros d Hd. exists ((1 - exp (- (d / L))) / (1 - exp (- (D / L)))).
    assert (Hx2 : 0 <= d / L <= D / L).
    { split; [apply Rmult_le_pos; [lra|left; apply Rinv_0_lt_compat; lra]|].
      apply Rmult_le_compat_r; [left; apply Rinv_0_lt_compat; lra|lra]. }
    assert (Hexp : exp (- (D / L)) <= exp (- (d / L)) <= 1).
    { split; [destruct (proj2 Hx2) as [Q|Q]; [left; apply exp_increasing; lra|rewrite Q; lra]|].
      rewrite <- exp_0. destruct (proj1 Hx2) as [Q|Q]; [left; apply exp_increasing; lra|rewrite <- Q, Ropp_0; lra]. }
    split.
    + split; [apply Rmult_le_pos; [lra|left; apply Rinv_0_lt_compat; lra]|].
      apply Rmult_le_reg_r with (1 - exp (- (D / L))); [lra|]. unfold Rdiv at 1. rewrite Rmult_assoc, Rinv_l by lra. lra.
    + replace ((1 - exp (- (d / L))) / (1 - exp (- (D / L))) * (exp (- (D / L)) - 1) + 1) with (exp (- (d / L))) by (field; lra).
      rewrite ln_exp. field. lra.
Qed.

Lemma decay_range L D y : 0 < L -> 0 < D -> 0 <= y <= 1 -> 0 <= decay_distance L D y <= D.
Proof.
  intros HL HD Hy. destruct (decay_onto L D HL HD) as [A B C _]. split.
  - destruct (proj1 Hy) as [H|H]; [rewrite <- A; left; apply C; lra|subst; lra].
  - destruct (proj2 Hy) as [H|H]; [rewrite <- B at 2; left; apply C; lra|subst; rewrite B; lra].
Qed.

Lemma decay_has_density L D : 0 < L -> 0 < D -> has_density (decay_distance L D) (decay_density L D).
Proof.
  intros HL HD y Hy. assert (Hx : 0 < D / L) by (apply Rdiv_lt_0_compat; lra).
  pose proof (exp_minus_lt1 (D / L) Hx) as He. pose proof (decay_arg (D / L) y Hx Hy) as Ha.
  set (k := 1 - exp (- (D / L))) in *.
  pose proof (is_RInt_derive (fun d => - (1 / k) * exp (- d / L)) (decay_density L D) 0 (decay_distance L D y)) as H.
  assert (ED : forall d, decay_density L D d = exp (- d / L) / (L * k)).
  { intro d. unfold decay_density, k. replace (- D / L) with (- (D / L)) by (field; lra). reflexivity. }
  match type of H with ?A -> ?B -> _ => assert (HA : A); [|assert (HB : B)] end.
  - intros t _. rewrite ED. assert (k <> 0) by (unfold k; lra). auto_derive; auto. change (- t * / L) with (- t / L). field. lra.
  - intros t _. apply (continuous_ext (fun d => exp (- d / L) / (L * k))); [intro; symmetry; apply ED|].
    apply (ex_derive_continuous (fun d => exp (- d / L) / (L * k)) t). auto_derive; auto.
  - specialize (H HA HB).
    change (is_RInt (decay_density L D) 0 (decay_distance L D y)
      (- (1 / k) * exp (- decay_distance L D y / L) - - (1 / k) * exp (- 0 / L))) in H.
    replace (- 0 / L) with 0 in H by (field; lra). rewrite exp_0 in H.
    replace (exp (- decay_distance L D y / L)) with (1 - y * k) in H.
    + replace y with (- (1 / k) * (1 - y * k) - - (1 / k) * 1) at 2 by (field; unfold k in *; lra). exact H.
    + unfold decay_distance. replace (- D / L) with (- (D / L)) by (field; lra).
      replace (- (- L * ln (y * (exp (- (D / L)) - 1) + 1)) / L) with (ln (y * (exp (- (D / L)) - 1) + 1)) by (field; lra).
      rewrite exp_ln by lra. unfold k. ring.
Qed.

(** ** Geometry of the disk *)

Lemma vnormalized_unit v : vdot v v = 1 -> vnormalized v = v.
Proof. apply normalized_of_unit. Qed.

Lemma disk_geometry radius u w dir : 0 < radius -> 0 <= w -> vdot dir dir = 1 ->
  vdot dir (sample_disk radius u w dir) = 0 /\
  vdot (sample_disk radius u w dir) (sample_disk radius u w dir) = radius * radius * w.
Proof.
  intros Hr Hw Hu. unfold sample_disk. cbv zeta.
  assert (N0 : mkv 0 0 1 <> mkv 0 0 0) by (intro E; injection E; lra).
  assert (N1 : dir <> mkv 0 0 0) by (intro E; subst; unfold vdot in Hu; cbn in Hu; lra).
  destruct (between_ok (mkv 0 0 1) dir N0 N1) as [U E].
  { intros [[_ A] _]. cbn in A. lra. }
  assert (M0 : vmag (mkv 0 0 1) = 1). { unfold vmag. cbn. replace (0 * 0 + 0 * 0 + 1 * 1) with 1 by ring. apply sqrt_1. }
  assert (M1 : vmag dir = 1). { rewrite vmag_dot, Hu. apply sqrt_1. }
  rewrite M0, M1, Rinv_1 in E.
  assert (S1 : forall v, vscale 1 v = v) by (intros [a b c]; unfold vscale; cbn; f_equal; ring).
  rewrite !S1 in E.
  destruct (rotate_is_rotation _ (unit_nonzero _ U) (unit_exact _ U)) as [[_ _ RD _] _].
  split.
  - rewrite <- E at 1. rewrite RD. unfold vdot. cbn. ring.
  - rewrite RD. unfold vdot. cbn. set (t := u * (2 * PI)).
    pose proof (sin2_cos2 t) as SC. unfold Rsqr in SC.
    pose proof (sqrt_sqrt w Hw) as SW.
    transitivity (radius * radius * (sqrt w * sqrt w) * (sin t * sin t + cos t * cos t)); [ring|].
    rewrite SC, SW. ring.
Qed.

Lemma closest_line dir p k : vdot dir dir = 1 -> vdot dir p = 0 -> closest dir (vadd p (vscale k dir)) = p.
Proof.
  intros U P. unfold closest. replace (vdot dir (vadd p (vscale k dir))) with k.
  - destruct p, dir. unfold vsub, vadd, vscale. cbn. f_equal; ring.
  - transitivity (vdot dir p + k * vdot dir dir); [rewrite P, U; ring|]. unfold vdot, vadd, vscale. cbn. ring.
Qed.

Lemma within_ok first dir len d : vdot dir dir = 1 -> 0 <= d <= len ->
  within_bounds first dir len (point_at first dir d) = true.
Proof.
  intros U Hd. unfold within_bounds, point_at.
  replace (vdot dir (vsub first (vadd first (vscale d dir)))) with (- d)
    by (transitivity (- d * vdot dir dir); [rewrite U; ring|unfold vdot, vadd, vscale, vsub; cbn; ring]).
  replace (vdot dir (vsub (vadd first (vscale len dir)) (vadd first (vscale d dir)))) with (len - d)
    by (transitivity ((len - d) * vdot dir dir); [rewrite U; ring|unfold vdot, vadd, vscale, vsub; cbn; ring]).
  destruct (Rlt_dec 0 (- d)); [lra|]. destruct (Rlt_dec (len - d) 0); [lra|].
  destruct (Rle_dec (- d) 0); [|lra]. destruct (Rle_dec 0 (len - d)); [auto|lra].
Qed.

Lemma along_distance first dir d : vdot dir dir = 1 -> vdot dir (vsub (point_at first dir d) first) = d.
Proof.
  intros U. transitivity (d * vdot dir dir); [|rewrite U; ring]. unfold point_at, vdot, vadd, vscale, vsub. cbn. ring.
Qed.

Lemma mag_lt r p : 0 < r -> vdot p p < r * r -> vmag p < r.
Proof.
  intros Hr H. rewrite vmag_dot. rewrite <- (sqrt_square r) by lra. apply sqrt_lt_1; try nra.
  apply vdot_nonneg.
Qed.

(** The line, the path and the disk of a sampled vertex are found again from it. *)
Lemma recovered trim radius endcap u w direction d : direction <> mkv 0 0 0 -> 0 < radius -> 0 <= w < 1 ->
  let dir := vnormalized direction in
  let pca := sample_disk radius u w dir in
  let first := fst (path_of trim endcap pca dir) in
  vdot dir dir = 1 /\ closest dir (point_at first dir d) = pca /\ vmag pca < radius.
Proof.
  intros N Hr Hw dir pca first. destruct (normalized_unit direction N) as [U _]. fold dir in U.
  destruct (disk_geometry radius u w dir Hr (proj1 Hw) U) as [A B]. fold pca in A, B.
  split; [exact U|]. split.
  - unfold first, path_of, point_at. destruct (trim pca dir) as [a len]. cbn [fst].
    rewrite <- (closest_line dir pca (a - endcap + d) U A) at 2. f_equal.
    unfold vadd, vsub, vscale. cbn. f_equal; ring.
  - apply mag_lt; auto. rewrite B. assert (0 < radius * radius) by nra. nra.
Qed.

Lemma decay_recovered trim radius endcap L u w y direction : direction <> mkv 0 0 0 -> 0 < radius -> 0 < L -> 0 <= w < 1 -> 0 <= y <= 1 ->
  let dir := vnormalized direction in
  let '(first, len) := path_of trim endcap (sample_disk radius u w dir) dir in
  0 < len ->
  decay_sample trim radius endcap L u w y direction = (first, point_at first dir (decay_distance L len y)) /\
  decay_generation trim radius endcap L direction (snd (decay_sample trim radius endcap L u w y direction)) =
  decay_density L len (decay_distance L len y) / (PI * radius * radius).
Proof.
  intros N Hr HL Hw Hy dir. destruct (path_of trim endcap (sample_disk radius u w dir) dir) as [first len] eqn:EP.
  intros Hlen.
  assert (ES : decay_sample trim radius endcap L u w y direction = (first, point_at first dir (decay_distance L len y))).
  { unfold decay_sample. fold dir. rewrite EP. reflexivity. }
  split; [exact ES|]. rewrite ES. cbn [snd].
  destruct (recovered trim radius endcap u w direction (decay_distance L len y) N Hr Hw) as [U [C M]].
  fold dir in U, C, M. rewrite EP in C. cbn [fst] in C.
  unfold decay_generation. fold dir. rewrite C. destruct (Rle_dec radius _); [lra|]. rewrite EP.
  rewrite within_ok by (auto using decay_range). cbn [negb]. rewrite along_distance by auto. reflexivity.
Qed.

Lemma depth_recovered trim depth reach mu radius endcap u w y direction : direction <> mkv 0 0 0 -> 0 < radius -> 0 <= w < 1 -> 0 <= y <= 1 ->
  let dir := vnormalized direction in
  let '(first, len) := path_of trim endcap (sample_disk radius u w dir) dir in
  let T := depth first dir len in
  0 < T ->
  (forall t, 0 <= t <= T -> 0 <= reach first dir t <= len /\ depth first dir (reach first dir t) = t) ->
  let vertex := point_at first dir (reach first dir (traversed_depth T y)) in
  depth_sample trim depth reach radius endcap u w y direction = Some (first, vertex) /\
  depth_generation trim depth mu radius endcap direction vertex =
  position_density (mu vertex) T (traversed_depth T y) / (PI * radius * radius).
Proof.
  intros N Hr Hw Hy dir. destruct (path_of trim endcap (sample_disk radius u w dir) dir) as [first len] eqn:EP.
  intros T HT HR vertex. split.
  - unfold depth_sample. fold dir. rewrite EP. fold T. destruct (Req_EM_T T 0); [lra|]. reflexivity.
  - set (d := reach first dir (traversed_depth T y)) in *.
    destruct (HR (traversed_depth T y) (depth_range T y HT Hy)) as [Hd Ed]. fold d in Hd, Ed.
    destruct (recovered trim radius endcap u w direction d N Hr Hw) as [U [C M]].
    fold dir in U, C, M. rewrite EP in C. cbn [fst] in C. fold vertex in C.
    unfold depth_generation. fold dir. rewrite C. destruct (Rle_dec radius _); [lra|]. rewrite EP.
    unfold vertex at 1. rewrite within_ok by auto. cbn [negb]. fold vertex. fold T.
    unfold distance_in_bounds. replace (vdot dir (vsub vertex first)) with d by (symmetry; apply along_distance; auto).
    rewrite Rmax_right by lra. rewrite Ed. reflexivity.
Qed.

(** Nothing is generated outside the cylinder or more than a millimetre beyond the path. *)
Lemma decay_outside trim radius endcap L direction v : radius <= vmag (closest (vnormalized direction) v) ->
  decay_generation trim radius endcap L direction v = 0.
Proof. intros H. unfold decay_generation. destruct (Rle_dec radius _); [auto|lra]. Qed.

(** ** Density of the position *)

Lemma position_along (mu tau : R -> R) T len : 0 < T -> 0 <= len ->
  (forall s, 0 <= s <= len -> is_derive tau s (mu s)) -> (forall s, 0 <= s <= len -> continuous mu s) -> tau 0 = 0 ->
  forall s, 0 <= s <= len -> forall y, 0 <= y <= 1 -> tau s = traversed_depth T y ->
  is_RInt (fun s => position_density (mu s) T (tau s)) 0 s (density_factor T * y).
Proof.
  intros HT Hlen Hd Hc H0 s Hs y Hy Hty.
  assert (EX : forall x, position_density (mu x) T (tau x) = scal (mu x) (position_density 1 T (tau x))).
  { intro x. change (position_density (mu x) T (tau x) = mu x * position_density 1 T (tau x)).
    unfold position_density. destruct (Rlt_dec T tiny); [field; lra|ring]. }
  apply (is_RInt_ext (fun x => scal (mu x) (position_density 1 T (tau x)))); [intros; symmetry; apply EX|].
  pose proof (is_RInt_comp (fun t => position_density 1 T t) tau mu 0 s) as H.
  match type of H with ?A -> ?B -> _ => assert (HA : A); [|assert (HB : B)] end.
  - intros x _. unfold position_density. destruct (Rlt_dec T tiny).
    + apply (ex_derive_continuous (fun _ => 1 / T) (tau x)). auto_derive; auto.
    + apply (ex_derive_continuous (fun t => 1 * exp (- log_one_minus_exp T - t)) (tau x)). auto_derive; auto.
  - intros x Hx. rewrite Rmin_left, Rmax_right in Hx by lra. split; [apply Hd|apply Hc]; lra.
  - specialize (H HA HB). rewrite H0, Hty in H.
    rewrite (is_RInt_unique _ _ _ _ (depth_density_used T HT y Hy)) in H. exact H.
Qed.
