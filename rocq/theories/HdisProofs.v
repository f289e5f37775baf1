(** Lemmas about the production of heavy neutral leptons in deep inelastic scattering. *)
From Coq Require Import Reals List Bool ZArith Lra Psatz Lia.
From Verif Require Import RandomModel HdisModel HdisSpec.
Import ListNotations.
Open Scope R_scope.

Section Point.
Variables x y E M m : R.
Hypothesis HE : 0 < E.
Hypothesis HM : 0 < M.
Hypothesis Hm : 0 <= m.
Hypothesis Hx : 0 < x < 1.
Hypothesis Hy : 0 < y < 1.

Let t := m * m / (2 * M * E * x).
Let r := m / E.
Let d := 2 * (1 + M * x / (2 * E)).
Let ad := 1 - t - r * r / 2.
Let arg := (1 - t) * (1 - t) - r * r.

Lemma mex : 0 < 2 * M * E * x.
Proof. apply Rmult_lt_0_compat; [|lra]. apply Rmult_lt_0_compat; lra. Qed.
Lemma t_eq : t * (2 * M * E * x) = m * m.
Proof. unfold t. pose proof mex. field. repeat split; lra. Qed.
Lemma r_eq : r * E = m.
Proof. unfold r. field. lra. Qed.
Lemma t_nonneg : 0 <= t.
Proof. unfold t. apply Rmult_le_pos; [nra|]. left. apply Rinv_0_lt_compat, mex. Qed.
Lemma r_nonneg : 0 <= r.
Proof. unfold r. apply Rmult_le_pos; [auto|]. left. apply Rinv_0_lt_compat, HE. Qed.
Lemma d_pos : 2 < d.
Proof. unfold d. assert (0 < M * x / (2 * E)). { apply Rmult_lt_0_compat; [nra|]. apply Rinv_0_lt_compat. lra. } lra. Qed.
Lemma ad_eq : 1 - m * m * (1 / (2 * M * E * x) + 1 / (2 * E * E)) = ad.
Proof. unfold ad, t, r. field. repeat split; lra. Qed.
Lemma arg_eq : (1 - m * m / (2 * M * E * x)) * (1 - m * m / (2 * M * E * x)) - m * m / (E * E) = arg.
Proof. unfold arg, t, r. field. repeat split; lra. Qed.

Lemma root_range : (d * y - ad) * (d * y - ad) <= arg -> 0 <= arg /\ ad - sqrt arg <= d * y <= ad + sqrt arg.
Proof.
  intros H. assert (A : 0 <= arg) by (pose proof (Rle_0_sqr (d * y - ad)) as Q; unfold Rsqr in Q; lra). split; auto.
  clearbody arg ad d. pose proof (sqrt_pos arg). pose proof (sqrt_sqrt arg A). split; nra.
Qed.
Lemma range_root : 0 <= arg -> ad - sqrt arg <= d * y <= ad + sqrt arg -> (d * y - ad) * (d * y - ad) <= arg.
Proof. intros A [H1 H2]. pose proof (sqrt_pos arg). pose proof (sqrt_sqrt arg A). nra. Qed.

Lemma good_side : (d * y - ad) * (d * y - ad) <= arg -> r <= 1 - t.
Proof.
  intros H. destruct (root_range H) as [A [B1 B2]]. pose proof t_nonneg. pose proof r_nonneg. pose proof d_pos.
  destruct (Rle_lt_dec r (1 - t)) as [|C]; auto. exfalso.
  assert (r <= t - 1). { destruct (Rle_lt_dec r (t - 1)); auto. exfalso. unfold arg in A. nra. }
  assert (sqrt arg <= t - 1). { pose proof (sqrt_square (t - 1) ltac:(lra)) as Q. apply Rle_trans with (sqrt ((t - 1) * (t - 1))); [|right; exact Q]. apply sqrt_le_1_alt. unfold arg. nra. }
  assert (0 < d * y) by (apply Rmult_lt_0_compat; lra). unfold ad in B2. nra.
Qed.

Lemma side_energy : r <= 1 - t -> m < E /\ m * m / (2 * M * (E - m)) <= x.
Proof.
  intros H. pose proof t_nonneg. pose proof r_nonneg. pose proof r_eq as R1. pose proof t_eq as T1. pose proof mex.
  assert (L : m < E).
  { destruct (Rlt_le_dec m E); auto. exfalso. assert (1 <= r) by nra. assert (T : t = 0) by lra. rewrite T in T1. nra. }
  split; auto. assert (P : 0 < 2 * M * (E - m)) by (apply Rmult_lt_0_compat; lra).
  apply Rmult_le_reg_r with (2 * M * (E - m)); auto. unfold Rdiv. rewrite Rmult_assoc, Rinv_l, Rmult_1_r by lra.
  rewrite <- T1. replace (x * (2 * M * (E - m))) with ((1 - r) * (2 * M * E * x)) by (rewrite <- R1; ring). nra.
Qed.

Lemma low_side : m < E -> m * m / (2 * M * (E - m)) <= x -> r <= 1 - t.
Proof.
  intros L H. pose proof r_eq as R1. pose proof t_eq as T1. pose proof mex.
  assert (P : 0 < 2 * M * (E - m)) by (apply Rmult_lt_0_compat; lra).
  apply Rmult_le_compat_r with (r := 2 * M * (E - m)) in H; [|lra]. unfold Rdiv in H. rewrite Rmult_assoc, Rinv_l, Rmult_1_r in H by lra.
  rewrite <- T1 in H. replace (x * (2 * M * (E - m))) with ((1 - r) * (2 * M * E * x)) in H by (rewrite <- R1; ring). nra.
Qed.

Lemma mixing_iff : mixing_allowed x y E M m = true <-> (d * y - ad) * (d * y - ad) <= arg.
Proof.
  unfold mixing_allowed. cbv zeta. rewrite ad_eq, arg_eq. fold d. split.
  - destruct (Rlt_dec 1 x); [discriminate|]. destruct (Req_EM_T E m); [discriminate|]. destruct (Rlt_dec x _); [discriminate|].
    destruct (Rlt_dec arg 0); [discriminate|]. destruct (Rle_dec (ad - sqrt arg) (d * y)); [|discriminate]. destruct (Rle_dec (d * y) (ad + sqrt arg)); [|discriminate].
    intros _. apply range_root; lra.
  - intros H. destruct (root_range H) as [A [B1 B2]]. destruct (side_energy (good_side H)) as [L X].
    destruct (Rlt_dec 1 x); [lra|]. destruct (Req_EM_T E m); [lra|]. destruct (Rlt_dec x _); [lra|].
    destruct (Rlt_dec arg 0); [lra|]. destruct (Rle_dec (ad - sqrt arg) (d * y)); [|lra]. destruct (Rle_dec (d * y) (ad + sqrt arg)); [auto|lra].
Qed.

(** The square of the momentum across, for the momentum along that energy and transfer need. *)
Let kl := (2 * E * E * (1 - y) - m * m - 2 * M * E * x * y) / (2 * E).
Let across := (1 - y) * E * ((1 - y) * E) - m * m - kl * kl.

Lemma across_eq : across * 2 * d = (arg - (d * y - ad) * (d * y - ad)) * (2 * M * E * x).
Proof. unfold across, arg, ad, d, kl, t, r. field. repeat split; lra. Qed.

Lemma leaves_iff : (exists e k kt, leaves E M m x y e k kt) <-> (d * y - ad) * (d * y - ad) <= arg.
Proof.
  pose proof across_eq as A. pose proof d_pos. pose proof mex. split.
  - intros (e & k & kt & -> & H1 & H2). assert (K : k = kl). { unfold kl. apply Rmult_eq_reg_r with (2 * E); [|lra]. field_simplify; [|lra]. nra. }
    assert (across = kt * kt) by (unfold across; rewrite <- K; nra). assert (0 <= across) by nra. nra.
  - intros H1. assert (0 <= across) by nra. exists ((1 - y) * E), kl, (sqrt across). unfold leaves.
    rewrite pow2_sqrt by auto. split; [auto|]. split; [unfold across; ring|]. unfold across, kl. field. lra.
Qed.
End Point.

Lemma above_threshold E M m x : 0 < M -> 0 <= m -> x <= 1 -> m < E -> m * m / (2 * M * (E - m)) <= x -> (m + M) ^ 2 <= M * M + 2 * M * E.
Proof.
  intros HM Hm Hx L H. assert (P : 0 < 2 * M * (E - m)) by (apply Rmult_lt_0_compat; lra).
  apply Rmult_le_compat_r with (r := 2 * M * (E - m)) in H; [|lra]. unfold Rdiv in H. rewrite Rmult_assoc, Rinv_l, Rmult_1_r in H by lra. nra.
Qed.

Lemma iso_pos : 0 < iso_mass.
Proof. unfold iso_mass. lra. Qed.

Lemma threshold_iff c E : 0 <= h_mass c -> (h_threshold c <= E <-> (h_mass c + iso_mass) ^ 2 <= iso_mass * iso_mass + 2 * iso_mass * E).
Proof.
  intros _. pose proof iso_pos as P. unfold h_threshold. set (D := (h_mass c + iso_mass) ^ 2 - iso_mass * iso_mass). 
  assert (Q : D / (2 * iso_mass) * (2 * iso_mass) = D) by (field; lra). split; intros H; unfold D in *; nra.
Qed.

(** The first condition of the check for the dipole alone makes the energy exceed the mass. *)
Lemma recoil_energy x y E M m : 0 < E -> 0 < M -> 0 <= m -> 0 < x < 1 -> 0 < y < 1 ->
  let W2 := M * M + 2 * M * E * x * y / x * (1 - x) in
  let term := m * m - W2 - 2 * x * E * M - x * x * M * M + 2 * (E * y) * (x * M + E) in
  0 < E * y * (E * y) - W2 - term * term / (4 * E * E) -> m < E.
Proof.
  intros HE HM Hm Hx Hy. cbv zeta. replace (2 * M * E * x * y / x) with (2 * M * E * y) by (field; lra).
  assert (HEr : 0 < E * y < E) by nra. assert (HW : M * M < M * M + 2 * M * E * y * (1 - x)).
  { assert (0 < M * E * y) by (rewrite Rmult_assoc; apply Rmult_lt_0_compat; lra). nra. }
  set (W2 := M * M + 2 * M * E * y * (1 - x)) in *. set (Er := E * y) in *. clearbody W2 Er.
  set (term := m * m - W2 - 2 * x * E * M - x * x * M * M + 2 * Er * (x * M + E)). intros H.
  set (p2 := Er * Er - W2) in *. assert (T0 : 0 <= term * term / (4 * E * E)). { apply Rmult_le_pos; [nra|]. left. apply Rinv_0_lt_compat. nra. }
  assert (P2 : 0 < p2) by lra. assert (T1 : term * term < 4 * E * E * p2).
  { replace (term * term) with (term * term / (4 * E * E) * (4 * E * E)) by (field; lra). rewrite (Rmult_comm (4 * E * E)). apply Rmult_lt_compat_r; nra. }
  pose proof (sqrt_lt_R0 p2 P2) as S0. pose proof (sqrt_sqrt p2 (Rlt_le _ _ P2)) as S1. set (p := sqrt p2) in *. clearbody p.
  assert (T2 : term < 2 * E * p). { destruct (Rlt_le_dec term (2 * E * p)) as [|C]; auto. exfalso. assert (0 < 2 * E * p) by nra. nra. }
  assert (M1 : M < Er). { unfold p2 in P2. nra. }
  assert (X1 : x * M < M) by nra.
  assert (F : m * m < (E + x * M - Er) * (E + x * M - Er) - (E - p) * (E - p)). { unfold term in T2. unfold p2 in S1. nra. }
  assert (A : 0 < E + x * M - Er < E). { assert (0 < x * M) by nra. lra. }
  set (a := E + x * M - Er) in *. clearbody a. pose proof (Rle_0_sqr (E - p)) as Q. unfold Rsqr in Q. assert (m * m < E * E) by nra. nra.
Qed.

(** The first condition of the check for the dipole has no solution in the lower half of x. *)
Lemma recoil_low x y E M m : 0 < E -> 0 < M -> 0 < x <= 1 / 2 -> 0 < y < 1 ->
  let W2 := M * M + 2 * M * E * x * y / x * (1 - x) in
  let term := m * m - W2 - 2 * x * E * M - x * x * M * M + 2 * (E * y) * (x * M + E) in
  E * y * (E * y) - W2 - term * term / (4 * E * E) <= 0.
Proof.
  intros HE HM Hx Hy. cbv zeta. replace (2 * M * E * x * y / x) with (2 * M * E * y) by (field; lra).
  set (u := m * m). assert (U : 0 <= u) by (unfold u; nra). clearbody u.
  set (g := (M * M * (1 + x * x) - u) / (2 * E)). assert (G : g * (2 * E) = M * M * (1 + x * x) - u) by (unfold g; field; lra).
  set (de := M * (y * (1 - 2 * x) + x) + g).
  match goal with |- ?a <= 0 => replace a with (2 * M * E * y * (2 * x - 1) * (1 - y) + y * (M * M * (1 + x * x) - u) - M * M - de * de) end.
  2: { unfold de, g. field. lra. }
  assert (MM : 0 < M * M) by nra. assert (A : 0 <= M * E * y * (1 - 2 * x) * (1 - y)).
  { repeat apply Rmult_le_pos; lra. }
  assert (D : 0 <= de * de) by nra. assert (X2 : x * x <= 1 / 4) by nra.
  destruct (Rle_lt_dec y (4 / 5)) as [Y | Y].
  { assert (y * (M * M * (1 + x * x)) <= M * M). { assert (y * (1 + x * x) <= 1) by nra. nra. } nra. }
  destruct (Rle_lt_dec u (M * M * (1 + x * x))) as [B | B].
  - assert (0 <= g). { destruct (Rle_lt_dec 0 g); auto. exfalso. nra. }
    assert (x * M <= de). { unfold de. assert (0 <= M * (y * (1 - 2 * x))) by (repeat apply Rmult_le_pos; lra). nra. }
    assert (x * M * (x * M) <= de * de). { assert (0 <= x * M) by nra. nra. }
    assert (y * (M * M * (1 + x * x) - u) <= M * M * (1 + x * x) - u) by nra. nra.
  - assert (y * (M * M * (1 + x * x) - u) <= 0) by nra. nra.
Qed.

Lemma dipole_high_x x y E M m : 0 < E -> 0 < M -> 0 < x -> 0 < y < 1 -> dipole_allowed x y E M m = true -> 1 / 2 < x.
Proof.
  intros HE HM Hx Hy. unfold dipole_allowed. cbv zeta. destruct (Rle_dec _ 0) as [|F]; [discriminate|]. intros _.
  destruct (Rlt_le_dec (1 / 2) x) as [|L]; auto. exfalso. apply F. apply (recoil_low x y E M m); auto.
Qed.

Lemma dipole_mixing x y E M m : 0 < E -> 0 < M -> 0 <= m -> 0 < x < 1 -> 0 < y < 1 -> dipole_allowed x y E M m = true -> mixing_allowed x y E M m = true.
Proof.
  intros HE HM Hm Hx Hy. unfold dipole_allowed. cbv zeta. destruct (Rle_dec _ 0) as [|F]; [discriminate|]. apply Rnot_le_lt in F.
  pose proof (recoil_energy x y E M m HE HM Hm Hx Hy F) as L. destruct (Req_EM_T E m); [discriminate|]. destruct (Rlt_dec x _) as [|X]; [discriminate|].
  apply Rnot_lt_le in X. destruct (Rlt_dec 1 x); [discriminate|]. clear F.
  rewrite (ad_eq x E M m HE HM Hx). replace ((1 - m * m / (2 * M * E * x)) ^ 2) with ((1 - m * m / (2 * M * E * x)) * (1 - m * m / (2 * M * E * x))) by ring.
  rewrite (arg_eq x E M m HE HM Hx). set (t := m * m / (2 * M * E * x)). set (r := m / E). set (d := 2 * (1 + M * x / (2 * E))).
  assert (D : 2 < d) by (apply d_pos; auto). pose proof (low_side x E M m HE HM Hx L X) as B. fold t r in B.
  assert (R0 : 0 <= r) by (apply r_nonneg; auto).
  assert (A : 0 <= (1 - t) * (1 - t) - r * r) by nra. destruct (Rlt_dec _ 0); [lra|].
  intros H. apply mixing_iff; auto. apply range_root; auto. fold t r d. clearbody t r d.
  set (ad := 1 - t - r * r / 2) in *. set (sq := sqrt ((1 - t) * (1 - t) - r * r)) in *. clearbody ad sq.
  destruct (Rlt_dec y _) as [|Y1] in H; [discriminate|]. destruct (Rlt_dec _ y) as [|Y2] in H; [discriminate|]. apply Rnot_lt_le in Y1. apply Rnot_lt_le in Y2.
  apply Rmult_le_compat_l with (r := d) in Y1; [|lra]. apply Rmult_le_compat_l with (r := d) in Y2; [|lra].
  replace (d * (ad / d - sq / d)) with (ad - sq) in Y1 by (field; lra). replace (d * (ad / d + sq / d)) with (ad + sq) in Y2 by (field; lra). split; lra.
Qed.

Lemma allowed_mixing c x y E : 0 < E -> 0 < h_target_mass c -> 0 <= h_mass c -> 0 < x < 1 -> 0 < y < 1 ->
  h_allowed c x y E = true -> mixing_allowed x y E (h_target_mass c) (h_mass c) = true.
Proof. intros HE HM Hm Hx Hy. unfold h_allowed. destruct (h_dipole c); auto. apply dipole_mixing; auto. Qed.

Lemma norm_family c t i : family t i -> h_norm c t = h_coupling c i ^ 2.
Proof.
  intros [Hi Ht]. unfold h_norm. assert (t = (12 + 2 * Z.of_nat i)%Z \/ t = (- (12 + 2 * Z.of_nat i))%Z) as [-> | ->] by lia;
    destruct i as [|[|[|i]]]; try lia; reflexivity.
Qed.

Lemma diff_nonzero c t E x y q : h_diff_xs c t E x y q <> 0 ->
  h_dlo c <= log10 E <= h_dhi c /\ 0 < x < 1 /\ 0 < y < 1 /\ h_min_q2 c <= (match q with Some v => v | None => 2 * E * h_target_mass c * x * y end) /\
  h_allowed c x y E = true /\ h_found c (log10 E) (log10 x) (log10 y) = true /\
  h_diff_xs c t E x y q = h_norm c t * h_unit c * Rpower 10 (h_diff c (log10 E) (log10 x) (log10 y)).
Proof.
  unfold h_diff_xs. cbv zeta. destruct (Rlt_dec (log10 E) (h_dlo c)); [tauto|]. destruct (Rlt_dec (h_dhi c) (log10 E)); [tauto|].
  destruct (Rle_dec x 0); [tauto|]. destruct (Rle_dec 1 x); [tauto|]. destruct (Rle_dec y 0); [tauto|]. destruct (Rle_dec 1 y); [tauto|].
  destruct (Rlt_dec _ (h_min_q2 c)); [tauto|]. destruct (h_allowed c x y E); cbn [negb]; [|tauto]. destruct (h_found c _ _ _); cbn [negb]; [|tauto].
  intros _. repeat split; try lra.
Qed.
