(** Lemmas for deep inelastic scattering. *)
From Coq Require Import Reals List Bool ZArith Lra Lia Psatz.
From Verif Require Import VectorModel RkModel RkSpec RkProofs RandomModel DipoleSpec DipoleProofs TurnModel TurnProofs DisModel DisSpec.
Import ListNotations.
Open Scope R_scope.

(** ** Kinematics *)

(** Square of the part of q across the direction of the neutrino, and the part along. *)
Definition q_along (x y E M m : R) : R := m * m / (2 * E) + M * x * y + E * y.
Definition q_square (x y E M : R) : R := 2 * E * M * x * y + E * E * (y * y).
Definition q_across2 (x y E M m : R) : R := q_square x y E M - q_along x y E M m * q_along x y E M m.

Lemma rleb_true a b : rleb a b = true <-> a <= b.
Proof. unfold rleb. destruct (Rle_dec a b); split; intros; auto; discriminate || contradiction. Qed.
Lemma rltb_true a b : rltb a b = true <-> a < b.
Proof. unfold rltb. destruct (Rlt_dec a b); split; intros; auto; discriminate || contradiction. Qed.
Lemma rltb_false a b : rltb a b = false <-> b <= a.
Proof. unfold rltb. destruct (Rlt_dec a b); split; intros; auto; try discriminate; lra. Qed.
Lemma rleb_false a b : rleb a b = false <-> b < a.
Proof. unfold rleb. destruct (Rle_dec a b); split; intros; auto; try discriminate; lra. Qed.

Section Allowed.
Variables x y E M m : R.
Hypothesis HE : 0 < E.
Hypothesis HM : 0 < M.
Hypothesis Hm : 0 <= m.
Hypothesis HmE : m <> E.
Hypothesis Hx : 0 < x.
Hypothesis Hy : 0 < y.
Let d := 2 * (1 + M * x / (2 * E)).
Let ad := 1 - m * m * (1 / (2 * M * E * x) + 1 / (2 * E * E)).
Let term := 1 - m * m / (2 * M * E * x).
Let arg := term * term - m * m / (E * E).
Lemma al_MEx : 0 < M * E * x.
Proof. apply Rmult_lt_0_compat; auto. apply Rmult_lt_0_compat; auto. Qed.
Lemma al_d : 2 < d.
Proof.
  unfold d. assert (0 < M * x / (2 * E)); [|lra]. apply Rdiv_lt_0_compat; [|lra]. apply Rmult_lt_0_compat; auto.
Qed.
Lemma al_identity : d * q_across2 x y E M m = M * E * x * (arg - (d * y - ad) * (d * y - ad)).
Proof. unfold d, ad, arg, term, q_across2, q_square, q_along. field. repeat split; lra. Qed.
Lemma al_across : 0 <= q_across2 x y E M m <-> (d * y - ad) * (d * y - ad) <= arg.
Proof.
  pose proof al_d as D. pose proof al_MEx as P. pose proof al_identity as I. set (a := q_across2 x y E M m) in *. set (b := arg - _) in *.
  assert (B : (d * y - ad) * (d * y - ad) <= arg <-> 0 <= b) by (unfold b; split; lra). rewrite B. clearbody a b. split; intros H.
  - apply Rmult_le_reg_l with (M * E * x); auto. rewrite <- I, Rmult_0_r. apply Rmult_le_pos; lra.
  - apply Rmult_le_reg_l with d; [lra|]. rewrite I, Rmult_0_r. apply Rmult_le_pos; lra.
Qed.
Lemma al_ad : ad = term - m * m / (2 * (E * E)).
Proof. unfold ad, term. field. lra. Qed.
Lemma al_msq : m * m / (E * E) = (m / E) * (m / E).
Proof. field. lra. Qed.
Lemma al_mE : 0 <= m / E.
Proof. apply Rmult_le_pos; auto. apply Rlt_le, Rinv_0_lt_compat; auto. Qed.
Lemma al_term_le : term <= 1.
Proof.
  unfold term. pose proof al_MEx. assert (0 <= m * m / (2 * M * E * x)); [|lra]. apply Rmult_le_pos; [apply Rmult_le_pos; auto|].
  apply Rlt_le, Rinv_0_lt_compat. replace (2 * M * E * x) with (2 * (M * E * x)) by ring. lra.
Qed.
(** With a negative [term] no positive y is below the upper limit. *)
Lemma al_negative : 0 <= arg -> term <= 0 -> d * y <= ad + sqrt arg -> False.
Proof.
  intros A T H. assert (sqrt arg <= - term).
  { rewrite <- (sqrt_Rsqr (- term)) by lra. apply sqrt_le_1_alt. unfold arg, Rsqr. rewrite al_msq. nra. }
  rewrite al_ad in H. assert (0 <= m * m / (2 * (E * E))) by (apply Rmult_le_pos; [nra|apply Rlt_le, Rinv_0_lt_compat; nra]).
  pose proof al_d. assert (0 < d * y) by (apply Rmult_lt_0_compat; lra). lra.
Qed.
Lemma allowed_iff : allowed x y E M m = true <-> x <= 1 /\ y < 1 /\ 0 <= q_across2 x y E M m.
Proof.
  rewrite al_across. unfold allowed. fold d. fold ad. fold term. fold arg.
  pose proof al_d as D. pose proof al_mE as ME.
  destruct (Rlt_dec 1 x) as [X|X]. { split; [discriminate|]. intros [A _]. lra. }
  destruct (Rlt_dec x _) as [X'|X'].
  - split; [discriminate|]. intros [_ [_ B]]. exfalso.
    assert (A : 0 <= arg). { apply Rle_trans with (2 := B). apply Rle_0_sqr. }
    assert (ML : 0 < m /\ m < E).
    { destruct (Req_dec m 0) as [Z|Z].
      - rewrite Z in X'. unfold Rdiv in X'. rewrite !Rmult_0_l in X'. lra.
      - split; [lra|]. apply Rnot_le_lt. intros L. assert (m * m / (2 * M * (E - m)) <= 0); [|lra].
        assert (E - m < 0) by lra. assert (2 * M * (E - m) < 0) by nra.
        apply Rmult_le_reg_r with (- (2 * M * (E - m))); [lra|]. rewrite Rmult_0_l. replace (_ * _) with (- (m * m)) by (field; lra). nra. }
    destruct ML as [M1 M2].
    assert (T : term < m / E).
    { unfold term. assert ((E - m) / E < m * m / (2 * M * E * x)).
      { apply Rmult_lt_reg_r with (2 * M * E * x); [pose proof al_MEx; replace (2 * M * E * x) with (2 * (M * E * x)) by ring; lra|].
        replace (m * m / _ * _) with (m * m) by (field; repeat split; lra). replace (_ / E * _) with (x * (2 * M * (E - m))) by (field; lra).
        apply Rmult_lt_compat_r with (r := 2 * M * (E - m)) in X'; [|apply Rmult_lt_0_compat; lra]. replace (m * m / (2 * M * (E - m)) * _) with (m * m) in X' by (field; repeat split; lra). lra. }
      replace (m / E) with (1 - (E - m) / E) by (field; lra). lra. }
    assert (T0 : term <= 0). { apply Rnot_lt_le. intros P. unfold arg in A. rewrite al_msq in A. nra. }
    apply (al_negative A T0). pose proof (sqrt_pos arg). assert (d * y - ad <= sqrt arg); [|lra]. apply Rsqr_incr_0_var; auto.
    rewrite Rsqr_sqrt by auto. unfold Rsqr. lra.
  - destruct (Rlt_dec arg 0) as [A|A].
    + split; [discriminate|]. intros [_ [_ B]]. exfalso. assert (0 <= (d * y - ad) * (d * y - ad)) by apply Rle_0_sqr. lra.
    + apply Rnot_lt_le in A. rewrite andb_true_iff, !rleb_true. pose proof (sqrt_pos arg) as SP. pose proof (sqrt_sqrt arg A) as SS. split.
      * intros [L U]. split; [lra|]. split.
        -- assert (ML : m < E).
           { apply Rnot_le_lt. intros L'. assert (1 < m / E). { apply Rmult_lt_reg_r with E; auto. unfold Rdiv. rewrite Rmult_assoc, Rinv_l; lra. }
             pose proof al_term_le. apply (al_negative A); [|lra]. apply Rnot_lt_le. intros P. unfold arg in A. rewrite al_msq in A. nra. }
           assert (T : 0 <= term).
           { unfold term. assert (m * m / (2 * M * E * x) <= 1); [|lra]. apply Rnot_lt_le in X'.
             assert (Y : m * m / (2 * M * E * x) <= (E - m) / E).
             { apply Rmult_le_reg_r with (2 * M * E * x); [pose proof al_MEx; replace (2 * M * E * x) with (2 * (M * E * x)) by ring; lra|].
               replace (m * m / (2 * M * E * x) * _) with (m * m) by (field; repeat split; lra). replace (_ / E * _) with (x * (2 * M * (E - m))) by (field; lra).
               apply Rmult_le_compat_r with (r := 2 * M * (E - m)) in X'; [|apply Rlt_le, Rmult_lt_0_compat; lra]. replace (m * m / (2 * M * (E - m)) * _) with (m * m) in X' by (field; repeat split; lra). lra. }
             apply Rle_trans with (1 := Y). apply Rmult_le_reg_r with E; auto. unfold Rdiv. rewrite Rmult_assoc, Rinv_l; lra. }
           assert (sqrt arg <= term). { rewrite <- (sqrt_Rsqr term) by lra. apply sqrt_le_1_alt. unfold arg, Rsqr. rewrite al_msq. nra. }
           assert (ad <= term). { rewrite al_ad. assert (0 <= m * m / (2 * (E * E))); [|lra]. apply Rmult_le_pos; [nra|apply Rlt_le, Rinv_0_lt_compat; nra]. }
           pose proof al_term_le. nra.
        -- rewrite <- SS. apply Rsqr_le_abs_1 with (x := d * y - ad) (y := sqrt arg). rewrite (Rabs_pos_eq (sqrt arg)) by auto. apply Rabs_le. lra.
      * intros [_ [_ B]]. rewrite <- SS in B. apply (Rsqr_le_abs_0 (d * y - ad) (sqrt arg)) in B. rewrite (Rabs_pos_eq (sqrt arg)) in B by auto.
        revert B. unfold Rabs. destruct (Rcase_abs _); lra.
Qed.
End Allowed.

Lemma vsub_dot a b : vdot (vsub a b) (vsub a b) = vdot a a - 2 * vdot a b + vdot b b.
Proof. unfold vdot, vsub. cbn. ring. Qed.
Lemma vlen_square p : vlen p * vlen p = vdot p p.
Proof. unfold vlen. apply sqrt_sqrt. apply vdot_nonneg. Qed.
Lemma vadd_sub p q : vadd (vsub p q) q = p.
Proof. apply veq; cbn; ring. Qed.

(** A vector with the right parts gives a scattering with the variables x and y. *)
Lemma event_of p q E M m x y : 0 < E -> vlen p = E -> 0 < M -> 0 <= m -> 0 < x <= 1 -> 0 < y < 1 ->
  vdot p q = E * q_along x y E M m -> vdot q q = q_square x y E M ->
  let k := p4_of (vsub p q) m in
  let W2 := M * M + 2 * E * M * x * y / x * (1 - x) in
  0 <= W2 /\ (M + E * y) * (M + E * y) - length_squared q = W2 /\
  pe k = E * (1 - y) /\ scattering p M m k (mkp4 (M + E * y) q (sqrt W2)) /\ bjorken p M k x y.
Proof.
  intros HE V HM Hm Hx Hy A B k W2.
  assert (PP : vdot p p = E * E) by (rewrite <- V; symmetry; apply vlen_square).
  assert (W : W2 = M * M + 2 * E * M * y * (1 - x)) by (unfold W2; field; lra).
  assert (W0 : 0 <= W2). { rewrite W. assert (0 <= E * M * y * (1 - x)); [|nra]. apply Rmult_le_pos; [|lra]. apply Rmult_le_pos; [|lra]. nra. }
  assert (LL : (M + E * y) * (M + E * y) - length_squared q = W2).
  { rewrite lsq, B, W. unfold q_square. ring. }
  assert (KK : m * m + length_squared (vsub p q) = Rsqr (E * (1 - y))).
  { rewrite lsq, vsub_dot, PP, A, B. unfold q_along, q_square, Rsqr. field. lra. }
  assert (PK : pe k = E * (1 - y)). { unfold k. cbn [pe p4_of]. rewrite KK. apply sqrt_Rsqr. nra. }
  split; auto. split; auto. split; auto. split; [|split].
  - unfold scattering. split; [apply p4_of_shell; auto|]. split; [reflexivity|]. split.
    + unfold on_shell. cbn [pe pp pm]. split; [apply sqrt_pos|]. split; [nra|]. rewrite sqrt_sqrt by auto. rewrite <- lsq. lra.
    + split; [rewrite PK; cbn [pe]; rewrite V; ring|]. unfold k. cbn [pp p4_of]. apply vadd_sub.
  - unfold lost_energy. rewrite PK, V. ring.
  - unfold virtuality. unfold lost_energy. rewrite PK, V. unfold k. cbn [pp p4_of].
    replace (vsub p (vsub p q)) with q by (apply veq; cbn; ring). rewrite B. unfold q_square. ring.
Qed.

(** The converse: a scattering has these parts. *)
Lemma event_parts p E M m x y k X : 0 < E -> vlen p = E -> 0 < M -> 0 < x -> 0 < y ->
  scattering p M m k X -> bjorken p M k x y ->
  y < 1 /\ 0 <= q_across2 x y E M m.
Proof.
  intros HE V HM Hx Hy [[S1 [S2 S3]] [Em [_ _]]] [B1 B2]. rewrite Em in S3. unfold lost_energy in B1. rewrite V in B1.
  unfold virtuality, lost_energy in B2. rewrite V in B2. assert (PK : pe k = E * (1 - y)) by lra. rewrite PK in *.
  set (q := vsub p (pp k)) in *. assert (PP : vdot p p = E * E) by (rewrite <- V; symmetry; apply vlen_square).
  assert (K : vdot (pp k) (pp k) = E * E - 2 * vdot p q + vdot q q).
  { rewrite <- PP, <- vsub_dot. unfold q. replace (vsub p (vsub p (pp k))) with (pp k) by (apply veq; cbn; ring). reflexivity. }
  assert (QQ : vdot q q = q_square x y E M). { unfold q_square. replace (vdot q q) with ((E - E * (1 - y)) ^ 2 + x * (2 * M * (E - E * (1 - y)))) by lra. ring. }
  assert (PQ : vdot p q = E * q_along x y E M m). { unfold q_along. rewrite K, QQ in S3. unfold q_square in S3.
    replace (E * _) with (m * m / 2 + E * M * x * y + E * E * y) by (field; lra). lra. }
  assert (CS : vdot p q * vdot p q <= vdot p p * vdot q q).
  { assert (H : 0 <= vdot (vcross p q) (vcross p q)) by apply vdot_nonneg.
    replace (vdot (vcross p q) (vcross p q)) with (vdot p p * vdot q q - vdot p q * vdot p q) in H by (unfold vdot, vcross; cbn; ring). lra. }
  split.
  - apply Rnot_le_lt. intros L. assert (Y : y = 1) by nra. subst y.
    assert (Z : vdot (pp k) (pp k) = 0 /\ m * m = 0). { pose proof (vdot_nonneg (pp k)). nra. }
    assert (Q0 : vdot q q = E * E). { destruct Z as [Z1 _]. unfold vdot in Z1.
      assert (X1 : vx (pp k) = 0) by nra. assert (X2 : vy (pp k) = 0) by nra. assert (X3 : vz (pp k) = 0) by nra.
      rewrite <- PP. unfold q, vdot, vsub. cbn [vx vy vz]. rewrite X1, X2, X3. ring. }
    rewrite QQ in Q0. unfold q_square in Q0. assert (0 < E * M * x) by (apply Rmult_lt_0_compat; [nra|auto]). nra.
  - unfold q_across2. rewrite PQ, PP, QQ in CS. assert (EE : 0 < E * E) by nra. set (a := q_along x y E M m) in *. set (b := q_square x y E M) in *. clearbody a b.
    apply Rmult_le_reg_l with (E * E); auto. nra.
Qed.

Lemma perp_dot p : vdot p (direction (mkv (- vy p) (vx p) 0)) = 0.
Proof.
  unfold direction. set (w := mkv _ _ _). destruct (Rlt_dec 0 (vlength w)) as [L|L].
  - unfold vdot, vdiv, w. cbn. field. unfold w in L. lra.
  - assert (Z : vlength w = 0). { pose proof (sqrt_pos (length_squared w)). unfold vlength in *. lra. }
    unfold vlength in Z. apply sqrt_eq_0 in Z; [|rewrite lsq; apply vdot_nonneg]. unfold length_squared, w in Z. cbn in Z. unfold x_axis, vdot. cbn. nra.
Qed.

(** For every direction of the neutrino. *)
Lemma event_exists p E M m x y : 0 < E -> vlen p = E -> 0 < M -> 0 <= m -> 0 < x <= 1 -> 0 < y < 1 -> 0 <= q_across2 x y E M m ->
  exists k X, scattering p M m k X /\ bjorken p M k x y.
Proof.
  intros HE V HM Hm Hx Hy A. set (e := direction (mkv (- vy p) (vx p) 0)).
  assert (EU : vdot e e = 1) by apply direction_unit. assert (PE : vdot p e = 0) by apply perp_dot.
  assert (PP : vdot p p = E * E) by (rewrite <- V; symmetry; apply vlen_square). clearbody e.
  set (q := vadd (vscale (q_along x y E M m / E) p) (vscale (sqrt (q_across2 x y E M m)) e)).
  destruct (event_of p q E M m x y HE V HM Hm Hx Hy) as [_ [_ [_ [S B]]]].
  - unfold q. replace (vdot p _) with (q_along x y E M m / E * vdot p p + sqrt (q_across2 x y E M m) * vdot p e) by (unfold vdot; cbn; ring).
    rewrite PE, PP. field. lra.
  - unfold q. set (a := q_along x y E M m / E). set (b := sqrt _). replace (vdot _ _) with (a * a * vdot p p + 2 * a * b * vdot p e + b * b * vdot e e) by (unfold vdot; cbn; ring).
    unfold b. rewrite sqrt_sqrt by auto. rewrite PP, PE, EU. unfold a, q_across2. field. lra.
  - eauto.
Qed.

(** ** What the sampler makes of x and y *)

Lemma p4_of_rest M : 0 <= M -> pe (p4_of (mkv 0 0 0) M) = M.
Proof. intros H. cbn [pe p4_of]. replace (_ + _) with (Rsqr M) by (unfold Rsqr, length_squared; cbn; ring). apply sqrt_Rsqr; auto. Qed.
Lemma p4_of_massless p : pe (p4_of p 0) = vlen p.
Proof. cbn [pe p4_of]. unfold vlen. f_equal. rewrite lsq. ring. Qed.

Lemma products_ok p E M m x y u : 0 < E -> vlen p = E -> clear_of_x p -> 0 < M -> 0 <= m -> 0 < x <= 1 -> 0 < y < 1 -> 0 <= q_across2 x y E M m ->
  exists k X, dis_products AbsDouble p 0 M m (x * y) y u = Some (k, X) /\ pe k = E * (1 - y) /\
  scattering p M m k X /\ bjorken p M k x y /\ pm X * pm X = M * M + 2 * E * M * x * y / x * (1 - x).
Proof.
  intros HE V C HM Hm Hx Hy A. unfold dis_products. rewrite p4_of_massless, (p4_of_rest M) by lra. rewrite V.
  replace (sqrt (vx p * vx p + vy p * vy p + vz p * vz p)) with E by (rewrite <- V; reflexivity).
  replace ((0 * 0 + m * m + 2 * E * E + 2 * E * M * (x * y) + 2 * E * E * (y - 1)) / (2 * E)) with (q_along x y E M m) by (unfold q_along; field; lra).
  replace (0 * 0 + E * E + 2 * E * M * (x * y) + E * E * (y * y - 1)) with (q_square x y E M) by (unfold q_square; ring).
  assert (QS : 0 <= q_square x y E M). { unfold q_across2 in A. pose proof (Rle_0_sqr (q_along x y E M m)). unfold Rsqr in *. lra. }
  destruct (Rlt_dec (q_square x y E M) 0) as [Z|_]; [lra|]. pose proof (sqrt_pos (q_square x y E M)) as SP.
  rewrite (sqrt_sqrt _ QS). fold (q_across2 x y E M m).
  assert (QA : q_along x y E M m <= sqrt (q_square x y E M)).
  { apply Rsqr_incr_0_var; auto. rewrite Rsqr_sqrt by auto. unfold q_across2 in A. unfold Rsqr. lra. }
  destruct (Rlt_dec (sqrt _) (q_along _ _ _ _ _)) as [Z|_]; [lra|]. destruct (Rlt_dec (q_across2 _ _ _ _ _) 0) as [Z|_]; [lra|].
  set (a := mkp4 (E * y) (mkv (q_along x y E M m) (sqrt (q_across2 x y E M m)) 0) (- (1))). set (pq := turn AbsDouble p u a).
  assert (PN : p <> mkv 0 0 0). { intros H. rewrite H in V. unfold vlen, vdot in V. cbn in V. replace (0 * 0 + 0 * 0 + 0 * 0) with 0 in V by ring. rewrite sqrt_0 in V. lra. }
  pose proof (turn_dot p u a PN C) as TD. pose proof (turn_square AbsDouble p u a) as TS. fold pq in TD, TS.
  assert (EN : pe pq = E * y) by reflexivity. change (vlength p) with (vlen p) in TD. rewrite V in TD. cbn [vx pp a] in TD.
  assert (TS' : vdot (pp pq) (pp pq) = q_square x y E M).
  { rewrite TS. unfold a. cbn [pp]. unfold vdot. cbn [vx vy vz]. rewrite sqrt_sqrt by auto. unfold q_across2. ring. }
  clearbody pq. destruct (event_of p (pp pq) E M m x y HE V HM Hm Hx Hy TD TS') as [W0 [LL [PK [S B]]]].
  assert (P4E : pe (p4_add (p4_of (mkv 0 0 0) M) pq) = M + E * y). { unfold p4_add. cbn [pe]. rewrite EN. f_equal. apply (p4_of_rest M). lra. }
  assert (P4P : pp (p4_add (p4_of (mkv 0 0 0) M) pq) = pp pq) by (apply veq; cbn; ring).
  unfold p4_m. rewrite P4E, P4P, LL. change (pp (p4_sub (p4_of p 0) pq)) with (vsub p (pp pq)).
  destruct (Rlt_dec _ 0) as [Z|_]; [lra|]. eexists _, _. split; [reflexivity|]. split; [exact PK|]. split; [exact S|]. split; [exact B|].
  cbn [pm]. apply sqrt_sqrt; auto.
Qed.

(** ** The sampler *)

Lemma ten_pos v : 0 < ten v.
Proof. unfold ten, Rpower. apply exp_pos. Qed.
Lemma ten_plus a b : ten (a + b) = ten a * ten b.
Proof. apply Rpower_plus. Qed.
Lemma ln10 : 0 < ln 10.
Proof. rewrite <- ln_1. apply ln_increasing; lra. Qed.
Lemma log10_ten v : log10 (ten v) = v.
Proof. unfold log10, ten, Rpower. rewrite ln_exp. field. pose proof ln10. lra. Qed.

Lemma draw_good good lim l lx ly rest : dis_draw good lim l = Some (lx, ly, rest) -> good lx ly = true.
Proof.
  revert l. fix IH 1. intros [|a [|b l]]; cbn; try discriminate. destruct (good (uniform _ _ a) (uniform _ _ b)) eqn:G; [congruence|]. apply IH.
Qed.

Section Chain.
Variables (c : dis) (E1 E2 m : R) (lim : dis_limits).
(** The states of the chain pass the cuts, are in the table and know their weight. *)
Definition ds_good (s : dis_state) : Prop :=
  dis_cuts c E1 E2 m (ds_lx s) (ds_ly s) = true /\ dis_in_table (d_spline c) (log10 E1) (ds_lx s) (ds_ly s) = true /\
  ds_xs s = dis_weight c (log10 E1) (ds_lx s) (ds_ly s).
Lemma start_good l s rest : dis_start c E1 E2 m lim l = Some (s, rest) -> ds_good s.
Proof.
  unfold dis_start. destruct (dis_draw _ lim l) as [[[lx ly] r]|] eqn:D; [|discriminate]. intros H. injection H as <- <-.
  apply draw_good in D. apply andb_prop in D as [D1 D2]. split; [exact D1|]. split; [exact D2|]. reflexivity.
Qed.
Lemma round_good s l s' rest : ds_good s -> dis_round c E1 E2 m lim s l = Some (s', rest) -> ds_good s'.
Proof.
  intros G. unfold dis_round. destruct (dis_draw _ lim l) as [[[lx ly] r]|] eqn:D; [|discriminate]. apply draw_good in D.
  destruct (dis_in_table _ _ lx ly) eqn:T; [|intros H; injection H as <- <-; auto].
  destruct (dis_weight c _ lx ly) as [w|] eqn:W; [|intros H; injection H as <- <-; auto].
  destruct (dis_accept _ w r) as [[[] r']|]; try discriminate; intros H; injection H as <- <-; auto.
  split; [exact D|]. split; [exact T|]. cbn. auto.
Qed.
Lemma rounds_good n s l s' rest : ds_good s -> dis_rounds c E1 E2 m lim n s l = Some (s', rest) -> ds_good s'.
Proof.
  revert s l. induction n as [|n IH]; intros s l G; cbn; [congruence|].
  destruct (dis_round c E1 E2 m lim s l) as [[s1 l1]|] eqn:R; [|discriminate]. apply IH. apply (round_good _ _ _ _ G R).
Qed.
Lemma rounds_nan n s l s' rest : ds_xs s = None -> dis_rounds c E1 E2 m lim n s l = Some (s', rest) -> s' = s.
Proof.
  revert s l. induction n as [|n IH]; intros s l G; cbn; [congruence|].
  destruct (dis_round c E1 E2 m lim s l) as [[s1 l1]|] eqn:R; [|discriminate]. assert (S1 : s1 = s).
  { revert R. unfold dis_round. destruct (dis_draw _ lim l) as [[[lx ly] r]|]; [|discriminate].
    destruct (dis_in_table _ _ lx ly); [|congruence]. destruct (dis_weight c _ lx ly) as [w|]; [|congruence].
    unfold dis_accept. rewrite G. destruct r; congruence. }
  subst s1. apply IH; auto.
Qed.
End Chain.

Lemma limits_some c E1 E2 m lim : 0 < E1 -> dis_limits_of c E1 E2 m = Some lim -> m < E1.
Proof.
  intros H. unfold dis_limits_of. destruct (rltb 0 (1 - m / E1)) eqn:A; cbn [andb]; [|discriminate]. intros _. apply rltb_true in A.
  apply Rmult_lt_reg_r with (/ E1); [apply Rinv_0_lt_compat; auto|]. rewrite (Rinv_r E1) by lra. unfold Rdiv in A. lra.
Qed.

Lemma lepton_mass_nonneg t m : lepton_mass t = Some m -> 0 <= m.
Proof.
  unfold lepton_mass, electron_m, muon_m, tau_m. destruct (Z.abs t); try discriminate. intros H.
  repeat match type of H with (match ?q with _ => _ end) = _ => destruct q; try discriminate H end; injection H as <-; lra.
Qed.

(** The state at the end gives all that is claimed of the final state. *)
Lemma cuts_of c E M m lx ly : 0 < E -> 0 < M -> 0 <= m -> m < E -> d_target_mass c = M -> M * M < d_min_w2 c ->
  dis_cuts c E M m lx ly = true ->
  let x := ten lx in let y := ten ly in
  0 < x < 1 /\ 0 < y < 1 /\ d_min_q2 c <= 2 * E * M * x * y /\ d_min_w2 c <= M ^ 2 + 2 * E * M * x * y / x * (1 - x) /\
  allowed x y E M m = true /\ 0 <= q_across2 x y E M m.
Proof.
  intros HE HM Hm HmE TM W H x y. unfold dis_cuts in H. rewrite TM, ten_plus in H. fold x y in H.
  apply andb_prop in H as [H A]. apply andb_prop in H as [H1 H2]. apply negb_true_iff in H1, H2. apply rltb_false in H1, H2.
  replace (2 * E * M * (x * y)) with (2 * E * M * x * y) in * by ring.
  pose proof (ten_pos lx) as X. pose proof (ten_pos ly) as Y. fold x in X. fold y in Y.
  pose proof A as A'. apply (allowed_iff x y E M m HE HM Hm ltac:(lra) X Y) in A' as [A1 [A2 A3]].
  assert (X1 : x <> 1). { intros Z. rewrite Z in H2. replace (1 - 1) with 0 in H2 by ring. lra. }
  split; [lra|]. split; [lra|]. split; [auto|]. split; [auto|]. split; auto.
Qed.

Lemma xs_at c E M m x y v : 0 < x < 1 -> 0 < y < 1 -> d_target_mass c = M ->
  sp_lo (d_spline c) 0 <= log10 E <= sp_hi (d_spline c) 0 ->
  d_min_q2 c <= 2 * E * M * x * y -> d_min_w2 c <= M ^ 2 + 2 * E * M * x * y / x * (1 - x) -> allowed x y E M m = true ->
  sp_found (d_spline c) (log10 E) (log10 x) (log10 y) = true -> sp_eval (d_spline c) (log10 E) (log10 x) (log10 y) = Some v ->
  dis_xs c E x y m (Some (2 * E * M * x * y)) = Some (d_unit c * ten v).
Proof.
  intros X Y TM R Q W A F V. unfold dis_xs.
  replace (rltb (log10 E) (sp_lo (d_spline c) 0)) with false by (symmetry; apply rltb_false; lra).
  replace (rltb (sp_hi (d_spline c) 0) (log10 E)) with false by (symmetry; apply rltb_false; lra).
  replace (rleb x 0) with false by (symmetry; apply rleb_false; lra). replace (rleb 1 x) with false by (symmetry; apply rleb_false; lra).
  replace (rleb y 0) with false by (symmetry; apply rleb_false; lra). replace (rleb 1 y) with false by (symmetry; apply rleb_false; lra).
  cbn [orb]. destruct (Rlt_dec _ (d_min_q2 c)); [lra|]. rewrite TM. destruct (Rlt_dec _ (d_min_w2 c)); [lra|]. rewrite A, F, V. reflexivity.
Qed.

(** The record gives back the variables. *)
Lemma record_xs c r E M m x y k X b : 0 < E -> 0 < M -> vlen (dr_p r) = E -> dr_energy r = E -> dr_mass r = 0 -> dr_target_mass r = M ->
  length (dr_types r) = 2%nat -> lepton_mass (nth (dis_lepton_index (dr_types r)) (dr_types r) 0%Z) = Some m ->
  nth (dis_lepton_index (dr_types r)) (dr_secondaries r) b = (pp k, pm k) -> 0 < y ->
  scattering (dr_p r) M m k X -> bjorken (dr_p r) M k x y -> (dis_lepton_index (dr_types r) < length (dr_secondaries r))%nat ->
  dis_xs_record c r = dis_xs c E x y m (Some (2 * E * M * x * y)).
Proof.
  intros HE HM V RE RM RT L LM NS Hy [[S1 [S2 S3]] [Em [_ [_ _]]]] [B1 B2] LL. unfold dis_xs_record. rewrite L, RM, RT, RE, LM. cbn [Nat.eqb negb].
  rewrite (nth_indep _ _ b LL), NS.
  assert (PK : p4_of (pp k) (pm k) = k).
  { destruct k as [e p mm]. cbn [pp pm pe] in *. unfold p4_of. f_equal. rewrite lsq, <- S3. apply sqrt_square. auto. }
  rewrite PK. set (q := p4_sub (p4_of (dr_p r) 0) k).
  assert (D : forall a, p4_dot (p4_of (mkv 0 0 0) M) a = M * pe a).
  { intros a. unfold p4_dot. rewrite p4_of_rest by lra. unfold vdot. cbn. ring. }
  assert (QE : pe q = lost_energy (dr_p r) k). { unfold q, p4_sub. cbn [pe]. rewrite p4_of_massless. reflexivity. }
  assert (QQ : - p4_dot q q = 2 * E * M * x * y).
  { replace (- p4_dot q q) with (virtuality (dr_p r) k) by (unfold virtuality, p4_dot; rewrite QE; cbn [q p4_sub pp p4_of]; ring). rewrite B2, B1, V. ring. }
  rewrite QQ, !D, QE, B1, p4_of_massless, V. f_equal.
  - field. split; lra.
  - unfold lost_energy in B1. rewrite V in B1. replace (pe k) with (E - y * E) by lra. field. lra.
Qed.

Lemma draw_app good lim l lx ly rest t : dis_draw good lim l = Some (lx, ly, rest) -> dis_draw good lim (l ++ t) = Some (lx, ly, rest ++ t).
Proof.
  revert l. fix IH 1. intros [|a [|b l]]; cbn [dis_draw app]; try discriminate. destruct (good (uniform _ _ a) (uniform _ _ b)) eqn:G.
  - clear IH. intros H. injection H as <- <- <-. reflexivity.
  - apply (IH l).
Qed.

Lemma uniform01 u : uniform 0 1 u = u.
Proof. unfold uniform. destruct (Rlt_dec 1 0); cbn; lra. Qed.

Lemma round_prob c E1 E2 m lim s l0 lx ly ws w rest : dis_draw (dis_cuts c E1 E2 m) lim l0 = Some (lx, ly, []) ->
  dis_in_table (d_spline c) (log10 E1) lx ly = true -> dis_weight c (log10 E1) lx ly = Some w -> ds_xs s = Some ws -> 0 < ws -> 0 < w ->
  (lx, ly) <> (ds_lx s, ds_ly s) ->
  forall u, 0 <= u < 1 -> ((exists r', dis_round c E1 E2 m lim s (l0 ++ u :: rest) = Some (mkds lx ly (Some w), r')) <-> u < Rmin 1 (w / ws)).
Proof.
  intros D T W S WS W0 N u U. unfold dis_round. rewrite (draw_app _ _ _ _ _ _ _ D). cbn [app]. rewrite T, W. unfold dis_accept. rewrite S.
  destruct (Req_EM_T ws 0); [lra|]. rewrite uniform01. destruct (Rlt_dec 1 (w / ws)) as [O|O].
  - rewrite Rmin_left by lra. split; intros; [lra|eauto].
  - rewrite Rmin_right by lra. unfold rltb. destruct (Rlt_dec u (w / ws)) as [A|A]; split; intros H; auto; [eauto| |contradiction].
    destruct H as [r' H]. exfalso. apply N. assert (X : s = mkds lx ly (Some w)) by congruence. rewrite X. reflexivity.
Qed.

Lemma min_swap a b : 0 < a -> 0 < b -> a * Rmin 1 (b / a) = b * Rmin 1 (a / b).
Proof.
  intros A B. assert (D : forall u v, 0 < u -> 0 < v -> u <= v -> Rmin 1 (v / u) = 1 /\ Rmin 1 (u / v) = u / v).
  { intros u v U V X. split.
    - apply Rmin_left. apply Rmult_le_reg_r with u; auto. unfold Rdiv. rewrite Rmult_assoc, Rinv_l; lra.
    - apply Rmin_right. apply Rmult_le_reg_r with v; auto. unfold Rdiv. rewrite Rmult_assoc, Rinv_l; lra. }
  destruct (Rle_lt_dec a b) as [X|X].
  - destruct (D a b A B X) as [-> ->]. field. lra.
  - destruct (D b a B A (Rlt_le _ _ X)) as [-> ->]. field. lra.
Qed.

Lemma ten_log10 v : 0 < v -> ten (log10 v) = v.
Proof. intros H. unfold ten, log10, Rpower. replace (ln v / ln 10 * ln 10) with (ln v) by (field; pose proof ln10; lra). apply exp_ln; auto. Qed.
