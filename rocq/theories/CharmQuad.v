(** The closed form of the area under the positive part of a quadratic. *)
From Coquelicot Require Import Coquelicot.
From Coq Require Import Reals Lra Psatz.
From Verif Require Import VectorModel RkModel CharmModel CharmSpec.
Open Scope R_scope.

Lemma sign_cases a d : (0 <= a /\ 0 <= d) \/ (a <= 0 /\ d <= 0) -> 0 <= a * d.
Proof. intros [[A D]|[A D]]; nra. Qed.
Lemma sign_mixed a d : (0 <= a /\ d <= 0) \/ (a <= 0 /\ 0 <= d) -> a * d <= 0.
Proof. intros [[A D]|[A D]]; nra. Qed.
Local Ltac sgn a c r :=
  first [ assert (0 <= a * (c - r)) by (apply sign_cases; lra); lra
        | assert (a * (c - r) <= 0) by (apply sign_mixed; lra); lra ].

Section quad.
Variables a2 a1 a0 : R.
Let q (c : R) : R := a2 * c * c + a1 * c + a0.
Let pos (c : R) : R := Rmax 0 (q c).

Lemma q_int x y : is_RInt q x y (quad_F a2 a1 a0 y - quad_F a2 a1 a0 x).
Proof.
  apply (is_RInt_derive (quad_F a2 a1 a0) q).
  - intros c _. unfold quad_F, q. auto_derive; [exact Logic.I|]. field.
  - intros c _. unfold q. apply (ex_derive_continuous (fun c => a2 * c * c + a1 * c + a0)).
    auto_derive. exact Logic.I.
Qed.

Lemma pos_cont c : continuous pos c.
Proof.
  unfold pos. assert (E : forall c, Rmax 0 (q c) = (q c + Rabs (q c)) / 2).
  { intros x. unfold Rmax, Rabs. destruct (Rle_dec 0 (q x)), (Rcase_abs (q x)); lra. }
  apply (continuous_ext (fun c => (q c + Rabs (q c)) / 2)); [intros x; symmetry; apply E|].
  assert (Q : continuous q c).
  { unfold q. apply (ex_derive_continuous (fun c => a2 * c * c + a1 * c + a0)). auto_derive. exact Logic.I. }
  apply (continuous_mult (fun c => q c + Rabs (q c)) (fun _ => / 2)); [|apply continuous_const].
  apply (continuous_plus q (fun c => Rabs (q c))); [exact Q|].
  apply (continuous_comp q Rabs); [exact Q | apply continuous_Rabs].
Qed.

Lemma pos_ex x y : ex_RInt pos x y.
Proof. apply (ex_RInt_continuous pos). intros z _. apply pos_cont. Qed.

Lemma pos_pos x y : x <= y -> (forall c, x < c < y -> 0 <= q c) ->
  is_RInt pos x y (quad_F a2 a1 a0 y - quad_F a2 a1 a0 x).
Proof.
  intros H N. apply (is_RInt_ext q); [|apply q_int]. intros c C. rewrite Rmin_left, Rmax_right in C by exact H.
  unfold pos. rewrite Rmax_right; [reflexivity | apply N; exact C].
Qed.

Lemma pos_neg x y : x <= y -> (forall c, x < c < y -> q c <= 0) -> is_RInt pos x y 0.
Proof.
  intros H N. apply (is_RInt_ext (fun _ => 0)).
  - intros c C. rewrite Rmin_left, Rmax_right in C by exact H. unfold pos. rewrite Rmax_left; [reflexivity | apply N; exact C].
  - pose proof (is_RInt_const (V := R_NormedModule) x y 0) as K. unfold scal in K. cbn in K. unfold mult in K. cbn in K.
    rewrite Rmult_0_r in K. exact K.
Qed.

Lemma seg_pos x y : x <= y -> (forall c, x < c < y -> 0 <= q c) -> is_RInt pos x y (quad_seg a2 a1 a0 x y).
Proof.
  intros H N. unfold quad_seg. destruct (Rle_dec y x) as [L|L].
  - assert (y = x) by lra. subst y. apply (is_RInt_point (V := R_NormedModule)).
  - apply pos_pos; assumption.
Qed.

Lemma seg_none x y : y <= x -> quad_seg a2 a1 a0 x y = 0.
Proof. intros H. unfold quad_seg. destruct (Rle_dec y x); [reflexivity | lra]. Qed.

Lemma right_half lo hi r : lo <= hi -> (forall c, lo < c < hi -> c < r -> q c <= 0) ->
  (forall c, lo < c < hi -> r < c -> 0 <= q c) -> is_RInt pos lo hi (quad_seg a2 a1 a0 (Rmax lo r) hi).
Proof.
  intros H N P. destruct (Rle_dec r lo) as [A|A].
  - rewrite Rmax_left by exact A. apply seg_pos; [exact H|]. intros c C. apply P; lra.
  - rewrite Rmax_right by lra. destruct (Rle_dec hi r) as [B|B].
    + rewrite seg_none by exact B. apply pos_neg; [exact H|]. intros c C. apply N; lra.
    + replace (quad_seg a2 a1 a0 r hi) with (plus 0 (quad_seg a2 a1 a0 r hi)) by apply Rplus_0_l.
      apply (is_RInt_Chasles pos lo r hi).
      * apply pos_neg; [lra|]. intros c C. apply N; lra.
      * apply seg_pos; [lra|]. intros c C. apply P; lra.
Qed.

Lemma left_half lo hi r : lo <= hi -> (forall c, lo < c < hi -> c < r -> 0 <= q c) ->
  (forall c, lo < c < hi -> r < c -> q c <= 0) -> is_RInt pos lo hi (quad_seg a2 a1 a0 lo (Rmin hi r)).
Proof.
  intros H P N. destruct (Rle_dec hi r) as [A|A].
  - rewrite Rmin_left by exact A. apply seg_pos; [exact H|]. intros c C. apply P; lra.
  - rewrite Rmin_right by lra. destruct (Rle_dec r lo) as [B|B].
    + rewrite seg_none by exact B. apply pos_neg; [exact H|]. intros c C. apply N; lra.
    + replace (quad_seg a2 a1 a0 lo r) with (plus (quad_seg a2 a1 a0 lo r) 0) by apply Rplus_0_r.
      apply (is_RInt_Chasles pos lo r hi).
      * apply seg_pos; [lra|]. intros c C. apply P; lra.
      * apply pos_neg; [lra|]. intros c C. apply N; lra.
Qed.

Lemma outside lo hi r s : lo <= hi -> r <= s -> (forall c, c < r -> 0 <= q c) -> (forall c, r < c < s -> q c <= 0) ->
  (forall c, s < c -> 0 <= q c) ->
  is_RInt pos lo hi (quad_seg a2 a1 a0 lo (Rmin hi r) + quad_seg a2 a1 a0 (Rmax lo s) hi).
Proof.
  intros H RS A B C. destruct (Rle_dec hi r) as [I|I].
  { rewrite Rmin_left by exact I. rewrite (seg_none (Rmax lo s) hi) by (eapply Rle_trans; [|apply Rmax_r]; lra).
    rewrite Rplus_0_r. apply seg_pos; [exact H|]. intros c D. apply A. lra. }
  rewrite Rmin_right by lra. destruct (Rle_dec r lo) as [J|J].
  { rewrite (seg_none lo r) by exact J. rewrite Rplus_0_l. apply right_half; [exact H| |].
    - intros c D E. apply B. lra.
    - intros c D E. apply C. exact E. }
  apply (is_RInt_Chasles pos lo r hi).
  - apply seg_pos; [lra|]. intros c D. apply A. lra.
  - rewrite (Rmax_right lo s) by lra. rewrite <- (Rmax_right r s) by exact RS. apply right_half; [lra| |].
    + intros c D E. apply B. lra.
    + intros c D E. apply C. exact E.
Qed.

Lemma inside lo hi r s : lo <= hi -> r <= s -> (forall c, c < r -> q c <= 0) -> (forall c, r < c < s -> 0 <= q c) ->
  (forall c, s < c -> q c <= 0) ->
  is_RInt pos lo hi (quad_seg a2 a1 a0 (Rmax lo r) (Rmin hi s)).
Proof.
  intros H RS A B C. destruct (Rle_dec hi r) as [I|I].
  { rewrite seg_none. - apply pos_neg; [exact H|]. intros c D. apply A. lra.
    - eapply Rle_trans; [apply Rmin_l|]. eapply Rle_trans; [|apply Rmax_r]. exact I. }
  destruct (Rle_dec r lo) as [J|J].
  { rewrite Rmax_left by exact J. apply left_half; [exact H| |].
    - intros c D E. apply B. lra.
    - intros c D E. apply C. exact E. }
  rewrite Rmax_right by lra.
  replace (quad_seg a2 a1 a0 r (Rmin hi s)) with (plus 0 (quad_seg a2 a1 a0 r (Rmin hi s))) by apply Rplus_0_l.
  apply (is_RInt_Chasles pos lo r hi).
  - apply pos_neg; [lra|]. intros c D. apply A. lra.
  - apply left_half; [lra| |].
    + intros c D E. apply B. lra.
    + intros c D E. apply C. exact E.
Qed.

(** The two stable roots. *)
Lemma roots qq : a2 <> 0 -> qq <> 0 -> qq * qq + a1 * qq + a2 * a0 = 0 ->
  forall c, q c = a2 * (c - qq / a2) * (c - a0 / qq).
Proof.
  intros A Q E c. unfold q.
  replace (a2 * (c - qq / a2) * (c - a0 / qq)) with (a2 * c * c - c * ((qq * qq + a2 * a0) / qq) + a0) by (field; lra).
  replace (qq * qq + a2 * a0) with (- a1 * qq) by lra. field. exact Q.
Qed.

Lemma factored r1 r2 : (forall c, q c = a2 * (c - r1) * (c - r2)) ->
  forall c, q c = a2 * (c - Rmin r1 r2) * (c - Rmax r1 r2).
Proof.
  intros E c. rewrite E. unfold Rmin, Rmax. destruct (Rle_dec r1 r2); ring.
Qed.

Lemma exact lo hi :
  (a2 = 0 /\ (a1 = 0 \/ / 10 ^ 300 <= Rabs a1)) \/ / 10 ^ 12 * quad_scale a1 a0 <= Rabs a2 -> lo <= hi ->
  is_RInt pos lo hi (pos_quad a2 a1 a0 lo hi).
Proof.
  intros HY LH. unfold pos_quad. destruct (Rle_dec hi lo) as [D|D].
  { assert (hi = lo) by lra. subst hi. apply (is_RInt_point (V := R_NormedModule)). }
  assert (SC : 0 < quad_scale a1 a0) by (unfold quad_scale; pose proof (Rabs_pos a1); pose proof (Rabs_pos a0); lra).
  destruct (Rlt_dec (Rabs a2) _) as [S|S].
  - destruct HY as [[Z HA]|HY]; [|lra].
    destruct (Rlt_dec (Rabs a1) _) as [T|T].
    + destruct HA as [HA|HA]; [|lra]. destruct (Rlt_dec 0 a0) as [P|P].
      * apply seg_pos; [exact LH|]. intros c _. unfold q. rewrite Z, HA. lra.
      * apply pos_neg; [exact LH|]. intros c _. unfold q. rewrite Z, HA. lra.
    + assert (A1 : a1 <> 0).
      { intros Z1. rewrite Z1, Rabs_R0 in T. apply T. apply Rinv_0_lt_compat. apply pow_lt. lra. }
      set (r := - a0 / a1).
      assert (QF : forall c, q c = a1 * (c - r)) by (intros c; unfold q, r; rewrite Z; field; exact A1).
      clearbody r. clear T HA S SC.
      destruct (Rlt_dec 0 a1) as [P|P].
      * apply right_half; [exact LH| |]; intros c _ C; rewrite QF; clear - P C; nra.
      * apply left_half; [exact LH| |]; intros c _ C; rewrite QF; clear - P C A1; nra.
  - assert (A2 : a2 <> 0).
    { intros Z. rewrite Z, Rabs_R0 in S. apply S. apply Rmult_lt_0_compat; [|exact SC].
      apply Rinv_0_lt_compat. apply pow_lt. lra. }
    clear HY S. destruct (Rle_dec _ 0) as [N|N].
    + assert (QF : forall c, 4 * a2 * q c = (2 * a2 * c + a1) * (2 * a2 * c + a1) - (a1 * a1 - 4 * a2 * a0))
        by (intros c; unfold q; ring).
      destruct (Rlt_dec 0 a2) as [P|P].
      * apply seg_pos; [exact LH|]. intros c _. specialize (QF c).
        assert (0 <= 4 * a2 * q c) by (rewrite QF; pose proof (Rle_0_sqr (2 * a2 * c + a1)) as SQ; unfold Rsqr in SQ; lra). apply Rmult_le_reg_l with (4 * a2); lra.
      * apply pos_neg; [exact LH|]. intros c _. specialize (QF c).
        assert (0 <= 4 * a2 * q c) by (rewrite QF; pose proof (Rle_0_sqr (2 * a2 * c + a1)) as SQ; unfold Rsqr in SQ; lra). apply Rmult_le_reg_l with (4 * - a2); lra.
    + set (d := a1 * a1 - 4 * a2 * a0) in *. assert (DP : 0 < d) by lra.
      pose proof (sqrt_lt_R0 d DP) as SP. pose proof (sqrt_sqrt d (Rlt_le _ _ DP)) as SS.
      set (s := sqrt d) in *.
      set (qq := - (1 / 2) * (a1 + (if Rle_dec 0 a1 then s else - s))).
      assert (QN : qq <> 0) by (unfold qq; destruct (Rle_dec 0 a1); lra).
      assert (QE : qq * qq + a1 * qq + a2 * a0 = 0).
      { unfold qq. destruct (Rle_dec 0 a1).
        - transitivity ((s * s - d) / 4); [unfold d; field|]. rewrite SS. field.
        - transitivity ((s * s - d) / 4); [unfold d; field|]. rewrite SS. field. }
      pose proof (factored _ _ (roots qq A2 QN QE)) as QF.
      set (r := Rmin (qq / a2) (a0 / qq)) in *. set (t := Rmax (qq / a2) (a0 / qq)) in *.
      assert (RT : r <= t) by (unfold r, t; eapply Rle_trans; [apply Rmin_l | apply Rmax_l]).
      assert (PP : forall x y, 0 <= x -> 0 <= y -> 0 <= x * y) by (intros; apply Rmult_le_pos; assumption).
      destruct (Rlt_dec 0 a2) as [P|P].
      * apply outside; [exact LH | exact RT | | |]; intros c C; rewrite QF.
        -- replace (a2 * (c - r) * (c - t)) with (a2 * ((r - c) * (t - c))) by ring. apply PP; [lra|]. apply PP; lra.
        -- replace (a2 * (c - r) * (c - t)) with (- (a2 * ((c - r) * (t - c)))) by ring.
           enough (0 <= a2 * ((c - r) * (t - c))) by lra. apply PP; [lra|]. apply PP; lra.
        -- replace (a2 * (c - r) * (c - t)) with (a2 * ((c - r) * (c - t))) by ring. apply PP; [lra|]. apply PP; lra.
      * apply inside; [exact LH | exact RT | | |]; intros c C; rewrite QF.
        -- replace (a2 * (c - r) * (c - t)) with (- (- a2 * ((r - c) * (t - c)))) by ring.
           enough (0 <= - a2 * ((r - c) * (t - c))) by lra. apply PP; [lra|]. apply PP; lra.
        -- replace (a2 * (c - r) * (c - t)) with (- a2 * ((c - r) * (t - c))) by ring. apply PP; [lra|]. apply PP; lra.
        -- replace (a2 * (c - r) * (c - t)) with (- (- a2 * ((c - r) * (c - t)))) by ring.
           enough (0 <= - a2 * ((c - r) * (c - t))) by lra. apply PP; [lra|]. apply PP; lra.
Qed.

(** ** Inside the band where the quadratic is taken to be linear *)
Lemma pos_bound x y e : x <= y -> (forall c, x < c < y -> q c <= e) -> 0 <= e -> 0 <= RInt pos x y <= (y - x) * e.
Proof.
  intros H B E. split.
  - apply RInt_ge_0; [exact H | apply pos_ex|]. intros c _. unfold pos. apply Rmax_l.
  - replace ((y - x) * e) with (RInt (fun _ => e) x y) by (rewrite RInt_const; reflexivity).
    apply RInt_le; [exact H | apply pos_ex | apply ex_RInt_const|]. intros c C. unfold pos. apply Rmax_lub; [exact E|].
    apply B; exact C.
Qed.

Lemma seg_bound x y e : x <= y -> (forall c, x < c < y -> - e <= q c) -> 0 <= e ->
  0 <= RInt pos x y - quad_seg a2 a1 a0 x y <= (y - x) * e.
Proof.
  intros H B E.
  assert (S : quad_seg a2 a1 a0 x y = RInt q x y).
  { unfold quad_seg. destruct (Rle_dec y x) as [L|L].
    - assert (y = x) by lra. subst y. rewrite RInt_point. reflexivity.
    - symmetry. apply is_RInt_unique. apply q_int. }
  assert (QX : ex_RInt q x y) by (eexists; apply q_int).
  rewrite S. split.
  - enough (RInt q x y <= RInt pos x y) by lra. apply RInt_le; [exact H | exact QX | apply pos_ex|].
    intros c _. unfold pos. apply Rmax_r.
  - assert (P1 : RInt (fun c => q c + e) x y = RInt q x y + (y - x) * e).
    { etransitivity; [exact (RInt_plus q (fun _ => e) x y QX (ex_RInt_const x y e))|]. rewrite RInt_const. reflexivity. }
    enough (RInt pos x y <= RInt (fun c => q c + e) x y) by lra.
    apply RInt_le; [exact H | apply pos_ex | apply (ex_RInt_plus q (fun _ => e) x y QX (ex_RInt_const x y e))|].
    intros c C. specialize (B c C). unfold pos. apply Rmax_lub; lra.
Qed.

Lemma chasles x y z : RInt pos x z = RInt pos x y + RInt pos y z.
Proof. symmetry. apply (RInt_Chasles pos x y z); apply pos_ex. Qed.

Lemma band lo hi : -1 <= lo -> lo <= hi -> hi <= 1 ->
  Rabs (RInt pos lo hi - pos_quad a2 a1 a0 lo hi) <= (hi - lo) * (2 * / 10 ^ 12 * quad_scale a1 a0).
Proof.
  intros L LH H.
  assert (SC : 1 <= quad_scale a1 a0) by (unfold quad_scale; pose proof (Rabs_pos a1); pose proof (Rabs_pos a0); lra).
  assert (T12 : 0 < / 10 ^ 12) by (apply Rinv_0_lt_compat; apply pow_lt; lra).
  set (e := 2 * / 10 ^ 12 * quad_scale a1 a0).
  assert (EP : 0 <= e) by (unfold e; nra).
  destruct (Rle_dec (/ 10 ^ 12 * quad_scale a1 a0) (Rabs a2)) as [B|B].
  { rewrite (is_RInt_unique _ _ _ _ (exact lo hi (or_intror B) LH)). rewrite Rminus_eq_0, Rabs_R0. apply Rmult_le_pos; lra. }
  apply Rnot_le_lt in B. unfold pos_quad. destruct (Rle_dec hi lo) as [D|D].
  { assert (hi = lo) by lra. subst hi. rewrite RInt_point.
    assert (Z : forall x y, x = 0 -> y = 0 -> Rabs (x - y) = 0) by (intros x y -> ->; rewrite Rminus_0_r; apply Rabs_R0).
    rewrite Z by reflexivity. replace ((lo - lo) * e) with 0 by ring. lra. }
  destruct (Rlt_dec (Rabs a2) _) as [S|S]; [|lra].
  assert (CC : forall c, lo < c < hi -> Rabs (a2 * c * c) <= / 10 ^ 12 * quad_scale a1 a0).
  { intros c C. rewrite Rmult_assoc, Rabs_mult. assert (Rabs (c * c) <= 1) by (rewrite Rabs_right; nra).
    pose proof (Rabs_pos a2). pose proof (Rabs_pos (c * c)). nra. }
  assert (ABS : forall x y, Rabs x <= y -> - y <= x <= y) by (intros x y; unfold Rabs; destruct (Rcase_abs x); lra).
  destruct (Rlt_dec (Rabs a1) _) as [T|T].
  - assert (T2 : Rabs a1 <= / 10 ^ 12 * quad_scale a1 a0).
    { assert (/ 10 ^ 300 <= / 10 ^ 12).
      { apply Rinv_le_contravar; [apply pow_lt; lra|]. apply Rle_pow; [lra|]. apply Nat.leb_le. reflexivity. }
      clear T12 EP B S CC. eapply Rle_trans; [apply Rlt_le; exact T|]. eapply Rle_trans; [eassumption|].
      rewrite <- Rmult_1_r at 1. apply Rmult_le_compat_l; [|exact SC]. apply Rlt_le. apply Rinv_0_lt_compat. apply pow_lt. lra. }
    clear T. assert (C2 : forall c, lo < c < hi -> Rabs (a1 * c) <= / 10 ^ 12 * quad_scale a1 a0).
    { intros c C. rewrite Rabs_mult. assert (Rabs c <= 1) by (unfold Rabs; destruct (Rcase_abs c); lra).
      pose proof (Rabs_pos a1). pose proof (Rabs_pos c). nra. }
    destruct (Rlt_dec 0 a0) as [P|P].
    + destruct (seg_bound lo hi e LH) as [U V]; [|exact EP|].
      * intros c C. pose proof (ABS _ _ (CC c C)). pose proof (ABS _ _ (C2 c C)). unfold q, e. lra.
      * rewrite Rabs_right by lra. exact V.
    + destruct (pos_bound lo hi e LH) as [U V]; [|exact EP|].
      * intros c C. pose proof (ABS _ _ (CC c C)). pose proof (ABS _ _ (C2 c C)). unfold q, e. lra.
      * rewrite Rminus_0_r, Rabs_right by lra. exact V.
  - assert (A1 : a1 <> 0).
    { intros Z1. rewrite Z1, Rabs_R0 in T. apply T. apply Rinv_0_lt_compat. apply pow_lt. lra. }
    clear T. set (r := - a0 / a1).
    assert (QF : forall c, q c = a2 * c * c + a1 * (c - r)) by (intros c; unfold q, r; field; exact A1).
    assert (GOAL : forall x, lo <= x <= hi ->
      (forall c, lo < c < x -> q c <= e) -> (forall c, x < c < hi -> - e <= q c) ->
      Rabs (RInt pos lo hi - quad_seg a2 a1 a0 x hi) <= (hi - lo) * e).
    { intros x X P N. destruct (pos_bound lo x e) as [U V]; [lra | exact P | exact EP|].
      destruct (seg_bound x hi e) as [U' V']; [lra | exact N | exact EP|].
      rewrite (chasles lo x hi). rewrite Rabs_right by lra. lra. }
    assert (GOAL' : forall x, lo <= x <= hi ->
      (forall c, lo < c < x -> - e <= q c) -> (forall c, x < c < hi -> q c <= e) ->
      Rabs (RInt pos lo hi - quad_seg a2 a1 a0 lo x) <= (hi - lo) * e).
    { intros x X P N. destruct (pos_bound x hi e) as [U V]; [lra | exact N | exact EP|].
      destruct (seg_bound lo x e) as [U' V']; [lra | exact P | exact EP|].
      rewrite (chasles lo x hi). rewrite Rabs_right by lra. lra. }
    assert (E2 : / 10 ^ 12 * quad_scale a1 a0 <= e) by (unfold e; nra).
    destruct (Rlt_dec 0 a1) as [P|P].
    + destruct (Rle_dec hi r) as [I|I].
      * rewrite seg_none by (eapply Rle_trans; [exact I | apply Rmax_r]). rewrite <- (seg_none hi hi) by lra.
        apply GOAL; [lra| |]; intros c C; [|lra]. assert (C' : lo < c < hi) by lra. pose proof (ABS _ _ (CC c C')). rewrite QF. sgn a1 c r.
      * apply GOAL.
        -- split; [apply Rmax_l|]. apply Rmax_lub; lra.
        -- intros c C. assert (c < r).
           { unfold Rmax in C. destruct (Rle_dec lo r); lra. }
           assert (C' : lo < c < hi) by lra. pose proof (ABS _ _ (CC c C')). rewrite QF. sgn a1 c r.
        -- intros c C. pose proof (Rmax_r lo r). pose proof (Rmax_l lo r). assert (C' : lo < c < hi) by lra.
           pose proof (ABS _ _ (CC c C')). rewrite QF. sgn a1 c r.
    + destruct (Rle_dec r lo) as [I|I].
      * rewrite seg_none by (eapply Rle_trans; [apply Rmin_r | exact I]). rewrite <- (seg_none lo lo) by lra.
        apply GOAL'; [lra| |]; intros c C; [lra|]. assert (C' : lo < c < hi) by lra. pose proof (ABS _ _ (CC c C')). rewrite QF. sgn a1 c r.
      * apply GOAL'.
        -- split; [|apply Rmin_l]. apply Rmin_glb; lra.
        -- intros c C. pose proof (Rmin_r hi r). pose proof (Rmin_l hi r). assert (C' : lo < c < hi) by lra.
           pose proof (ABS _ _ (CC c C')). rewrite QF. sgn a1 c r.
        -- intros c C. assert (r < c).
           { unfold Rmin in C. destruct (Rle_dec hi r); lra. }
           assert (C' : lo < c < hi) by lra. pose proof (ABS _ _ (CC c C')). rewrite QF. sgn a1 c r.
Qed.
End quad.
