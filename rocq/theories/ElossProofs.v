(** Lemmas on the energy loss of charmed mesons. *)
From Coq Require Import Reals Lra.
From Coquelicot Require Import Coquelicot.
From Coq Require Import List.
From Verif Require Import VectorModel RkModel RkSpec RkProofs RandomModel CharmModel CharmProofs ElossModel ElossSpec.
Import ListNotations.
Open Scope R_scope.

Lemma hi_kin : forall m e, 0 <= m -> 0 < e -> z_hi m e = 1 - m / e.
Proof.
  intros m e M E. unfold z_hi, z_max. destruct (Rlt_dec 1 (1 - m / e)) as [H|H]; [|reflexivity].
  exfalso. assert (0 <= m / e) by (apply Rmult_le_pos; [exact M|left; apply Rinv_0_lt_compat; exact E]). lra.
Qed.

Lemma below_kin : forall m e z, 0 < e -> (z <= 1 - m / e <-> m <= e * (1 - z)).
Proof.
  intros m e z E. split; intros H.
  - assert (e * (m / e) <= e * (1 - z)) by (apply Rmult_le_compat_l; lra).
    replace (e * (m / e)) with m in H0 by (field; lra). exact H0.
  - assert (/ e * m <= / e * (e * (1 - z))) by (apply Rmult_le_compat_l; [left; apply Rinv_0_lt_compat|]; lra).
    replace (/ e * (e * (1 - z))) with (1 - z) in H0 by (field; lra). unfold Rdiv. lra.
Qed.

Lemma accept_spec : forall m e z, 0 <= m -> 0 < e ->
  (eloss_accept m e z = true <-> possible_loss m e z).
Proof.
  intros m e z M E. unfold eloss_accept, possible_loss, z_min, z_max. cbn zeta.
  destruct (Rle_dec (1 / 1000) z) as [H1|H1]; [|split; [discriminate|intros [A _]; lra]].
  destruct (Rle_dec z 1) as [H2|H2].
  - assert (P : 0 <= e * (1 - z)) by (apply Rmult_le_pos; lra).
    destruct (Rle_dec 0 (e * (1 - z) * (e * (1 - z)) - m * m)) as [H3|H3].
    + split; [|reflexivity]. intros _. split; [exact H1|].
      apply Rsqr_incr_0_var; [unfold Rsqr; lra|exact P].
    + split; [discriminate|]. intros [_ A]. exfalso. apply H3.
      assert (m * m <= e * (1 - z) * (e * (1 - z))) by (apply Rmult_le_compat; lra). lra.
  - split; [discriminate|]. intros [_ A]. exfalso.
    assert (e * (1 - z) < e * 0) by (apply Rmult_lt_compat_l; lra). lra.
Qed.

Lemma loop_accept : forall t m e draws z,
  eloss_loop t m e draws = Some (Some z) -> eloss_accept m e z = true.
Proof.
  induction t as [|t IH]; intros m e draws z H; [discriminate H|].
  cbn [eloss_loop] in H. destruct (nonzero_draw draws) as [[u1 [|g rest]]|]; try discriminate H.
  destruct (eloss_accept m e _) eqn:A.
  - injection H as <-. exact A.
  - exact (IH _ _ _ _ H).
Qed.

Lemma primary_energy : forall mom m, 0 <= m ->
  m <= pe (p4_of mom m) /\ pe (p4_of mom m) * pe (p4_of mom m) = m * m + vdot mom mom /\
  (pe (p4_of mom m) <= m <-> mom = mkv 0 0 0).
Proof.
  intros mom m M. unfold p4_of. cbn [pe]. rewrite lsq. pose proof (vdot_nonneg mom) as N.
  assert (Q : sqrt (m * m + vdot mom mom) * sqrt (m * m + vdot mom mom) = m * m + vdot mom mom)
    by (apply sqrt_sqrt; nra).
  assert (L : m <= sqrt (m * m + vdot mom mom)).
  { rewrite <- (sqrt_square m M) at 1. apply sqrt_le_1_alt. lra. }
  split; [exact L|]. split; [exact Q|]. split.
  - intros H. apply vdot_zero. assert (S : sqrt (m * m + vdot mom mom) = m) by lra.
    rewrite S in Q. lra.
  - intros ->. unfold vdot. cbn [vx vy vz]. replace (m * m + (0 * 0 + 0 * 0 + 0 * 0)) with (m * m) by ring.
    rewrite sqrt_square by exact M. lra.
Qed.

Lemma scaled_energy : forall p m f, 0 < vlength p -> 0 <= m -> m <= f ->
  let q := vscale (sqrt (f * f - m * m) / vlength p) p in
  pe (p4_of q m) = f /\ vdot q q = f * f - m * m.
Proof.
  intros p m f L M F q. pose proof (vlength_sq p) as S.
  assert (N : 0 <= f * f - m * m) by nra.
  assert (D : vdot q q = f * f - m * m).
  { unfold q. transitivity (sqrt (f * f - m * m) * sqrt (f * f - m * m) / (vlength p * vlength p) * vdot p p).
    - unfold vdot. cbn. field. lra.
    - rewrite sqrt_sqrt by exact N. rewrite S. field. rewrite <- S. nra. }
  split; [|exact D]. unfold p4_of. cbn [pe]. rewrite lsq, D.
  replace (m * m + (f * f - m * m)) with (f * f) by ring. apply sqrt_square. lra.
Qed.

Lemma products_are : forall mom m e z, 0 <= m -> 0 < e -> 0 < vlength mom -> possible_loss m e z ->
  let '(d, h) := eloss_products mom m e (e * (1 - z)) in
  pe d = e * (1 - z) /\ pe h = e * z /\ pm d = m /\ pm h = 0 /\ on_shell d /\ on_shell h /\
  along mom (pp d) /\ along mom (pp h).
Proof.
  intros mom m e z M E L [Z1 Z2]. unfold eloss_products.
  change (sqrt (vx mom * vx mom + vy mom * vy mom + vz mom * vz mom)) with (vlength mom).
  destruct (scaled_energy mom m (e * (1 - z)) L M Z2) as [D1 D2]. rewrite D1.
  set (f := e * (1 - z)) in *.
  assert (Z : 0 < e * z) by (apply Rmult_lt_0_compat; lra).
  assert (EH : e - f = e * z) by (unfold f; ring). rewrite EH.
  destruct (scaled_energy mom 0 (e * z) L (Rle_refl 0) (Rlt_le _ _ Z)) as [H1 H2].
  replace (e * z * (e * z) - 0 * 0) with (e * z * (e * z)) in H1, H2 by ring.
  rewrite sqrt_square in H1, H2 by lra.
  split; [reflexivity|]. split; [exact H1|]. split; [reflexivity|]. split; [reflexivity|].
  split.
  { repeat split. exact M. rewrite D1. unfold f. apply Rle_trans with m; assumption.
    rewrite D1. cbn [p4_of pm pp]. rewrite D2. ring. }
  split.
  { repeat split. cbn. lra. rewrite H1. lra. rewrite H1. cbn [p4_of pm pp]. rewrite H2. ring. }
  split; eexists; (split; [|reflexivity]); apply Rmult_le_pos; try apply sqrt_pos; try lra;
    left; apply Rinv_0_lt_compat; exact L.
Qed.

Lemma bell_pos : forall z, 0 < bell z.
Proof. intros. apply exp_pos. Qed.

Lemma bell_ex : forall a b, ex_RInt bell a b.
Proof.
  intros a b. apply (ex_RInt_continuous (V := R_CompleteNormedModule)). intros z _.
  apply (ex_derive_continuous (K := R_AbsRing) (V := R_NormedModule)).
  unfold bell, sigma, z0. auto_derive. exact Logic.I.
Qed.

Lemma bell_area : forall a b, a < b -> 0 < RInt bell a b.
Proof.
  intros a b H. apply RInt_gt_0. exact H. intros. apply bell_pos.
  intros z _. apply (ex_derive_continuous (K := R_AbsRing) (V := R_NormedModule)).
  unfold bell, sigma, z0. auto_derive. exact Logic.I.
Qed.

Lemma ln_pos : forall x, 1 < x -> 0 < ln x.
Proof. intros x H. rewrite <- ln_1. apply ln_increasing; lra. Qed.

Lemma lg_mono : forall x y, 0 < x -> x <= y -> lg x <= lg y.
Proof.
  intros x y X H. unfold lg. assert (T : 0 < ln 10) by (apply ln_pos; lra).
  apply Rmult_le_compat_r. left. apply Rinv_0_lt_compat. exact T.
  destruct H as [H| ->]; [left; apply ln_increasing; assumption|right; reflexivity].
Qed.
