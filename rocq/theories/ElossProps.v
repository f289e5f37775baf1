(** Energy loss of charmed mesons: theorems. *)
From Coq Require Import Reals Lra.
From Coquelicot Require Import Coquelicot.
From Coq Require Import List.
From Verif Require Import VectorModel RkModel RkSpec RkProofs RandomModel CharmModel CharmProofs ElossModel ElossSpec
  ElossProofs.
Import ListNotations.
Open Scope R_scope.

(** C137: whatever numbers are drawn, a meson and a hadron that are sampled share the energy of the
    primary, the meson keeps its mass, both are on their mass shells and move along the primary, and
    the meson loses at least a thousandth of the energy. *)
Theorem C137_sampled : forall mom m draws d h, 0 <= m -> eloss_sample mom m draws = Sampled d h ->
  let e := pe (p4_of mom m) in
  pm d = m /\ pm h = 0 /\ on_shell d /\ on_shell h /\ pe d + pe h = e /\
  along mom (pp d) /\ along mom (pp h) /\
  m <= pe d /\ e / 1000 <= pe h /\ 0 < pe h /\ exists z, possible_loss m e z /\ pe d = e * (1 - z).
Proof.
  intros mom m draws d h M S. cbn zeta. unfold eloss_sample in S. destruct (primary_energy mom m M) as [L [Q Z]].
  set (e := pe (p4_of mom m)) in *. destruct (Rle_dec e m) as [B|B]; [discriminate S|].
  destruct (eloss_loop max_trials m e draws) as [[z|]|] eqn:A; try discriminate S.
  assert (E : 0 < e) by lra.
  pose proof (proj1 (accept_spec m e z M E) (loop_accept _ _ _ _ _ A)) as P.
  assert (V : 0 < vlength mom).
  { apply vlength_pos. intros C. apply B. apply Z. exact C. }
  pose proof (products_are mom m e z M E V P) as R.
  destruct (eloss_products mom m e (e * (1 - z))) as [d' h']. injection S as <- <-.
  destruct R as [R1 [R2 [R3 [R4 [R5 [R6 [R7 R8]]]]]]]. destruct P as [P1 P2].
  assert (0 < e * z) by (apply Rmult_lt_0_compat; lra).
  assert (e * (1 / 1000) <= e * z) by (apply Rmult_le_compat_l; lra).
  rewrite R1, R2. repeat (split; [first [assumption|lra]|]). exists z. repeat split; assumption.
Qed.
Print Assumptions C137_sampled.

(** C137: a fraction of the energy is accepted exactly when it is a possible loss. *)
Theorem C137_accept : forall m e z, 0 <= m -> 0 < e -> (eloss_accept m e z = true <-> possible_loss m e z).
Proof. exact accept_spec. Qed.
Print Assumptions C137_accept.

(** C137: a meson at rest cannot lose energy: the attempt fails, whatever would be drawn. *)
Theorem C137_at_rest : forall m draws, 0 <= m -> eloss_sample (mkv 0 0 0) m draws = Injection_failure.
Proof.
  intros m draws M. unfold eloss_sample. destruct (primary_energy (mkv 0 0 0) m M) as [_ [_ Z]].
  destruct (Rle_dec _ m) as [B|B]; [reflexivity|]. exfalso. apply B. apply Z. reflexivity.
Qed.
Print Assumptions C137_at_rest.

(** The loop gives up once it has refused its number of trials. *)
Lemma loop_gives_up : forall t m e pairs rest, length pairs = t ->
  Forall (fun u => fst u <> 0 /\ eloss_accept m e (box_muller (fst u) (snd u)) = false) pairs ->
  eloss_loop t m e (flat_map (fun u => [fst u; snd u]) pairs ++ rest) = None.
Proof.
  induction t as [|t IH]; intros m e pairs rest L F; [reflexivity|].
  destruct pairs as [|[u1 u2] pairs]; [discriminate L|]. inversion F as [|x l [N A] F' E1]; subst.
  cbn [flat_map app fst snd eloss_loop nonzero_draw] in *.
  rewrite !uniform01. destruct (Req_EM_T u1 0) as [C|_]; [contradiction|]. cbv beta iota zeta. rewrite ?uniform01. rewrite A.
  apply IH. now injection L. exact F'.
Qed.

(** C137: the attempt fails, and does not go on for ever, when the losses of a thousand trials are
    all impossible. *)
Theorem C137_cap : forall mom m pairs rest, 0 <= m -> length pairs = (10 * 10 * 10)%nat ->
  Forall (fun u => fst u <> 0 /\ ~ possible_loss m (pe (p4_of mom m)) (box_muller (fst u) (snd u))) pairs ->
  eloss_sample mom m (flat_map (fun u => [fst u; snd u]) pairs ++ rest) = Injection_failure.
Proof.
  intros mom m pairs rest M L F. unfold eloss_sample. set (e := pe (p4_of mom m)) in *.
  destruct (Rle_dec e m) as [B|B]; [reflexivity|]. rewrite (loop_gives_up max_trials); [reflexivity|exact L|].
  eapply Forall_impl; [|exact F]. cbn beta. intros u [N P]. split; [exact N|].
  destruct (eloss_accept m e _) eqn:A; [|reflexivity]. exfalso. apply P. apply accept_spec; [exact M|lra|exact A].
Qed.
Print Assumptions C137_cap.

(** C137: every possible loss of a moving meson is reached by some draws. *)
Theorem C137_reached : forall mom m z, 0 <= m -> mom <> mkv 0 0 0 ->
  let e := pe (p4_of mom m) in
  possible_loss m e z ->
  exists u1 u2 d h, 0 < u1 < 1 /\ 0 <= u2 < 1 /\ eloss_sample mom m [u1; u2] = Sampled d h /\ pe d = e * (1 - z).
Proof.
  intros mom m z M N e P. destruct (primary_energy mom m M) as [L [_ Z]]. fold e in L, Z.
  assert (B : ~ e <= m) by (intros C; apply N, Z, C).
  assert (E : 0 < e) by lra.
  assert (W : forall u1 u2, 0 < u1 < 1 -> 0 <= u2 < 1 -> box_muller u1 u2 = z ->
            exists d h, eloss_sample mom m [u1; u2] = Sampled d h /\ pe d = e * (1 - z)).
  { intros u1 u2 U1 U2 X. unfold eloss_sample. fold e. destruct (Rle_dec e m) as [C|_]; [contradiction|].
    assert (S : eloss_loop max_trials m e [u1; u2] = Some (Some z)).
    { change max_trials with (S (pred max_trials)). generalize (pred max_trials) as t. intros t.
      cbn [eloss_loop nonzero_draw]. rewrite !uniform01. destruct (Req_EM_T u1 0) as [C|_]; [lra|]. cbv beta iota zeta. rewrite ?uniform01.
      rewrite X. now rewrite (proj2 (accept_spec m e z M E) P). }
    rewrite S. assert (V : 0 < vlength mom) by (apply vlength_pos; exact N).
    pose proof (products_are mom m e z M E V P) as R.
    destruct (eloss_products mom m e (e * (1 - z))) as [d h]. exists d, h. split; [reflexivity|]. tauto. }
  set (w := (z - z0) / sigma).
  assert (Q : z <> z0 -> 0 < exp (- (w * w / 2)) < 1).
  { intros D. split; [apply exp_pos|]. rewrite <- exp_0. apply exp_increasing.
    assert (w <> 0). { unfold w, sigma. intros C. apply D. assert ((z - z0) / (2 / 10) * (2 / 10) = 0) by (rewrite C; ring).
      replace ((z - z0) / (2 / 10) * (2 / 10)) with (z - z0) in H by field. lra. }
    assert (0 < w * w) by (destruct (Rdichotomy _ _ H); nra). lra. }
  assert (X : forall c, box_muller (exp (- (w * w / 2))) c = sigma * Rabs w * cos (2 * PI * c) + z0).
  { intros c. unfold box_muller. rewrite ln_exp. replace (- (2) * - (w * w / 2)) with (Rsqr w) by (unfold Rsqr; field).
    now rewrite sqrt_Rsqr_abs. }
  assert (G : sigma * w + z0 = z) by (unfold w, sigma; field).
  destruct (Rtotal_order z z0) as [H|[H|H]].
  - assert (w < 0) by (unfold w, sigma; lra).
    exists (exp (- (w * w / 2))), (1 / 2). destruct (W (exp (- (w * w / 2))) (1 / 2)) as [d [h T]].
    apply Q; lra. lra.
    + rewrite X. replace (2 * PI * (1 / 2)) with PI by field. rewrite cos_PI, Rabs_left by assumption. lra.
    + exists d, h. split; [apply Q; lra|]. split; [lra|exact T].
  - exists (1 / 2), (1 / 4). destruct (W (1 / 2) (1 / 4)) as [d [h T]]. lra. lra.
    + unfold box_muller. replace (2 * PI * (1 / 4)) with (PI / 2) by field. rewrite cos_PI2. lra.
    + exists d, h. split; [lra|]. split; [lra|exact T].
  - assert (0 < w) by (unfold w, sigma; lra).
    exists (exp (- (w * w / 2))), 0. destruct (W (exp (- (w * w / 2))) 0) as [d [h T]].
    apply Q; lra. lra.
    + rewrite X. rewrite Rmult_0_r, cos_0, Rabs_right by lra. lra.
    + exists d, h. split; [apply Q; lra|]. split; [lra|exact T].
Qed.
Print Assumptions C137_reached.

(** The primary of the examples: mass 5, momentum 12 along the last axis. *)
Lemma thirteen : pe (p4_of (mkv 0 0 12) 5) = 13.
Proof.
  unfold p4_of. cbn [pe]. rewrite lsq. unfold vdot. cbn [vx vy vz].
  replace (5 * 5 + (0 * 0 + 0 * 0 + 12 * 12)) with (13 * 13) by ring. apply sqrt_square. lra.
Qed.

Example C137_case : exists d h, eloss_sample (mkv 0 0 12) 5 [0; 1 / 2; 1 / 4] = Sampled d h /\ pe d = 572 / 100.
Proof.
  unfold eloss_sample. rewrite thirteen. destruct (Rle_dec 13 5) as [C|_]; [lra|].
  assert (S : eloss_loop max_trials 5 13 [0; 1 / 2; 1 / 4] = Some (Some z0)).
  { change max_trials with (S (pred max_trials)). generalize (pred max_trials) as t. intros t.
    cbn [eloss_loop nonzero_draw]. rewrite !uniform01. destruct (Req_EM_T 0 0) as [_|C]; [|lra].
    destruct (Req_EM_T (1 / 2) 0) as [C|_]; [lra|]. cbv beta iota zeta. rewrite ?uniform01.
    replace (box_muller (1 / 2) (1 / 4)) with z0
      by (unfold box_muller; replace (2 * PI * (1 / 4)) with (PI / 2) by field; rewrite cos_PI2; ring).
    rewrite (proj2 (accept_spec 5 13 z0 ltac:(lra) ltac:(lra))); [reflexivity|].
    unfold possible_loss, z0. lra. }
  rewrite S.
  assert (V : 0 < vlength (mkv 0 0 12)).
  { apply vlength_pos. intros C. injection C as C. lra. }
  pose proof (products_are (mkv 0 0 12) 5 13 z0 ltac:(lra) ltac:(lra) V) as R.
  destruct (eloss_products (mkv 0 0 12) 5 13 (13 * (1 - z0))) as [d h]. exists d, h. split; [reflexivity|].
  destruct R as [R _]. unfold possible_loss, z0; lra. rewrite R. unfold z0. field.
Qed.

(** C137: momentum is not conserved: a meson of mass 5 and momentum 12 that keeps 5.72 of its energy
    of 13 leaves a total momentum other than 12. *)
Theorem C137_momentum_refuted : exists mom m draws d h, 0 < m /\
  eloss_sample mom m draws = Sampled d h /\ vadd (pp d) (pp h) <> mom.
Proof.
  destruct C137_case as [d [h [S E]]]. exists (mkv 0 0 12), 5, [0; 1 / 2; 1 / 4], d, h.
  split; [lra|]. split; [exact S|]. intros C.
  destruct (C137_sampled (mkv 0 0 12) 5 _ d h ltac:(lra) S) as [M [N [D [H [T [[k [K1 K2]] [[j [J1 J2]] _]]]]]]].
  rewrite thirteen in T. destruct D as [_ [_ D]]. destruct H as [_ [_ H]].
  rewrite M, E, K2 in D. rewrite N, J2 in H. replace (pe h) with (728 / 100) in H by lra.
  rewrite K2, J2 in C. unfold vdot in D, H. cbn [vadd vscale vx vy vz] in C, D, H.
  injection C as _ _ C. assert (J : j = 728 / 1200).
  { apply Rsqr_inj; [exact J1|lra|]. unfold Rsqr. lra. }
  assert (k = 472 / 1200) by lra. subst k. lra.
Qed.
Print Assumptions C137_momentum_refuted.

(** C138: where the total cross section is positive and the integral of the profile is the true one,
    the probability density of the fraction of energy lost, over the losses that the sampler can
    produce, is positive and integrates to one. *)
Theorem C138_normalised : forall quad p m e, eloss_supported p = true -> 0 <= m -> 1 <= e ->
  z_min < 1 - m / e ->
  quad bell z_min (1 - m / e) = Some (RInt bell z_min (1 - m / e)) ->
  exists f, (forall z, possible_loss m e z -> eloss_probability quad p m e (e * (1 - z)) = Some (f z) /\ 0 < f z) /\
            is_RInt f z_min (1 - m / e) 1.
Proof.
  intros quad p m e P M E K Q. set (v := RInt bell z_min (1 - m / e)) in *.
  assert (V : 0 < v) by (apply bell_area; exact K).
  exists (fun z => / v * bell z). split.
  - intros z [Z1 Z2]. split; [|apply Rmult_lt_0_compat; [apply Rinv_0_lt_compat; exact V|apply bell_pos]].
    unfold eloss_probability, eloss_diff, eloss_total. rewrite P, hi_kin by lra. rewrite Q.
    replace (1 - e * (1 - z) / e) with z by (field; lra).
    destruct (Rle_dec (1 - m / e) z_min) as [C|_]; [lra|]. unfold z_min in *.
    destruct (Rlt_dec z (1 / 1000)) as [C|_]; [lra|].
    destruct (Rlt_dec (1 - m / e) z) as [C|_]. { exfalso. pose proof (proj2 (below_kin m e z ltac:(lra)) Z2). lra. }
    set (t := (exp _ - _ + _) * _).
    assert (T : 0 < t).
    { unfold t. apply Rmult_lt_0_compat; [|apply Rinv_0_lt_compat, pow_lt; lra].
      assert (0 <= lg e). { replace 0 with (lg 1) by (unfold lg; rewrite ln_1; unfold Rdiv; ring). apply lg_mono; lra. }
      pose proof (exp_ineq1_le (1891 / 1000 + 205 / 1000 * lg e)). lra. }
    clearbody t. assert (0 < t / v * bell z).
    { apply Rmult_lt_0_compat; [|apply bell_pos]. apply Rmult_lt_0_compat; [exact T|apply Rinv_0_lt_compat; exact V]. }
    destruct (Req_EM_T (t / v * bell z) 0) as [C|_]; [lra|]. f_equal. field. lra.
  - replace 1 with (/ v * v) at 2 by (field; lra).
    apply (is_RInt_scal (V := R_NormedModule)). apply (RInt_correct (V := R_CompleteNormedModule)). apply bell_ex.
Qed.
Print Assumptions C138_normalised.

(** C138: the density vanishes for every loss that the sampler cannot produce, whatever the integral. *)
Theorem C138_support : forall quad p m e f, 0 <= m -> 0 < e ->
  ~ possible_loss m e (1 - f / e) -> eloss_diff quad p m e f = Some 0.
Proof.
  intros quad p m e f M E N. unfold eloss_diff. rewrite hi_kin by lra.
  destruct (Rle_dec _ z_min) as [_|_]; [reflexivity|].
  destruct (Rlt_dec _ z_min) as [_|A]; [reflexivity|].
  destruct (Rlt_dec _ (1 - f / e)) as [_|B]; [reflexivity|]. exfalso. apply N. unfold z_min in A.
  split; [lra|]. apply below_kin; lra.
Qed.
Print Assumptions C138_support.

(** C138: what the sampler gives out has a positive probability density, if the integral is positive
    and the meson is one of the six supported. *)
Theorem C138_sampled_positive : forall quad p mom m draws d h v, 0 <= m ->
  let e := pe (p4_of mom m) in
  1 <= e -> eloss_supported p = true -> z_min < 1 - m / e -> quad bell z_min (1 - m / e) = Some v -> 0 < v ->
  eloss_sample mom m draws = Sampled d h ->
  exists x, eloss_probability quad p m e (pe d) = Some x /\ 0 < x.
Proof.
  intros quad p mom m draws d h v M e E P K Q V S.
  destruct (C137_sampled _ _ _ _ _ M S) as [_ [_ [_ [_ [_ [_ [_ [_ [_ [_ [z [[Z1 Z2] D]]]]]]]]]]]].
  fold e in Z2, D. rewrite D. exists (/ v * bell z).
  split; [|apply Rmult_lt_0_compat; [apply Rinv_0_lt_compat; exact V|apply bell_pos]].
  unfold eloss_probability, eloss_diff, eloss_total. rewrite P, hi_kin by lra. rewrite Q.
  replace (1 - e * (1 - z) / e) with z by (field; lra).
  destruct (Rle_dec (1 - m / e) z_min) as [C|_]; [lra|]. unfold z_min in *.
  destruct (Rlt_dec z (1 / 1000)) as [C|_]; [lra|].
  destruct (Rlt_dec (1 - m / e) z) as [C|_]. { exfalso. pose proof (proj2 (below_kin m e z ltac:(lra)) Z2). lra. }
  set (t := (exp _ - _ + _) * _).
  assert (T : 0 < t).
  { unfold t. apply Rmult_lt_0_compat; [|apply Rinv_0_lt_compat, pow_lt; lra].
    assert (0 <= lg e). { replace 0 with (lg 1) by (unfold lg; rewrite ln_1; unfold Rdiv; ring). apply lg_mono; lra. }
    pose proof (exp_ineq1_le (1891 / 1000 + 205 / 1000 * lg e)). lra. }
  clearbody t. assert (0 < t / v * bell z).
  { apply Rmult_lt_0_compat; [|apply bell_pos]. apply Rmult_lt_0_compat; [exact T|apply Rinv_0_lt_compat; exact V]. }
  destruct (Req_EM_T (t / v * bell z) 0) as [C|_]; [lra|]. f_equal. field. lra.
Qed.
Print Assumptions C138_sampled_positive.

(** C138: the total cross section is positive from one GeV on and grows with the energy, and is the
    same for the six mesons; every other primary is refused. *)
Theorem C138_total :
  (forall p e, In p [D0; DPlus; DsPlus; D0Bar; DMinus; DsMinus] -> 1 <= e ->
    exists s, eloss_total p e = Some s /\ 0 < s) /\
  (forall p q e e' s s', 0 < e -> e <= e' -> eloss_total p e = Some s -> eloss_total q e' = Some s' -> s <= s') /\
  (forall p e, ~ In p [D0; DPlus; DsPlus; D0Bar; DMinus; DsMinus] -> eloss_total p e = None).
Proof.
  split; [|split].
  - intros p e I E. assert (P : eloss_supported p = true).
    { cbn [In] in I. decompose [or] I; subst; try reflexivity; contradiction. }
    unfold eloss_total. rewrite P. eexists. split; [reflexivity|].
    apply Rmult_lt_0_compat; [|apply Rinv_0_lt_compat, pow_lt; lra].
    assert (0 <= lg e). { replace 0 with (lg 1) by (unfold lg; rewrite ln_1; unfold Rdiv; ring). apply lg_mono; lra. }
    pose proof (exp_ineq1_le (1891 / 1000 + 205 / 1000 * lg e)). lra.
  - intros p q e e' s s' E L A B. unfold eloss_total in A, B.
    destruct (eloss_supported p); [|discriminate]. destruct (eloss_supported q); [|discriminate].
    injection A as <-. injection B as <-. pose proof (lg_mono e e' E L) as G.
    apply Rmult_le_compat_r. left. apply Rinv_0_lt_compat. apply (pow_lt 10 27). lra.
    assert (exp (1891 / 1000 + 205 / 1000 * lg e) <= exp (1891 / 1000 + 205 / 1000 * lg e')).
    { destruct (Rle_lt_or_eq_dec _ _ G) as [H|H]; [left; apply exp_increasing; lra|rewrite H; lra]. }
    lra.
  - intros p e N. unfold eloss_total. destruct p; try reflexivity; exfalso; apply N; cbn [In]; tauto.
Qed.
Print Assumptions C138_total.

(** C138: one signature for each of the six mesons, and no other: the meson goes in and comes out,
    with a hadron beside it. *)
Theorem C138_signatures : forall (T : Type) (pplus : T) p t l,
  In (p, t, l) (eloss_signatures T pplus) <-> eloss_supported p = true /\ t = pplus /\ l = [p; Hadrons].
Proof.
  intros T pplus p t l. cbn. split.
  - intros H. decompose [or] H; try contradiction; match goal with X : (_, _, _) = _ |- _ => injection X as <- <- <- end;
      repeat split.
  - intros [P [-> ->]]. destruct p; try discriminate P; tauto.
Qed.
Print Assumptions C138_signatures.

Example C138_case : z_min < 1 - 5 / 13 /\ eloss_supported DPlus = true /\
  (fun f a b => Some (RInt f a b)) bell z_min (1 - 5 / 13) = Some (RInt bell z_min (1 - 5 / 13)) /\
  possible_loss 5 13 (56 / 100).
Proof. unfold z_min, possible_loss. repeat split; lra. Qed.

(** C138: far below one GeV the total cross section is negative. *)
Theorem C138_negative_refuted : exists p e s, 0 < e /\ eloss_total p e = Some s /\ s < 0.
Proof.
  exists D0, (/ 10 ^ 3), ((exp (1891 / 1000 + 205 / 1000 * lg (/ 10 ^ 3)) - 2157 / 1000 + 1264 / 1000 * lg (/ 10 ^ 3)) * (/ 10 ^ 27)).
  split; [apply Rinv_0_lt_compat, pow_lt; lra|]. split; [reflexivity|].
  assert (G : lg (/ 10 ^ 3) = - (3)).
  { unfold lg. assert (0 < ln 10) by (apply ln_pos; lra).
    rewrite ln_Rinv by (apply pow_lt; lra). replace (10 ^ 3) with (10 * 10 * 10) by ring.
    rewrite !ln_mult by lra. field. lra. }
  rewrite G. set (x := exp _).
  assert (X : x < 55 / 10).
  { assert (A : x * x < 30).
    { unfold x. rewrite <- exp_plus. apply Rlt_le_trans with (exp (1 + 1 + 1)); [apply exp_increasing; lra|].
      rewrite !exp_plus. pose proof exp_le_3. pose proof (exp_pos 1). nra. }
    pose proof (exp_pos (1891 / 1000 + 205 / 1000 * - (3))). fold x in H. nra. }
  assert (0 < / 10 ^ 27) by (apply Rinv_0_lt_compat, pow_lt; lra).
  rewrite <- (Rmult_0_l (/ 10 ^ 27)). apply Rmult_lt_compat_r; [assumption|lra].
Qed.
Print Assumptions C138_negative_refuted.
