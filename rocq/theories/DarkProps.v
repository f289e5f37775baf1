(** Properties C174 to C176: upscattering with the cross sections of DarkNews. *)
From Coq Require Import Reals List Lra Psatz.
From Verif Require Import VectorModel RkModel RkSpec RkProofs RandomModel TurnModel DipoleSpec TurnProofs DarkModel DarkSpec DarkProofs.
Import ListNotations.
Open Scope R_scope.

(** ** C174: the final state *)

(** C174: for a Q2 that passes the check of the angle, the particles that come out have their masses, energy and momentum are kept, and the momentum transfer is the Q2. *)
Theorem C174_final s q2 u : 0 <= sc_m1 s -> 0 < sc_m2 s -> 0 < q2 -> clear_of_x (sc_p s) -> physical (cos_theta s q2) = true ->
  exists k r, final_state AbsDouble s q2 u = Some (k, r) /\
  two_to_two (sc_p s) (sc_m1 s) (sc_m2 s) (sc_m3 s) (sc_m4 s) q2 (pe k) (pp k) (pe r) (pp r).
Proof.
  intros H1 H2 H3 H4 H5. apply physical_num in H5. destruct H5 as (c & C & D). destruct (final_shape s q2 u c) as (k & r & A & _ & _ & B); auto. now exists k, r.
Qed.
Print Assumptions C174_final.

(** C174: and all that the kinematics allow passes the check, unless a particle of the two is at rest. *)
Theorem C174_complete p m1 m2 m3 m4 q2 e3 p3 e4 p4 : 0 < m2 -> p <> mkv 0 0 0 -> p3 <> mkv 0 0 0 -> two_to_two p m1 m2 m3 m4 q2 e3 p3 e4 p4 ->
  physical (cos_theta (mkscatter p m1 m2 m3 m4) q2) = true.
Proof. intros H1 H2 H3 H4. destruct (allowed_cos _ _ _ _ _ _ _ _ _ _ H1 H2 H3 H4) as (c & A & B & _). apply physical_num. eauto. Qed.
Print Assumptions C174_complete.

(** A massless particle of energy one goes off at a right angle from a target of mass one. *)
Lemma right_angle : two_to_two (mkv 0 1 0) 0 1 0 1 1 (1 / 2) (mkv (1 / 2) 0 0) (3 / 2) (mkv (- (1 / 2)) 1 0).
Proof. exists 1. unfold shell, vdot. cbn. repeat split; try lra. apply veq; cbn; lra. Qed.
Lemma backward : two_to_two (mkv 0 1 0) 0 1 0 1 (4 / 3) (1 / 3) (mkv 0 (- (1 / 3)) 0) (5 / 3) (mkv 0 (4 / 3) 0).
Proof. exists 1. unfold shell, vdot. cbn. repeat split; try lra. apply veq; cbn; lra. Qed.
Lemma clear_y : clear_of_x (mkv 0 1 0).
Proof. right. unfold vlen, vdot. cbn. replace (0 * 0 + 1 * 1 + 0 * 0) with 1 by ring. rewrite sqrt_1. lra. Qed.
Lemma not_zero a b c : a <> 0 \/ b <> 0 \/ c <> 0 -> mkv a b c <> mkv 0 0 0.
Proof. intros H X. injection X as -> -> ->. tauto. Qed.
Example C174_case u : exists k r, final_state AbsDouble (mkscatter (mkv 0 1 0) 0 1 0 1) (4 / 3) u = Some (k, r) /\ pe k = 1 / 3 /\ pe r = 5 / 3.
Proof.
  destruct (allowed_cos _ _ _ _ _ _ _ _ _ _ Rlt_0_1 (not_zero 0 1 0 ltac:(right; left; lra)) (not_zero 0 (- (1 / 3)) 0 ltac:(right; left; lra)) backward) as (c & A & B & C & D).
  destruct (final_shape (mkscatter (mkv 0 1 0) 0 1 0 1) (4 / 3) u c) as (k & r & F & G & H & _); cbn [sc_p sc_m1 sc_m2]; try lra; auto using clear_y.
  exists k, r. rewrite G, H, <- C, <- D. auto.
Qed.

(** ** C175: the chain *)

Lemma round_keeps s lo hi dxs st r : 0 < lo <= hi -> 0 <= fst r <= 1 -> lo <= fst st <= hi -> physical (cos_theta s (fst st)) = true ->
  let st' := dark_round s lo hi dxs st r in lo <= fst st' <= hi /\ physical (cos_theta s (fst st')) = true.
Proof.
  intros L U A B st'. unfold st', dark_round. set (acc := if Req_EM_T (snd st) 0 then true else _). destruct acc; [|auto].
  destruct (physical (cos_theta s (q2_proposal lo hi (fst r)))) eqn:P; [|auto]. cbn [fst]. split; auto. now apply proposal_range.
Qed.
Lemma rounds_keep s lo hi dxs rounds : 0 < lo <= hi -> Forall (fun r => 0 <= fst r <= 1) rounds -> forall st, lo <= fst st <= hi -> physical (cos_theta s (fst st)) = true ->
  let st' := fold_left (dark_round s lo hi dxs) rounds st in lo <= fst st' <= hi /\ physical (cos_theta s (fst st')) = true.
Proof.
  intros L F. induction F as [|r rounds U F IH]; intros st A B; cbn [fold_left]; auto. destruct (round_keeps s lo hi dxs st r L U A B) as [A' B']. auto.
Qed.
Lemma first_range s lo hi us q : 0 < lo <= hi -> Forall (fun u => 0 <= u <= 1) us -> first_point s lo hi us = Some q -> lo <= q <= hi /\ above_one (cos_theta s q) = false.
Proof.
  intros L F. induction F as [|u us U F IH]; cbn; [discriminate|]. destruct (above_one (cos_theta s (q2_proposal lo hi u))) eqn:A; [auto|]. intros [= <-]. split; auto. now apply proposal_range.
Qed.

(** C175: if the first point passes the check of the angle, so does the last, and it is in the range. *)
Theorem C175_chain s lo hi dxs us rounds q0 q : 0 < lo <= hi -> Forall (fun u => 0 <= u <= 1) us -> Forall (fun r => 0 <= fst r <= 1) rounds ->
  first_point s lo hi us = Some q0 -> physical (cos_theta s q0) = true -> final_q2 s lo hi dxs us rounds = Some q -> lo <= q <= hi /\ physical (cos_theta s q) = true.
Proof.
  intros L FU FR H P. unfold final_q2. rewrite H. intros [= <-]. destruct (first_range _ _ _ _ _ L FU H) as [A _]. now apply rounds_keep.
Qed.
Print Assumptions C175_chain.

Lemma chain_weight s lo hi dxs rounds st : snd st = dxs (fst st) -> snd (fold_left (dark_round s lo hi dxs) rounds st) = dxs (fst (fold_left (dark_round s lo hi dxs) rounds st)).
Proof.
  revert st. induction rounds as [|r l IH]; intros st H; cbn [fold_left]; auto. apply IH. unfold dark_round. set (acc := if Req_EM_T (snd st) 0 then true else _).
  destruct acc; auto. destruct (physical _); auto.
Qed.

(** C175: each round is a step of the Metropolis rule: the proposal replaces the point exactly if it is physical and the second number is below the quotient of the cross sections at the proposal and at the point. *)
Theorem C175_rule s lo hi dxs us rounds r q : (forall x, 0 < dxs x) -> 0 <= snd r < 1 -> final_q2 s lo hi dxs us rounds = Some q ->
  let x := q2_proposal lo hi (fst r) in
  (physical (cos_theta s x) = true /\ snd r < dxs x / dxs q -> final_q2 s lo hi dxs us (rounds ++ [r]) = Some x) /\
  (~ (physical (cos_theta s x) = true /\ snd r < dxs x / dxs q) -> final_q2 s lo hi dxs us (rounds ++ [r]) = Some q).
Proof.
  intros P U H x. unfold final_q2 in *. destruct (first_point s lo hi us) as [q0|]; [|discriminate]. rewrite fold_left_app. cbn [fold_left].
  pose proof (chain_weight s lo hi dxs rounds (q0, dxs q0) eq_refl) as W. set (st := fold_left _ rounds _) in *. assert (E : fst st = q) by congruence. rewrite E in W.
  unfold dark_round. fold x. rewrite W. pose proof (P q) as Q. destruct (Req_EM_T (dxs q) 0) as [N|_]; [exfalso; lra|].
  replace (uniform 0 1 (snd r)) with (snd r) by (unfold uniform; destruct (Rlt_dec 1 0); [exfalso; lra|ring]).
  destruct (Rlt_dec 1 (dxs x / dxs q)) as [A|A]; [|destruct (Rlt_dec (snd r) (dxs x / dxs q)) as [B|B]]; destruct (physical (cos_theta s x)); cbn [fst]; rewrite ?E; split; intros V; auto; exfalso;
    try (destruct V as [V1 V2]; try discriminate; lra); apply V; split; auto; lra.
Qed.
Print Assumptions C175_rule.

(** C175: when the range of Q2 leaves the outgoing particle more energy than its mass, the chain ends in a proper scattering with a Q2 of the range, whatever the cross section and the numbers drawn. *)
Theorem C175_sample s lo hi dxs us rounds u : 0 <= sc_m1 s -> 0 < sc_m2 s -> 0 <= sc_m3 s -> 0 < lo <= hi -> sc_p s <> mkv 0 0 0 -> clear_of_x (sc_p s) ->
  sc_m3 s < sqrt (sc_m1 s * sc_m1 s + vdot (sc_p s) (sc_p s)) + sc_m2 s - (hi + sc_m2 s * sc_m2 s + sc_m4 s * sc_m4 s) / (2 * sc_m2 s) ->
  Forall (fun u => 0 <= u <= 1) us -> Forall (fun r => 0 <= fst r <= 1) rounds -> first_point s lo hi us <> None ->
  exists q2 k r, sample_final AbsDouble s lo hi dxs us rounds u = Some (q2, k, r) /\ lo <= q2 <= hi /\
  two_to_two (sc_p s) (sc_m1 s) (sc_m2 s) (sc_m3 s) (sc_m4 s) q2 (pe k) (pp k) (pe r) (pp r).
Proof.
  intros M1 M2 M3 L Z X E FU FR S. destruct (first_point s lo hi us) as [q0|] eqn:H; [|now elim S]. destruct (first_range _ _ _ _ _ L FU H) as [A B].
  assert (P : physical (cos_theta s q0) = true).
  { assert (G : sc_m3 s < e3_lab s q0).
    { unfold e3_lab, e4_lab. rewrite target_energy by lra. cbn [primary p4_of pe]. rewrite lsq.
      assert ((q0 + sc_m2 s * sc_m2 s + sc_m4 s * sc_m4 s) / (2 * sc_m2 s) <= (hi + sc_m2 s * sc_m2 s + sc_m4 s * sc_m4 s) / (2 * sc_m2 s)).
      { unfold Rdiv. apply Rmult_le_compat_r; [apply Rlt_le, Rinv_0_lt_compat; lra|lra]. } lra. }
    clear S E. unfold cos_theta in *. destruct (p4_energy (sc_p s) (sc_m1 s)) as [N Q]. fold (primary s) in N, Q. set (E1 := pe (primary s)) in *. set (E3 := e3_lab s q0) in *.
    pose proof (vlength_pos _ Z) as L1. pose proof (vlength_sq (sc_p s)) as W. assert (V : E1 * E1 - sc_m1 s * sc_m1 s = vlength (sc_p s) * vlength (sc_p s)) by lra. rewrite V in *.
    destruct (Rlt_dec (vlength (sc_p s) * vlength (sc_p s)) 0); [nra|]. assert (G2 : 0 < E3 * E3 - sc_m3 s * sc_m3 s) by nra. destruct (Rlt_dec (E3 * E3 - sc_m3 s * sc_m3 s) 0); [lra|].
    rewrite sqrt_square in * by lra. pose proof (sqrt_lt_R0 _ G2) as P3. assert (D : 0 < vlength (sc_p s) * sqrt (E3 * E3 - sc_m3 s * sc_m3 s)) by (now apply Rmult_lt_0_compat).
    destruct (Req_EM_T (vlength (sc_p s) * sqrt (E3 * E3 - sc_m3 s * sc_m3 s)) 0); [lra|]. cbn in *. set (c := _ / _) in *. destruct (Rlt_dec 1 (Rabs c)); [discriminate|]. destruct (Rle_dec (Rabs c) 1); auto. lra. }
  unfold sample_final. destruct (final_q2 s lo hi dxs us rounds) as [q|] eqn:F; [|unfold final_q2 in F; rewrite H in F; discriminate].
  destruct (C175_chain s lo hi dxs us rounds q0 q L FU FR H P F) as [R1 R2]. destruct (C174_final s q u) as (k & r & K & T); auto; [lra|]. exists q, k, r. rewrite K. auto.
Qed.
Print Assumptions C175_sample.

(** An outgoing particle of half the mass of the target. *)
Definition heavy : scatter := mkscatter (mkv 0 1 0) 0 1 (1 / 2) 1.
Lemma heavy_e1 : pe (primary heavy) = 1.
Proof. cbn. unfold length_squared. cbn. replace (0 * 0 + (0 * 0 + 1 * 1 + 0 * 0)) with 1 by ring. apply sqrt_1. Qed.
Lemma heavy_e3 q : e3_lab heavy q = 1 - q / 2.
Proof. unfold e3_lab. rewrite heavy_e1, target_energy by (cbn; lra). unfold e4_lab. cbn. field. Qed.
Lemma heavy_nan : cos_theta heavy (3 / 2) = Nan.
Proof. unfold cos_theta. rewrite heavy_e1, heavy_e3. cbn [sc_m1 sc_m3 heavy]. destruct (Rlt_dec (1 * 1 - 0 * 0) 0); [lra|]. destruct (Rlt_dec _ 0); auto. exfalso. lra. Qed.
Lemma heavy_some : exists c, cos_theta heavy (1 / 2) = Num c /\ Rabs c <= 1.
Proof.
  unfold cos_theta. rewrite heavy_e1, heavy_e3. cbn [sc_m1 sc_m3 heavy]. destruct (Rlt_dec (1 * 1 - 0 * 0) 0); [lra|]. destruct (Rlt_dec _ 0); [lra|].
  replace (1 * 1 - 0 * 0) with 1 by ring. rewrite sqrt_1, Rmult_1_l. set (d := sqrt _). assert (D : d * d = 5 / 16). { unfold d. rewrite sqrt_sqrt by lra. lra. } assert (N : 0 <= d) by apply sqrt_pos. clearbody d.
  assert (1 / 2 <= d) by (apply Rsqr_incr_0_var; unfold Rsqr; lra). destruct (Req_EM_T d 0); [lra|]. eexists. split; [reflexivity|].
  replace (1 * (1 - 1 / 2 / 2) - 5 / 10 * (1 / 2 + 0 * 0 + 1 / 2 * (1 / 2))) with (3 / 8) by lra. rewrite Rabs_right; [|apply Rle_ge; apply Rlt_le; apply Rdiv_lt_0_compat; lra].
  apply Rmult_le_reg_r with d; [lra|]. unfold Rdiv. rewrite Rmult_assoc, Rinv_l; lra.
Qed.

(** Finding (C175): the check of the first point is false for a NaN, so a Q2 that leaves less energy than the mass is kept, and the momenta are then NaN. *)
Theorem C175_nan_refuted : exists s lo hi us rounds, 0 < lo < hi /\ Forall (fun u => 0 <= u < 1) us /\ Forall (fun r => 0 <= fst r < 1 /\ 0 <= snd r < 1) rounds /\ length rounds = 41%nat /\
  (exists q2 e3 p3 e4 p4, lo <= q2 <= hi /\ two_to_two (sc_p s) (sc_m1 s) (sc_m2 s) (sc_m3 s) (sc_m4 s) q2 e3 p3 e4 p4) /\
  forall dxs u, (forall q, 0 < dxs q) -> exists q2, final_q2 s lo hi dxs us rounds = Some q2 /\ sample_final AbsDouble s lo hi dxs us rounds u = None.
Proof.
  set (v := (log10 (3 / 2) - log10 (1 / 10)) / (log10 100 - log10 (1 / 10))).
  assert (V : q2_proposal (1 / 10) 100 v = 3 / 2) by (unfold v; rewrite proposal_hits by lra; apply pow_log; lra).
  assert (R : 0 <= v < 1).
  { assert (T : 0 < ln 10) by (rewrite <- ln_1; apply ln_increasing; lra).
    assert (I : forall a b, 0 < a < b -> log10 a < log10 b). { intros a b [A B]. unfold log10, Rdiv. apply Rmult_lt_compat_r; [apply Rinv_0_lt_compat; auto|now apply ln_increasing]. }
    pose proof (I (1 / 10) (3 / 2) ltac:(lra)). pose proof (I (3 / 2) 100 ltac:(lra)). unfold v. split.
    - apply Rlt_le, Rdiv_lt_0_compat; lra.
    - apply Rmult_lt_reg_r with (log10 100 - log10 (1 / 10)); [lra|]. unfold Rdiv. rewrite Rmult_assoc, Rinv_l; lra. }
  exists heavy, (1 / 10), 100, [v], (repeat (v, 0) 41). split; [lra|]. split; [auto|]. split; [apply Forall_forall; intros r I; apply repeat_spec in I; subst; cbn; lra|]. split; [apply repeat_length|]. split.
  - destruct heavy_some as (c & C & D). destruct (final_shape heavy (1 / 2) 0 c) as (k & r & _ & _ & _ & T); cbn [heavy sc_p sc_m1 sc_m2]; try lra; auto using clear_y.
    exists (1 / 2), (pe k), (pp k), (pe r), (pp r). split; [lra|exact T].
  - intros dxs u P. assert (S : forall n, fold_left (dark_round heavy (1 / 10) 100 dxs) (repeat (v, 0) n) (3 / 2, dxs (3 / 2)) = (3 / 2, dxs (3 / 2))).
    { induction n as [|n IH]; cbn [repeat fold_left]; auto. replace (dark_round heavy (1 / 10) 100 dxs (3 / 2, dxs (3 / 2)) (v, 0)) with (3 / 2, dxs (3 / 2)); auto.
      unfold dark_round. cbn [fst snd]. rewrite V, heavy_nan. cbn [physical]. now destruct (if Req_EM_T _ _ then _ else _). }
    assert (F : final_q2 heavy (1 / 10) 100 dxs [v] (repeat (v, 0) 41) = Some (3 / 2)). { unfold final_q2. cbn [first_point]. rewrite V, heavy_nan. cbn [above_one]. now rewrite S. }
    exists (3 / 2). split; auto. unfold sample_final. rewrite F. unfold final_state. now rewrite heavy_nan.
Qed.
Print Assumptions C175_nan_refuted.

(** A range that leaves enough energy. *)
Example C175_case dxs rounds u : Forall (fun r => 0 <= fst r <= 1) rounds ->
  exists q2 k r, sample_final AbsDouble heavy (1 / 2) (6 / 10) dxs [0] rounds u = Some (q2, k, r) /\ 1 / 2 <= q2 <= 6 / 10.
Proof.
  intros F. assert (Q : q2_proposal (1 / 2) (6 / 10) 0 = 1 / 2).
  { unfold q2_proposal, uniform. assert (T : 0 < ln 10) by (rewrite <- ln_1; apply ln_increasing; lra). pose proof (ln_increasing (1 / 2) (6 / 10) ltac:(lra) ltac:(lra)) as I.
    assert (log10 (1 / 2) < log10 (6 / 10)). { unfold log10, Rdiv at 1 3. apply Rmult_lt_compat_r; [apply Rinv_0_lt_compat; auto|auto]. }
    destruct (Rlt_dec (log10 (6 / 10)) (log10 (1 / 2))); [lra|]. rewrite Rmult_0_r, Rplus_0_l. apply pow_log. lra. }
  destruct (C175_sample heavy (1 / 2) (6 / 10) dxs [0] rounds u) as (q2 & k & r & A & B & _); cbn [heavy sc_p sc_m1 sc_m2 sc_m3 sc_m4]; try lra; auto using clear_y.
  - apply not_zero. right; left; lra.
  - unfold vdot. cbn. replace (0 * 0 + (0 * 0 + 1 * 1 + 0 * 0)) with 1 by ring. rewrite sqrt_1. lra.
  - repeat constructor; lra.
  - cbn [first_point]. rewrite Q. destruct heavy_some as (c & C & D). change (mkscatter _ _ _ _ _) with heavy. rewrite C. cbn. destruct (Rlt_dec 1 (Rabs c)); [lra|discriminate].
  - exists q2, k, r. auto.
Qed.

(** ** C176: the probability of a record *)

(** C176: the probability is the quotient of the two cross sections, and zero where one of them is zero; it is not negative for cross sections that are not. *)
Theorem C176_quotient dxs txs r : (forall a b c d, 0 <= dxs a b c d) -> (forall a b c, 0 <= txs a b c) ->
  0 <= final_probability dxs txs r /\ (record_txs txs r <> 0 -> final_probability dxs txs r * record_txs txs r = record_dxs dxs r) /\ (record_txs txs r = 0 -> final_probability dxs txs r = 0).
Proof.
  intros D T. unfold final_probability. pose proof (D (dr_type r) (dr_target r) (pe (p4_of (dr_p r) (dr_mass r))) (record_q2 r)) as D1. fold (record_dxs dxs r) in D1. pose proof (T (dr_type r) (dr_energy r) (dr_type r)) as T1. fold (record_txs txs r) in T1.
  destruct (Req_EM_T (record_dxs dxs r) 0) as [Z|Z]; [repeat split; try lra; intros _; lra|]. destruct (Req_EM_T (record_txs txs r) 0) as [Y|Y]; [repeat split; try lra|].
  split; [apply Rmult_le_pos; [lra|apply Rlt_le, Rinv_0_lt_compat; lra]|]. split; [intros _; field; auto|tauto].
Qed.
Print Assumptions C176_quotient.

Lemma record_q2_value r : 0 <= dr_target_mass r -> record_q2 r = 2 * pe (p4_of (dr_p r) (dr_mass r)) * dr_target_mass r - dr_mass r * dr_mass r - dr_target_mass r * dr_target_mass r.
Proof.
  intros H. unfold record_q2, p4_dot. cbn [p4_of pm pp]. pose proof (target_energy (mkscatter (dr_p r) 0 (dr_target_mass r) 0 0) H) as T. cbn [sc_m2] in T.
  change (pe (p4_of (mkv 0 0 0) (dr_target_mass r))) with (pe (target (mkscatter (dr_p r) 0 (dr_target_mass r) 0 0))). rewrite T. unfold vdot. cbn [vx vy vz]. ring.
Qed.

(** Finding (C176): the outgoing momentum is replaced by that of the target, so the cross section is not evaluated at the momentum transfer of the record; records with different transfers have the same density. *)
Theorem C176_transfer_refuted : exists r r', dr_p r = dr_p r' /\ dr_mass r = dr_mass r' /\ dr_target_mass r = dr_target_mass r' /\ dr_type r = dr_type r' /\ dr_target r = dr_target r' /\ dr_energy r = dr_energy r' /\
  (exists e3 e4 p4, two_to_two (dr_p r) (dr_mass r) (dr_target_mass r) (dr_m3 r) 1 (transfer (dr_mass r) (dr_p r) (dr_m3 r) (dr_p3 r)) e3 (dr_p3 r) e4 p4) /\
  (exists e3 e4 p4, two_to_two (dr_p r') (dr_mass r') (dr_target_mass r') (dr_m3 r') 1 (transfer (dr_mass r') (dr_p r') (dr_m3 r') (dr_p3 r')) e3 (dr_p3 r') e4 p4) /\
  transfer (dr_mass r) (dr_p r) (dr_m3 r) (dr_p3 r) <> transfer (dr_mass r') (dr_p r') (dr_m3 r') (dr_p3 r') /\
  forall dxs txs, record_dxs dxs r = record_dxs dxs r' /\ final_probability dxs txs r = final_probability dxs txs r'.
Proof.
  exists (mkdr 0 1 1 (mkv 0 1 0) 0 1 (mkv (1 / 2) 0 0) 0), (mkdr 0 1 1 (mkv 0 1 0) 0 1 (mkv 0 (- (1 / 3)) 0) 0). cbn [dr_p dr_mass dr_target_mass dr_type dr_target dr_energy dr_m3 dr_p3].
  assert (A : transfer 0 (mkv 0 1 0) 0 (mkv (1 / 2) 0 0) = 1).
  { unfold transfer, vdot. cbn. replace (0 * 0 + (0 * 0 + 1 * 1 + 0 * 0)) with 1 by ring. rewrite sqrt_1. replace (0 * 0 + (1 / 2 * (1 / 2) + 0 * 0 + 0 * 0)) with (1 / 2 * (1 / 2)) by ring. rewrite sqrt_square by lra. lra. }
  assert (B : transfer 0 (mkv 0 1 0) 0 (mkv 0 (- (1 / 3)) 0) = 4 / 3).
  { unfold transfer, vdot. cbn. replace (0 * 0 + (0 * 0 + 1 * 1 + 0 * 0)) with 1 by ring. rewrite sqrt_1. replace (0 * 0 + (0 * 0 + - (1 / 3) * - (1 / 3) + 0 * 0)) with (1 / 3 * (1 / 3)) by lra. rewrite sqrt_square by lra. lra. }
  rewrite A, B. repeat (split; [reflexivity|]). split; [eexists _, _, _; apply right_angle|]. split; [eexists _, _, _; apply backward|]. split; [lra|]. intros dxs txs. split; reflexivity.
Qed.
Print Assumptions C176_transfer_refuted.

(** C176: the value used is that of the collision of primary and target, whatever comes out. *)
Theorem C176_transfer_partial r : 0 <= dr_target_mass r -> let e1 := sqrt (dr_mass r * dr_mass r + vdot (dr_p r) (dr_p r)) in
  record_q2 r = 2 * e1 * dr_target_mass r - dr_mass r * dr_mass r - dr_target_mass r * dr_target_mass r.
Proof. intros H e1. rewrite record_q2_value by auto. cbn [p4_of pe]. rewrite lsq. reflexivity. Qed.
Print Assumptions C176_transfer_partial.

(** Finding (C176): the total cross section is asked for with the primary's type as the target's. *)
Theorem C176_target_refuted : exists r txs, (forall a b c, 0 < txs a b c) /\ record_txs txs r <> txs (dr_type r) (dr_energy r) (dr_target r).
Proof.
  exists (mkdr 0 1 1 (mkv 0 1 0) 0 1 (mkv (1 / 2) 0 0) 0), (fun _ _ t => match t with O => 1 | _ => 2 end). split.
  - intros a b [|c]; lra.
  - cbn. lra.
Qed.
Print Assumptions C176_target_refuted.

(** Constant cross sections. *)
Example C176_case : final_probability (fun _ _ _ _ => 1) (fun _ _ _ => 2) (mkdr 0 1 1 (mkv 0 1 0) 0 1 (mkv (1 / 2) 0 0) 0) = 1 / 2.
Proof. unfold final_probability, record_dxs, record_txs. destruct (Req_EM_T 1 0); [lra|]. destruct (Req_EM_T 2 0); lra. Qed.
