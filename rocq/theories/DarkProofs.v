(** Lemmas about the upscattering of DarkNews. *)
From Coq Require Import Reals List Lra Psatz.
From Verif Require Import VectorModel RkModel RkSpec RkProofs RandomModel TurnModel DipoleSpec TurnProofs DarkModel DarkSpec.
Import ListNotations.
Open Scope R_scope.

Lemma p4_energy p m : 0 <= pe (p4_of p m) /\ pe (p4_of p m) * pe (p4_of p m) = m * m + vdot p p.
Proof. cbn. rewrite lsq. split; [apply sqrt_pos|]. apply sqrt_sqrt. pose proof (vdot_nonneg p). nra. Qed.
Lemma target_energy s : 0 <= sc_m2 s -> pe (target s) = sc_m2 s.
Proof. intros H. cbn. unfold length_squared. cbn. replace (sc_m2 s * sc_m2 s + (0 * 0 + 0 * 0 + 0 * 0)) with (sc_m2 s * sc_m2 s) by ring. now apply sqrt_square. Qed.
Lemma sqrt_zero x : 0 <= x -> sqrt x = 0 -> x = 0.
Proof. intros H Z. apply sqrt_eq_0; auto. Qed.

Section One.
Variable s : scatter.
Hypothesis M2 : 0 < sc_m2 s.
Let E1 := pe (primary s).
Lemma e3_e4 q2 : e3_lab s q2 + e4_lab s q2 = E1 + sc_m2 s.
Proof. unfold e3_lab. rewrite target_energy by lra. fold E1. ring. Qed.
Lemma e4_eq q2 : 2 * sc_m2 s * e4_lab s q2 = q2 + sc_m2 s * sc_m2 s + sc_m4 s * sc_m4 s.
Proof. unfold e4_lab. field. lra. Qed.

Lemma cos_value q2 c : cos_theta s q2 = Num c -> let E3 := e3_lab s q2 in let P3 := sqrt (E3 * E3 - sc_m3 s * sc_m3 s) in
  0 < vlength (sc_p s) /\ 0 < P3 /\ P3 * P3 = E3 * E3 - sc_m3 s * sc_m3 s /\
  vlength (sc_p s) * P3 * c = E1 * E3 - (q2 + sc_m1 s * sc_m1 s + sc_m3 s * sc_m3 s) / 2.
Proof.
  intros H E3 P3. unfold cos_theta in H. fold E1 in H. fold E3 in H. destruct (p4_energy (sc_p s) (sc_m1 s)) as [N Q]. fold (primary s) in N, Q. fold E1 in N, Q.
  replace (E1 * E1 - sc_m1 s * sc_m1 s) with (vdot (sc_p s) (sc_p s)) in H by lra. rewrite <- lsq in H. fold (vlength (sc_p s)) in H.
  pose proof (vdot_nonneg (sc_p s)) as V. rewrite lsq in H. destruct (Rlt_dec (vdot (sc_p s) (sc_p s)) 0); [lra|]. destruct (Rlt_dec (E3 * E3 - sc_m3 s * sc_m3 s) 0) as [|G]; [discriminate|].
  fold P3 in H. set (P1 := vlength (sc_p s)) in *. destruct (Req_EM_T (P1 * P3) 0) as [|D]; [destruct (Req_EM_T _ 0); discriminate|]. injection H as <-.
  assert (A : 0 <= P1) by apply vlength_nonneg. assert (B : 0 <= P3) by apply sqrt_pos.
  assert (A' : P1 <> 0) by (intros X; apply D; rewrite X; ring). assert (B' : P3 <> 0) by (intros X; apply D; rewrite X; ring).
  split; [lra|]. split; [lra|]. split; [apply sqrt_sqrt; lra|]. field. split; auto.
Qed.

Lemma e3_forward q2 c : 0 < q2 -> 0 <= sc_m1 s -> cos_theta s q2 = Num c -> Rabs c <= 1 -> 0 <= e3_lab s q2.
Proof.
  intros HQ H1 HC Hc. destruct (cos_value q2 c HC) as (A & B & P & V). set (E3 := e3_lab s q2) in *. set (P3 := sqrt _) in *. set (P1 := vlength (sc_p s)) in *.
  destruct (p4_energy (sc_p s) (sc_m1 s)) as [N Q]. fold (primary s) in N, Q. fold E1 in N, Q. pose proof (vlength_sq (sc_p s)) as L. fold P1 in L. rewrite <- L in Q.
  set (h := (q2 + sc_m1 s * sc_m1 s + sc_m3 s * sc_m3 s) / 2) in *. assert (Hh : 0 < h) by (unfold h; nra). clearbody h P1 P3 E3. clear L.
  apply Rnot_lt_le. intros C.
  assert (X1 : P1 <= E1) by (apply Rsqr_incr_0_var; unfold Rsqr; nra). assert (X2 : P3 <= - E3) by (apply Rsqr_incr_0_var; unfold Rsqr; nra).
  assert (X3 : P1 * P3 <= E1 * (- E3)) by (apply Rmult_le_compat; lra).
  assert (X4 : - (P1 * P3) <= P1 * P3 * c). { assert (- (1) <= c) by (unfold Rabs in Hc; destruct (Rcase_abs c); lra). assert (0 < P1 * P3) by (now apply Rmult_lt_0_compat). nra. }
  lra.
Qed.
End One.

Lemma final_shape s q2 u c : 0 < sc_m2 s -> 0 <= sc_m1 s -> 0 < q2 -> clear_of_x (sc_p s) -> cos_theta s q2 = Num c -> Rabs c <= 1 ->
  exists k r, final_state AbsDouble s q2 u = Some (k, r) /\ pe k = e3_lab s q2 /\ pe r = e4_lab s q2 /\
  two_to_two (sc_p s) (sc_m1 s) (sc_m2 s) (sc_m3 s) (sc_m4 s) q2 (pe k) (pp k) (pe r) (pp r).
Proof.
  intros M2 M1 HQ HX HC Hc. unfold final_state. rewrite HC. assert (C2 : c * c <= 1) by (unfold Rabs in Hc; destruct (Rcase_abs c); nra).
  destruct (Rlt_dec (1 - c * c) 0); [lra|]. pose proof (e3_forward s q2 c HQ M1 HC Hc) as F. destruct (cos_value s q2 c HC) as (A & B & P & V).
  pose proof (e3_e4 s M2 q2) as EE. pose proof (e4_eq s M2 q2) as E4.
  destruct (p4_energy (sc_p s) (sc_m1 s)) as [N Q]. fold (primary s) in N, Q. set (E3 := e3_lab s q2) in *. set (P3 := sqrt (E3 * E3 - _)) in *. set (P1 := vlength (sc_p s)) in *.
  set (a := mkp4 E3 (vscale P3 (mkv c (sqrt (1 - c * c)) 0)) (- (1))). eexists _, _. split; [reflexivity|].
  set (k := turn AbsDouble (sc_p s) u a). assert (KE : pe k = E3) by reflexivity.
  assert (KK : vdot (pp k) (pp k) = P3 * P3).
  { unfold k. rewrite turn_square. unfold a, vdot. cbn. pose proof (sqrt_sqrt (1 - c * c) ltac:(lra)) as W. set (w := sqrt (1 - c * c)) in *. clearbody w. replace (P3 * c * (P3 * c) + P3 * w * (P3 * w) + P3 * 0 * (P3 * 0)) with (P3 * P3 * (c * c + w * w)) by ring. rewrite W. ring. }
  assert (NZ : sc_p s <> mkv 0 0 0). { intros X. unfold P1, vlength, length_squared in A. rewrite X in A. cbn in A. replace (0 * 0 + 0 * 0 + 0 * 0) with 0 in A by ring. rewrite sqrt_0 in A. lra. }
  assert (KP : vdot (sc_p s) (pp k) = P1 * P3 * c). { unfold k. rewrite turn_dot by auto. unfold a. cbn [pp vscale vx]. fold P1. ring. }
  assert (RE : pe (p4_sub (p4_add (primary s) (target s)) k) = e4_lab s q2). { cbn [p4_sub p4_add pe]. rewrite target_energy by lra. rewrite KE. lra. }
  assert (RP : pp (p4_sub (p4_add (primary s) (target s)) k) = vsub (sc_p s) (pp k)). { cbn. unfold vsub, vadd. cbn. f_equal; ring. }
  split; [exact KE|]. split; [exact RE|]. clearbody k. rewrite RE, RP, KE. set (E1 := pe (primary s)) in *.
  pose proof (dist_sq (sc_p s) (pp k)) as D. unfold distance_squared in D. rewrite KK, KP in D. set (d := vdot (vsub (sc_p s) (pp k)) _) in *.
  assert (QQ : q2 = d - (E1 - E3) * (E1 - E3)) by (rewrite D; nra). exists E1. unfold shell. rewrite KK. fold d.
  split; [split; [exact N|lra]|]. split; [split; [exact F|lra]|]. split; [split|].
  - assert (0 < 2 * sc_m2 s * e4_lab s q2) by (rewrite E4; nra). nra.
  - replace (E1 - E3) with (e4_lab s q2 - sc_m2 s) in QQ by lra. nra.
  - split; [lra|]. split; [|exact QQ]. apply veq; cbn; ring.
Qed.

Lemma allowed_cos p m1 m2 m3 m4 q2 e3 p3 e4 p4 : 0 < m2 -> p <> mkv 0 0 0 -> p3 <> mkv 0 0 0 -> two_to_two p m1 m2 m3 m4 q2 e3 p3 e4 p4 ->
  exists c, cos_theta (mkscatter p m1 m2 m3 m4) q2 = Num c /\ Rabs c <= 1 /\ e3 = e3_lab (mkscatter p m1 m2 m3 m4) q2 /\ e4 = e4_lab (mkscatter p m1 m2 m3 m4) q2.
Proof.
  intros M2 Z Z3 (e1 & [N1 S1] & [N3 S3] & [N4 S4] & EE & PP & QQ). set (s := mkscatter p m1 m2 m3 m4).
  pose proof (e3_e4 s M2 q2) as A. pose proof (e4_eq s M2 q2) as B. destruct (p4_energy p m1) as [N Q]. change (p4_of p m1) with (primary s) in N, Q. cbn [sc_m2 sc_m4 s] in A, B.
  assert (E : e1 = pe (primary s)) by (apply Rsqr_inj; unfold Rsqr; lra). rewrite <- E in *.
  assert (V : vsub p p3 = p4) by (rewrite <- PP; apply veq; cbn; ring). pose proof (dist_sq p p3) as D. unfold distance_squared in D. rewrite V in D. rewrite V in QQ.
  assert (E4 : e4 = e4_lab s q2). { replace (e1 - e3) with (e4 - m2) in QQ by lra. assert (2 * m2 * e4 = 2 * m2 * e4_lab s q2) by (rewrite B; nra). apply Rmult_eq_reg_l with (2 * m2); lra. }
  assert (E3 : e3 = e3_lab s q2) by lra. pose proof (vlength_pos p Z) as L1. pose proof (vlength_pos p3 Z3) as L3. pose proof (vlength_sq p) as W1. pose proof (vlength_sq p3) as W3.
  pose proof (cauchy p p3) as C. unfold cos_theta. rewrite <- E, <- E3. cbn [sc_m1 sc_m3 s].
  replace (e1 * e1 - m1 * m1) with (vlength p * vlength p) by lra. replace (e3 * e3 - m3 * m3) with (vlength p3 * vlength p3) by lra.
  destruct (Rlt_dec (vlength p * vlength p) 0); [nra|]. destruct (Rlt_dec (vlength p3 * vlength p3) 0); [nra|]. rewrite !sqrt_square by lra.
  assert (G : 0 < vlength p * vlength p3) by (now apply Rmult_lt_0_compat). destruct (Req_EM_T (vlength p * vlength p3) 0); [lra|]. eexists. split; [reflexivity|]. split; [|split; auto].
  replace (e1 * e3 - 5 / 10 * (q2 + m1 * m1 + m3 * m3)) with (vdot p p3) by nra.
  unfold Rdiv. rewrite Rabs_mult, (Rabs_right (/ _)) by (apply Rle_ge, Rlt_le, Rinv_0_lt_compat; auto). apply Rmult_le_reg_r with (vlength p * vlength p3); auto. rewrite Rmult_assoc, Rinv_l, Rmult_1_l, Rmult_1_r by lra.
  apply Rsqr_incr_0_var; [|lra]. rewrite <- Rsqr_abs. unfold Rsqr. replace (vlength p * vlength p3 * (vlength p * vlength p3)) with (vlength p * vlength p * (vlength p3 * vlength p3)) by ring. rewrite W1, W3. exact C.
Qed.

Lemma physical_num c : physical c = true <-> exists x, c = Num x /\ Rabs x <= 1.
Proof. destruct c as [x| |]; cbn; [destruct (Rle_dec (Rabs x) 1)|..]; split; try discriminate; try (intros (y & H & K); congruence); eauto. Qed.

Lemma proposal_range lo hi u : 0 < lo <= hi -> 0 <= u <= 1 -> lo <= q2_proposal lo hi u <= hi.
Proof.
  intros [L H] U. assert (T : 0 < ln 10) by (rewrite <- ln_1; apply ln_increasing; lra).
  assert (LE : ln lo <= ln hi). { destruct (Rle_lt_or_eq_dec _ _ H) as [X| ->]; [|lra]. apply Rlt_le, ln_increasing; auto. }
  assert (LL : log10 lo <= log10 hi). { unfold log10, Rdiv. apply Rmult_le_compat_r; auto. apply Rlt_le, Rinv_0_lt_compat; auto. }
  assert (K : log10 lo <= uniform (log10 lo) (log10 hi) u <= log10 hi). { unfold uniform. destruct (Rlt_dec (log10 hi) (log10 lo)); [lra|]. nra. }
  assert (P : forall x, 0 < x -> Rpower 10 (log10 x) = x). { intros x X. unfold Rpower, log10. replace (ln x / ln 10 * ln 10) with (ln x) by (field; lra). now apply exp_ln. }
  unfold q2_proposal. rewrite <- (P lo L) at 1. rewrite <- (P hi) at 3 by lra. split; apply Rle_Rpower; lra.
Qed.
Lemma proposal_hits lo hi q : 0 < lo < hi -> q2_proposal lo hi ((log10 q - log10 lo) / (log10 hi - log10 lo)) = Rpower 10 (log10 q).
Proof.
  intros [L H]. assert (T : 0 < ln 10) by (rewrite <- ln_1; apply ln_increasing; lra). pose proof (ln_increasing _ _ L H) as I.
  assert (LL : log10 lo < log10 hi). { unfold log10, Rdiv. apply Rmult_lt_compat_r; auto. apply Rinv_0_lt_compat; auto. }
  unfold q2_proposal, uniform. destruct (Rlt_dec (log10 hi) (log10 lo)); [lra|]. f_equal. field. lra.
Qed.
Lemma pow_log x : 0 < x -> Rpower 10 (log10 x) = x.
Proof. intros X. assert (T : 0 < ln 10) by (rewrite <- ln_1; apply ln_increasing; lra). unfold Rpower, log10. replace (ln x / ln 10 * ln 10) with (ln x) by (field; lra). now apply exp_ln. Qed.
