(** Properties C84 and C85. *)
From Coq Require Import Reals Bool Lra Lia Psatz.
From Verif Require Import VectorModel RkModel RkSpec RkProofs.
Open Scope R_scope.

(** ** C84 *)

Theorem C84_lorentz : forall b n g s a, is_boost b n g s -> on_shell a ->
  pe (p4_boost b a) = lorentz_time n g s (pe a) (pp a) /\
  pp (p4_boost b a) = lorentz_space n g s (pe a) (pp a) /\
  pm (p4_boost b a) = pm a /\ on_shell (p4_boost b a) /\ boost_mul b a = p4_boost b a.
Proof.
  intros b n g s a B S. destruct (boost_shell b n g s a B S) as [S' M].
  split; [eapply boost_time; eauto|]. split; [eapply boost_space; eauto|]. split; auto. split; auto. apply boost_mul_eq.
Qed.
Print Assumptions C84_lorentz.

Theorem C84_product : forall b n g s a a', is_boost b n g s -> on_shell a -> on_shell a' ->
  pe (p4_boost b a) * pe (p4_boost b a') - vdot (pp (p4_boost b a)) (pp (p4_boost b a')) = pe a * pe a' - vdot (pp a) (pp a').
Proof. intros. eapply (boost_dot b n g s a a'); eauto. Qed.
Print Assumptions C84_product.

Theorem C84_rest : forall a, on_shell a -> 0 < pm a -> exists b,
  rest_boost a = Some b /\ pp (p4_boost b a) = mkv 0 0 0 /\ pe (p4_boost b a) = pm a /\
  is_boost b (direction (pp a)) (pe a / pm a) (vlen (pp a) / pm a).
Proof.
  intros a S H. destruct (rest_is a S H) as [b [E B]]. exists b. split; auto.
  rewrite (rest_of_self a b S H E). auto.
Qed.
Print Assumptions C84_rest.

Theorem C84_lab_undoes_rest : forall a, on_shell a -> 0 < pm a -> exists r l,
  rest_boost a = Some r /\ lab_boost a = Some l /\
  (forall x, on_shell x -> p4_boost l (p4_boost r x) = x /\ p4_boost r (p4_boost l x) = x).
Proof.
  intros a S H. destruct (rest_is a S H) as [r [E B]]. destruct (lab_is a S H) as [l [E' B']]. exists r, l. split; auto. split; auto.
  intros x X. split; [eapply boost_cancel; eauto|]. eapply (boost_cancel l r _ _ (- (vlength (pp a) / pm a))); eauto. rewrite Ropp_involutive. auto.
Qed.
Print Assumptions C84_lab_undoes_rest.

(** The constructors give what the theorems above suppose; a massless particle has no rest frame. *)
Theorem C84_constructors : forall p m, 0 <= m ->
  on_shell (p4_of p m) /\ pp (p4_of p m) = p /\ pm (p4_of p m) = m /\
  (vdot p p < 1 -> is_boost (boost_of_velocity p) (direction p) (/ sqrt (1 - vdot p p)) (vlen p * / sqrt (1 - vdot p p))) /\
  (m = 0 -> rest_boost (p4_of p m) = None /\ lab_boost (p4_of p m) = None).
Proof.
  intros p m H. split; [apply p4_of_shell; auto|]. split; [reflexivity|]. split; [reflexivity|]. split; [apply velocity_boost|].
  intros ->. assert (E : ensure_mass (p4_of p 0) = None).
  { unfold ensure_mass. cbn [pm pe pp p4_of]. destruct (Rle_dec 0 0) as [_|N]; [|lra].
    rewrite sqrt_sqrt by (rewrite lsq; pose proof (vdot_nonneg p); lra).
    destruct (Rlt_dec 0 (0 * 0 + length_squared p - length_squared p)) as [X|]; auto. lra. }
  unfold rest_boost, lab_boost. rewrite E. auto.
Qed.
Print Assumptions C84_constructors.

(** A particle of mass 4 with momentum 3 along y, seen from its rest frame and back. *)
Example C84_case : let a := p4_of (mkv 0 3 0) 4 in
  on_shell a /\ pe a = 5 /\ exists r, rest_boost a = Some r /\
  is_boost r (mkv 0 1 0) (5 / 4) (3 / 4) /\ pe (p4_boost r (p4_of (mkv 0 4 3) 0)) = 13 / 4.
Proof.
  assert (L3 : vlength (mkv 0 3 0) = 3).
  { unfold vlength, length_squared; cbn. replace (0 * 0 + 3 * 3 + 0 * 0) with (Rsqr 3) by (unfold Rsqr; ring). apply sqrt_Rsqr; lra. }
  intros a. assert (S : on_shell a) by (apply p4_of_shell; lra).
  assert (E : pe a = 5).
  { unfold a, p4_of, length_squared; cbn. replace (_ + _) with (Rsqr 5) by (unfold Rsqr; ring). apply sqrt_Rsqr; lra. }
  split; auto. split; auto. destruct (rest_is a S) as [r [R B]]; [cbn; lra|]. exists r. split; auto.
  assert (D : direction (pp a) = mkv 0 1 0).
  { unfold direction, a; cbn [pp p4_of]. rewrite L3. destruct (Rlt_dec 0 3); [|lra]. apply veq; cbn; field. }
  rewrite D, E in B. cbn [pp pm a p4_of] in B. rewrite L3 in B. split; auto.
  rewrite (boost_time r _ _ _ _ B (p4_of_shell _ _ (Rle_refl 0))). unfold lorentz_time. cbn [pe pp p4_of].
  replace (0 * 0 + length_squared (mkv 0 4 3)) with (Rsqr 5) by (unfold Rsqr, length_squared; cbn; ring).
  rewrite sqrt_Rsqr by lra. unfold vdot; cbn. field.
Qed.

(** ** C85 *)

Theorem C85_proper : forall o a b, unit_vec a -> unit_vec b -> proper_rotation (rot_vec (rotation_between o a b)).
Proof. intros. apply rot_proper, rb_unit; auto. Qed.
Print Assumptions C85_proper.

(** With the [abs] of doubles, outside the two thresholds and for exactly (anti)parallel vectors. *)
Theorem C85_takes_partial : forall a b, unit_vec a -> unit_vec b ->
  a = b \/ a = vneg b \/ (/ 10 ^ 9 <= 1 - vdot a b /\ / 10 ^ 9 <= 1 + vdot a b) ->
  rot_vec (rotation_between AbsDouble a b) a = b.
Proof. exact rb_exact. Qed.
Print Assumptions C85_takes_partial.

Theorem C85_takes_nearly : forall a b, unit_vec a -> unit_vec b ->
  distance_squared (rot_vec (rotation_between AbsDouble a b) a) b < 2 * / 10 ^ 9.
Proof. exact rb_near. Qed.
Print Assumptions C85_takes_nearly.

(** Directions closer than about 4.5e-5 are taken as equal: the rotation is the identity. *)
Theorem C85_takes_refuted : exists a b, unit_vec a /\ unit_vec b /\ rot_vec (rotation_between AbsDouble a b) a <> b.
Proof.
  set (t := / 10 ^ 5). assert (T : 0 < t < 1) by (unfold t; split; lra).
  exists (mkv 1 0 0), (mkv ((1 - t * t) / (1 + t * t)) (2 * t / (1 + t * t)) 0).
  assert (D : 0 < 1 + t * t) by nra. assert (U1 : unit_vec (mkv 1 0 0)) by (unfold unit_vec, vdot; cbn; ring).
  assert (U2 : unit_vec (mkv ((1 - t * t) / (1 + t * t)) (2 * t / (1 + t * t)) 0)) by (unfold unit_vec, vdot; cbn [vx vy vz]; field; lra).
  split; auto. split; auto. intros H.
  destruct (rb_cases _ _ U1 U2) as [[_ E]|[[E _]|[E _]]].
  - rewrite E in H. assert (X : vy (mkv 1 0 0) = 2 * t / (1 + t * t)) by (rewrite H; reflexivity). cbn in X.
    assert (0 < 2 * t / (1 + t * t)) by (apply Rdiv_lt_0_compat; lra). lra.
  - unfold vdot in E. cbn [vx vy vz] in E. pose proof rot_eps_pos.
    assert (0 <= (1 - t * t) / (1 + t * t)) by (apply Rlt_le, Rdiv_lt_0_compat; nra). lra.
  - unfold vdot in E. cbn [vx vy vz] in E.
    replace (1 - (1 * ((1 - t * t) / (1 + t * t)) + 0 * (2 * t / (1 + t * t)) + 0 * 0)) with (2 * (t * t) / (1 + t * t)) in E by (field; lra).
    assert (2 * (t * t) / (1 + t * t) <= 2 * (t * t)).
    { apply Rmult_le_reg_r with (1 + t * t); auto. replace (2 * (t * t) / (1 + t * t) * (1 + t * t)) with (2 * (t * t)) by (field; lra).
      assert (0 <= 2 * (t * t) * (t * t)) by nra. lra. }
    unfold t, rot_eps in *. lra.
Qed.
Print Assumptions C85_takes_refuted.

(** Where abs means the integer function, directions less than 90 degrees apart are taken as equal. *)
Theorem C85_integer_abs_refuted : exists a b, unit_vec a /\ unit_vec b /\
  rot_vec (rotation_between AbsInt a b) a = a /\ distance_squared (rot_vec (rotation_between AbsInt a b) a) b = 4 / 5.
Proof.
  exists (mkv 1 0 0), (mkv (3 / 5) (4 / 5) 0).
  assert (U1 : unit_vec (mkv 1 0 0)) by (unfold unit_vec, vdot; cbn; ring).
  assert (U2 : unit_vec (mkv (3 / 5) (4 / 5) 0)) by (unfold unit_vec, vdot; cbn [vx vy vz]; field).
  assert (E : rot_vec (rotation_between AbsInt (mkv 1 0 0) (mkv (3 / 5) (4 / 5) 0)) (mkv 1 0 0) = mkv 1 0 0).
  { rewrite rot_vec_raw by (apply rb_unit; auto). unfold rotation_between. cbn [c_abs].
    replace (1 - vdot (mkv 1 0 0) (mkv (3 / 5) (4 / 5) 0)) with (2 / 5) by (unfold vdot; cbn [vx vy vz]; field).
    rewrite Rabs_right by lra. unfold Int_part. replace (up (2 / 5)) with 1%Z by (apply tech_up; cbn; lra). cbn [Z.sub Z.opp Z.add Z.pos_sub].
    destruct (Rlt_dec 0 rot_eps) as [_|N]; [apply id_raw|]. exfalso. apply N, rot_eps_pos. }
  split; auto. split; auto. rewrite E. split; auto. unfold distance_squared, vdot; cbn [vsub vx vy vz]. field.
Qed.
Print Assumptions C85_integer_abs_refuted.

(** x to y; and z to its opposite, where the helper axis is z itself. *)
Example C85_case : rot_vec (rotation_between AbsDouble (mkv 1 0 0) (mkv 0 1 0)) (mkv 1 0 0) = mkv 0 1 0 /\
  rot_vec (rotation_between AbsDouble (mkv 0 0 1) (mkv 0 0 (- (1)))) (mkv 0 0 1) = mkv 0 0 (- (1)).
Proof.
  split; apply rb_exact; try (unfold unit_vec, vdot; cbn; ring).
  - right; right. unfold vdot, rot_eps; cbn. lra.
  - right; left. apply veq; cbn; ring.
Qed.
