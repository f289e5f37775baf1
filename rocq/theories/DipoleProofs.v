(** Proofs about dipole decays. *)
From Coquelicot Require Import Coquelicot.
From Coq Require Import Reals Bool List Lra Lia Psatz.
From Verif Require Import VectorModel RkModel RkSpec RkProofs RandomModel DipoleModel DipoleSpec.
Import ListNotations.
Open Scope R_scope.

Lemma vlen_eq v : vlen v = vlength v.
Proof. reflexivity. Qed.
Lemma p4_of_eq a : on_shell a -> p4_of (pp a) (pm a) = a.
Proof.
  intros [M [E S]]. unfold p4_of. rewrite lsq. destruct a as [e p m]; cbn [pm pp pe] in *. f_equal. rewrite <- S.
  replace (e * e) with (Rsqr e) by reflexivity. apply sqrt_Rsqr; auto.
Qed.
Lemma uniform_range a b u : a <= b -> 0 <= u <= 1 -> a <= uniform a b u <= b.
Proof. intros H U. unfold uniform. destruct (Rlt_dec b a); [lra|]. nra. Qed.
Lemma uniform_01 u : uniform 0 1 u = u.
Proof. unfold uniform. destruct (Rlt_dec 1 0); [lra|ring]. Qed.
Lemma uniform_sym u : uniform (- (1)) 1 u = 2 * u - 1.
Proof. unfold uniform. destruct (Rlt_dec 1 (- (1))); [lra|ring]. Qed.

Lemma alpha_pm s h : alpha_of s h = 1 \/ alpha_of s h = - (1).
Proof. unfold alpha_of, copysign1. destruct (Rlt_dec h 0); destruct (ptype_eqb _ _); lra. Qed.
Lemma alpha_pol s h : alpha_of s h = polarisation (sig_primary s) h.
Proof. unfold alpha_of, copysign1, polarisation. destruct (sig_primary s); cbn; destruct (Rlt_dec h 0); ring. Qed.

Lemma cos_dirac_plus X : 0 <= X -> (sqrt (1 - 2 * 1 * (1 - 1 / 2 - 2 * X)) - 1) / 1 = 2 * sqrt X - 1.
Proof.
  intros H. replace (1 - 2 * 1 * (1 - 1 / 2 - 2 * X)) with (2 * 2 * X) by field.
  rewrite sqrt_mult by lra. replace (2 * 2) with (Rsqr 2) by reflexivity. rewrite sqrt_Rsqr by lra. field.
Qed.
Lemma cos_dirac_minus X : X <= 1 -> (sqrt (1 - 2 * - (1) * (1 - - (1) / 2 - 2 * X)) - 1) / - (1) = 1 - 2 * sqrt (1 - X).
Proof.
  intros H. replace (1 - 2 * - (1) * (1 - - (1) / 2 - 2 * X)) with (2 * 2 * (1 - X)) by field.
  rewrite sqrt_mult by lra. replace (2 * 2) with (Rsqr 2) by reflexivity. rewrite sqrt_Rsqr by lra. field.
Qed.
Lemma sqrt_01 x : 0 <= x <= 1 -> 0 <= sqrt x <= 1.
Proof. intros H. split; [apply sqrt_pos|]. rewrite <- sqrt_1. apply sqrt_le_1_alt. lra. Qed.
Lemma cos_range d al u : al = 1 \/ al = - (1) -> 0 <= u <= 1 -> -1 <= cos_theta_drawn d al u <= 1.
Proof.
  intros A U. unfold cos_theta_drawn. destruct (chiral d).
  - rewrite uniform_01. destruct A as [-> | ->].
    + rewrite cos_dirac_plus by lra. pose proof (sqrt_01 u U). lra.
    + rewrite cos_dirac_minus by lra. pose proof (sqrt_01 (1 - u) ltac:(lra)). lra.
  - rewrite uniform_sym. lra.
Qed.

Lemma cdf_formula n al t : angular_cdf n al t = match n with Majorana => (t + 1) / 2 | Dirac => (t + 1) / 2 + al * (t * t - 1) / 4 end.
Proof.
  unfold angular_cdf. destruct n.
  - apply is_RInt_unique.
    replace ((t + 1) / 2 + al * (t * t - 1) / 4) with (minus (t / 2 + al * (t * t) / 4) (-1 / 2 + al * (-1 * -1) / 4)) by (unfold minus, plus, opp; cbn; field).
    apply (is_RInt_derive (fun x => x / 2 + al * (x * x) / 4)).
    + intros x _. unfold angular_density. auto_derive; auto. field.
    + intros x _. unfold angular_density. apply (ex_derive_continuous (fun c : R => (1 + al * c) / 2)). auto_derive; auto.
  - rewrite (RInt_ext _ (fun _ => 1 / 2)) by reflexivity. rewrite RInt_const. unfold scal; cbn; unfold mult; cbn. field.
Qed.
Lemma le_sqrt x y : 0 <= x -> 0 <= y -> (sqrt x <= y <-> x <= y * y).
Proof.
  intros X Y. split; intros H.
  - rewrite <- (sqrt_sqrt x X). apply Rmult_le_compat; auto using sqrt_pos.
  - rewrite <- (sqrt_square y Y). apply sqrt_le_1_alt; auto.
Qed.
Lemma ge_sqrt x y : 0 <= x -> 0 <= y -> (y <= sqrt x <-> y * y <= x).
Proof.
  intros X Y. split; intros H.
  - rewrite <- (sqrt_sqrt x X). apply Rmult_le_compat; auto using sqrt_pos.
  - rewrite <- (sqrt_square y Y). apply sqrt_le_1_alt; auto.
Qed.
Lemma cdf_drawn d al u t : al = 1 \/ al = - (1) -> 0 <= u <= 1 -> -1 <= t <= 1 ->
  (cos_theta_drawn d al u <= t <-> u <= angular_cdf (chiral d) al t).
Proof.
  intros A U T. rewrite cdf_formula. unfold cos_theta_drawn. destruct (chiral d).
  - rewrite uniform_01. destruct A as [-> | ->].
    + rewrite cos_dirac_plus by lra. replace ((t + 1) / 2 + 1 * (t * t - 1) / 4) with ((t + 1) / 2 * ((t + 1) / 2)) by field.
      rewrite <- le_sqrt by lra. lra.
    + rewrite cos_dirac_minus by lra.
      assert (Q : (1 - t) / 2 * ((1 - t) / 2) <= 1 - u <-> u <= (t + 1) / 2 + - (1) * (t * t - 1) / 4).
      { replace ((t + 1) / 2 + - (1) * (t * t - 1) / 4) with (1 - (1 - t) / 2 * ((1 - t) / 2)) by field. lra. }
      rewrite <- Q. rewrite <- ge_sqrt by lra. lra.
  - rewrite uniform_sym. lra.
Qed.
Lemma cdf_one n al : angular_cdf n al 1 = 1.
Proof. rewrite cdf_formula. destruct n; field. Qed.

(** ** The products *)
Lemma sin_acos_sq c : -1 <= c <= 1 -> c * c + sin (acos c) * sin (acos c) = 1.
Proof.
  intros H. pose proof (sin2_cos2 (acos c)) as S. unfold Rsqr in S. rewrite cos_acos in S by lra. lra.
Qed.
Lemma rot_len q v : uq q -> vlength (rot_vec q v) = vlength v.
Proof. intros U. unfold vlength. rewrite !lsq. f_equal. apply (rot_dot _ (rot_proper q U)). Qed.
Lemma rotate_shell q a : uq q -> on_shell a -> on_shell (p4_rotate q a).
Proof.
  intros U [M [E S]]. split; auto. split; auto. cbn [p4_rotate pe pm pp].
  change (vdot (rot_vec q (pp a)) (rot_vec q (pp a))) with (vdot (rot_vec q (pp a)) (rot_vec q (pp a))).
  rewrite (rot_dot _ (rot_proper q U)). exact S.
Qed.
Lemma x_unit : unit_vec x_axis.
Proof. unfold unit_vec, x_axis, vdot; cbn; ring. Qed.

(** The photon in the rest frame. *)
Definition rest_photon o (d : dipole) (p : vec) (c u : R) : p4 :=
  p4_rotate (rot_axis (direction p) (uniform 0 (2 * PI) u))
    (p4_rotate (rotation_between o x_axis (direction p)) (p4_of (vscale (hnl_mass d / 2) (mkv c (sin (acos c)) 0)) 0)).

Lemma rest_photon_ok o d p c u : -1 <= c <= 1 -> 0 <= hnl_mass d ->
  let g := rest_photon o d p c u in on_shell g /\ pm g = 0 /\ pe g = hnl_mass d / 2 /\ vlength (pp g) = hnl_mass d / 2.
Proof.
  intros C H g. pose proof (sin_acos_sq c C) as Q.
  assert (L : vlength (vscale (hnl_mass d / 2) (mkv c (sin (acos c)) 0)) = hnl_mass d / 2).
  { unfold vlength, length_squared. cbn [vscale vx vy vz].
    replace (_ + _ + _) with (Rsqr (hnl_mass d / 2) * (c * c + sin (acos c) * sin (acos c))) by (unfold Rsqr; ring).
    rewrite Q, Rmult_1_r. apply sqrt_Rsqr. lra. }
  pose proof (rb_unit o _ _ x_unit (direction_unit p)) as U1. pose proof (uq_axis _ (uniform 0 (2 * PI) u) (direction_unit p)) as U2.
  split; [apply rotate_shell, rotate_shell, p4_of_shell; auto; lra|]. split; [reflexivity|]. split.
  - unfold g, rest_photon. cbn [p4_rotate pe p4_of]. replace (0 * 0 + length_squared (vscale (hnl_mass d / 2) (mkv c (sin (acos c)) 0)))
      with (length_squared (vscale (hnl_mass d / 2) (mkv c (sin (acos c)) 0))) by ring. exact L.
  - unfold g, rest_photon. cbn [p4_rotate pp p4_of]. rewrite !rot_len; auto.
Qed.

Lemma products_eq o d p m c u : 0 < m -> exists l,
  lab_boost (p4_of p m) = Some l /\ is_boost l (direction p) (pe (p4_of p m) / m) (- (vlength p / m)) /\
  decay_products o d p m c u = Some (p4_boost l (rest_photon o d p c u), p4_of (vsub p (pp (p4_boost l (rest_photon o d p c u)))) 0).
Proof.
  intros H. destruct (lab_is (p4_of p m) (p4_of_shell p m ltac:(lra)) H) as [l [E B]]. exists l. split; auto. split; auto.
  unfold decay_products. rewrite E. reflexivity.
Qed.

Lemma conserve o d p c u g nu : 0 < hnl_mass d -> -1 <= c <= 1 ->
  decay_products o d p (hnl_mass d) c u = Some (g, nu) -> conserved p (hnl_mass d) g nu.
Proof.
  intros H C E. set (m := hnl_mass d) in *. set (P := p4_of p m).
  assert (SP : on_shell P) by (apply p4_of_shell; lra).
  destruct (products_eq o d p m c u H) as [l [_ [B E']]]. rewrite E in E'. 
  assert (Hm : 0 <= hnl_mass d) by (fold m; lra).
  destruct (rest_photon_ok o d p c u C Hm) as [S0 [M0 [E0 L0]]]. fold m in E0, L0. set (g2 := rest_photon o d p c u) in *.
  assert (Eg : g = p4_boost l g2) by congruence. assert (En : nu = p4_of (vsub p (pp g)) 0) by congruence. clear E E'.
  destruct (boost_shell l _ _ _ g2 B S0) as [S1 M1]. rewrite <- Eg in S1, M1. rewrite M0 in M1.
  destruct S1 as [_ [P1 S1]]. rewrite M1 in S1.
  assert (T : pe g = pe P / m * (m / 2) + vlength p / m * vdot (direction p) (pp g2)).
  { rewrite Eg, (boost_time l _ _ _ g2 B S0). unfold lorentz_time. fold P. rewrite E0. ring. }
  destruct SP as [_ [PP SP]]. cbn [pm pp P p4_of] in SP. fold P in SP.
  assert (LP : vlength p <= pe P).
  { apply Rsqr_incr_0_var; auto. unfold Rsqr. rewrite vlength_sq. change (pe P) with (sqrt (m * m + length_squared p)) in *. nra. }
  pose proof (cauchy_unit (direction p) (pp g2) (direction_unit p)) as CS. rewrite L0 in CS.
  assert (TE : pe g <= pe P).
  { rewrite T. assert (vlength p / m * vdot (direction p) (pp g2) <= vlength p / m * (m / 2)).
    { apply Rmult_le_compat_l; [apply Rdiv_le_0_compat; [apply vlength_nonneg|auto]|]. pose proof (Rle_abs (vdot (direction p) (pp g2))). lra. }
    replace (vlength p / m * (m / 2)) with (vlength p / 2) in H0 by (field; lra).
    replace (pe P / m * (m / 2)) with (pe P / 2) by (field; lra). lra. }
  assert (D : p4_dot P g = m * m / 2).
  { assert (X : vdot p (pp g) = vlength p * (pe P / m * vdot (direction p) (pp g2) + vlength p / m * (m / 2))).
    { rewrite Eg, (boost_space l _ _ _ g2 B). fold P. rewrite E0. unfold lorentz_space.
      rewrite <- (direction_scale p) at 1. pose proof (direction_unit p) as U. unfold unit_vec in U. set (n := direction p) in *. set (L := vlength p) in *.
      transitivity (L * (vdot n (pp g2) - vdot n (pp g2) * vdot n n + (pe P / m * vdot n (pp g2) - - (L / m) * (m / 2)) * vdot n n)); [unfold vdot; cbn; ring|].
      rewrite U. ring. }
    unfold p4_dot. change (pp P) with p. rewrite X, T.
    replace (pe P * (pe P / m * (m / 2) + vlength p / m * vdot (direction p) (pp g2)) - vlength p * (pe P / m * vdot (direction p) (pp g2) + vlength p / m * (m / 2)))
      with ((pe P * pe P - vlength p * vlength p) / 2) by (field; lra).
    rewrite vlength_sq. change (pe P * pe P) with (sqrt (m * m + length_squared p) * sqrt (m * m + length_squared p)) in *.
    replace (vdot p p) with (length_squared p) in * by reflexivity. lra. }
  assert (N : vlength (vsub p (pp g)) = pe P - pe g).
  { unfold vlength. apply sqrt_lem_1; [apply vdot_nonneg|lra|]. rewrite lsq.
    replace (vdot (vsub p (pp g)) (vsub p (pp g))) with (vdot p p + vdot (pp g) (pp g) - 2 * vdot p (pp g)) by (unfold vdot; cbn; ring).
    unfold p4_dot in D. change (pp P) with p in D.
    change (pe P * pe P) with (sqrt (m * m + length_squared p) * sqrt (m * m + length_squared p)) in SP.
    replace (pe P) with (sqrt (m * m + length_squared p)) in * by reflexivity. nra. }
  assert (ENu : pe nu = pe P - pe g).
  { rewrite En. cbn [pe p4_of]. rewrite <- N. unfold vlength. f_equal. ring. }
  unfold conserved. split; auto. split; [rewrite En; reflexivity|]. split; [|split; [|split]].
  - rewrite vlen_eq. unfold vlength. rewrite lsq. symmetry. apply sqrt_lem_1; auto; [apply vdot_nonneg|]. lra.
  - rewrite En at 2. cbn [pp p4_of]. rewrite vlen_eq, N. auto.
  - rewrite ENu. unfold energy. replace (pe P) with (sqrt (m * m + vdot p p)) by reflexivity. ring.
  - rewrite En. cbn [pp p4_of]. apply veq; cbn; ring.
Qed.

(** The cosine of the angle that the density is evaluated at. *)
Lemma axis_fixed n a : unit_vec n -> rot_vec (rot_axis n a) n = n.
Proof.
  intros U. rewrite rot_vec_raw by (apply uq_axis; auto).
  assert (E : rot_raw (rot_axis n a) n = vscale (cos (a / 2) * cos (a / 2) + sin (a / 2) * sin (a / 2) * vdot n n) n).
  { unfold rot_raw, rq_mul, rq_bar, rot_axis. apply veq; cbn; unfold vdot; cbn; ring. }
  rewrite E. unfold unit_vec in U. rewrite U. pose proof (sin2_cos2 (a / 2)). unfold Rsqr in H.
  replace (cos (a / 2) * cos (a / 2) + sin (a / 2) * sin (a / 2) * 1) with 1 by lra. vcalc.
Qed.
Lemma normalized_direction p : p <> mkv 0 0 0 -> vnormalized p = direction p.
Proof.
  intros H. pose proof (vlength_pos p H). unfold vnormalized, direction. 
  replace (vmag p) with (vlength p) by reflexivity. destruct (Req_EM_T _ _); [lra|]. destruct (Rlt_dec _ _); [reflexivity|lra].
Qed.
Lemma evaluated o d p c u l r : 0 < hnl_mass d -> -1 <= c <= 1 -> p <> mkv 0 0 0 ->
  lab_boost (p4_of p (hnl_mass d)) = Some l -> rest_boost (p4_of p (hnl_mass d)) = Some r ->
  let g := p4_boost l (rest_photon o d p c u) in
  vdot (vnormalized (pp (p4_boost r (p4_of (pp g) (pm g))))) (vnormalized p) =
  vdot (rot_vec (rotation_between o x_axis (direction p)) (mkv c (sin (acos c)) 0)) (direction p).
Proof.
  intros H C N L R g. set (m := hnl_mass d) in *. assert (SP : on_shell (p4_of p m)) by (apply p4_of_shell; lra).
  destruct (lab_is _ SP H) as [l' [L' B]]. rewrite L in L'. injection L' as <-.
  destruct (rest_is _ SP H) as [r' [R' B']]. rewrite R in R'. injection R' as <-.
  assert (Hm : 0 <= hnl_mass d) by (fold m; lra).
  destruct (rest_photon_ok o d p c u C Hm) as [S0 [M0 [E0 L0]]].
  destruct (boost_shell l _ _ _ _ B S0) as [S1 M1]. unfold g. rewrite p4_of_eq by auto.
  rewrite (boost_cancel l r _ _ _ _ B) by (auto; rewrite Ropp_involutive; auto).
  rewrite (normalized_direction p N). set (dir := direction p) in *.
  pose proof (rb_unit o _ _ x_unit (direction_unit p)) as U1. fold dir in U1. pose proof (uq_axis _ (uniform 0 (2 * PI) u) (direction_unit p)) as U2. fold dir in U2.
  set (q1 := rotation_between o x_axis dir) in *. set (q2 := rot_axis dir (uniform 0 (2 * PI) u)) in *.
  assert (PE : pp (rest_photon o d p c u) = vscale (m / 2) (rot_vec q2 (rot_vec q1 (mkv c (sin (acos c)) 0)))).
  { unfold rest_photon. cbn [p4_rotate pp p4_of]. fold dir q1 q2 m. rewrite (rot_scale _ (rot_proper q1 U1)). apply (rot_scale _ (rot_proper q2 U2)). }
  unfold vnormalized. replace (vmag (pp (rest_photon o d p c u))) with (vlength (pp (rest_photon o d p c u))) by reflexivity.
  rewrite L0. fold m. destruct (Req_EM_T (m / 2) 0) as [X|_]; [lra|]. rewrite PE.
  transitivity (vdot (rot_vec q2 (rot_vec q1 (mkv c (sin (acos c)) 0))) dir).
  - unfold vdot. cbn [vdiv vscale vx vy vz]. field. lra.
  - rewrite <- (axis_fixed dir (uniform 0 (2 * PI) u) (direction_unit p)) at 1. fold q2. apply (rot_dot _ (rot_proper q2 U2)).
Qed.
Lemma clear_exact p : p <> mkv 0 0 0 -> clear_of_x p ->
  x_axis = direction p \/ x_axis = vneg (direction p) \/ (rot_eps <= 1 - vdot x_axis (direction p) /\ rot_eps <= 1 + vdot x_axis (direction p)).
Proof.
  intros N C. pose proof (vlength_pos p N) as L.
  assert (D : vdot x_axis (direction p) = vx p / vlength p).
  { unfold direction. destruct (Rlt_dec _ _); [|lra]. unfold vdot, x_axis. cbn [vdiv vx vy vz]. field. lra. }
  rewrite D. destruct C as [[Y Z]|C]; auto. 
  assert (Q : vlength p * vlength p = vx p * vx p) by (rewrite vlength_sq; unfold vdot; rewrite Y, Z; ring).
  unfold direction. destruct (Rlt_dec 0 (vlength p)) as [_|X]; [|lra].
  assert (F : (vlength p - vx p) * (vlength p + vx p) = 0) by nra. apply Rmult_integral in F. destruct F as [F|F].
  - left. apply veq; cbn; rewrite ?Y, ?Z; [replace (vx p) with (vlength p) by lra; field; lra|field; lra|field; lra].
  - right; left. apply veq; cbn; rewrite ?Y, ?Z; [replace (vx p) with (- vlength p) by lra; field; lra|field; lra|field; lra].
Qed.
Lemma evaluated_exact p c : p <> mkv 0 0 0 -> clear_of_x p ->
  vdot (rot_vec (rotation_between AbsDouble x_axis (direction p)) (mkv c (sin (acos c)) 0)) (direction p) = c.
Proof.
  intros N C. pose proof (rb_exact _ _ x_unit (direction_unit p) (clear_exact p N C)) as E.
  pose proof (rb_unit AbsDouble _ _ x_unit (direction_unit p)) as U.
  rewrite <- E at 2. rewrite (rot_dot _ (rot_proper _ U)). unfold vdot, x_axis; cbn. ring.
Qed.
