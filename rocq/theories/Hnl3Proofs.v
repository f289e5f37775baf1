(** Proofs about three-body decays. *)
From Coquelicot Require Import Coquelicot.
From Coq Require Import Reals Bool List Lra Lia Psatz.
From Verif Require Import VectorModel RkModel RkSpec RkProofs RandomModel DipoleModel DipoleSpec DipoleProofs HnlModel Hnl3Model Hnl3Spec.
Import ListNotations.
Open Scope R_scope.

(** ** The allowed region, in units of the parent's mass *)
Definition ub (x y s1 : R) : R := s1 * s1 + x * x * (1 - y * y) - s1 * (1 + x * x + y * y).
Definition uc (x y s1 : R) : R := s1 * (y * y) * (1 - x * x) - x * x * (y * y) * (1 - x * x - y * y).
Definition G (x y s1 s2 : R) : R := s1 * (s2 * s2) + ub x y s1 * s2 + uc x y s1.
Definition lam (y s1 : R) : R := (1 - s1 - y * y) * (1 - s1 - y * y) - 4 * s1 * (y * y).

Lemma G_cos x y s1 s2 : let A := 1 - s2 + x * x in let B := 1 - s1 + y * y in
  (A * B - 2 * (1 - s1 - s2)) * (A * B - 2 * (1 - s1 - s2)) - (A * A - 4 * (x * x)) * (B * B - 4 * (y * y)) = 4 * G x y s1 s2.
Proof. cbv zeta. unfold G, ub, uc. ring. Qed.
Lemma disc_lam x y s1 : ub x y s1 * ub x y s1 - 4 * s1 * uc x y s1 = (s1 - x * x) * (s1 - x * x) * lam y s1.
Proof. unfold ub, uc, lam. ring. Qed.
Lemma lam_nonneg y s1 : 0 <= y -> 0 <= s1 -> y <= 1 -> s1 <= (1 - y) * (1 - y) -> 0 <= lam y s1.
Proof.
  intros Y S Y1 H. set (r := sqrt s1). assert (R : r * r = s1) by (apply sqrt_sqrt; auto). assert (R0 : 0 <= r) by apply sqrt_pos.
  assert (R1 : r <= 1 - y) by (apply Rsqr_incr_0_var; unfold Rsqr; lra).
  unfold lam. rewrite <- R.
  replace ((1 - r * r - y * y) * (1 - r * r - y * y) - 4 * (r * r) * (y * y)) with ((1 - (r + y) * (r + y)) * (1 - (r - y) * (r - y))) by ring.
  apply Rmult_le_pos; nra.
Qed.
Lemma G_roots x y s1 s2 : 0 < s1 -> 0 <= ub x y s1 * ub x y s1 - 4 * s1 * uc x y s1 ->
  let q := sqrt (ub x y s1 * ub x y s1 - 4 * s1 * uc x y s1) in
  G x y s1 s2 = s1 * (s2 - (- ub x y s1 - q) / (2 * s1)) * (s2 - (- ub x y s1 + q) / (2 * s1)).
Proof.
  intros S D q. assert (Q : q * q = ub x y s1 * ub x y s1 - 4 * s1 * uc x y s1) by (apply sqrt_sqrt; auto).
  unfold G. replace (s1 * (s2 - (- ub x y s1 - q) / (2 * s1)) * (s2 - (- ub x y s1 + q) / (2 * s1)))
    with (s1 * (s2 * s2) + ub x y s1 * s2 + (ub x y s1 * ub x y s1 - q * q) / (4 * s1)) by (field; lra).
  rewrite Q. field. lra.
Qed.

(** Both roots are above [y^2] and below [1 + x^2]. *)
Lemma vertex_low x y s1 : 0 < s1 -> - ub x y s1 - 2 * s1 * (y * y) = (s1 - x * x) * (1 - s1 - y * y).
Proof. intros. unfold ub. ring. Qed.
Lemma G_low x y s1 : G x y s1 (y * y) = y * y * ((s1 - x * x) * (s1 - x * x)).
Proof. unfold G, ub, uc. ring. Qed.
Lemma G_high x y s1 : G x y s1 (1 + x * x) = (s1 + x * x) * (s1 + x * x) + x * x * ((1 - s1 + y * y) * (1 - s1 + y * y) - 4 * (y * y)).
Proof. unfold G, ub, uc. ring. Qed.

Lemma above x y s1 s2 : 0 < x -> 0 <= y -> x + y < 1 -> x * x <= s1 -> s1 <= (1 - y) * (1 - y) -> G x y s1 s2 <= 0 -> y * y <= s2.
Proof.
  intros X Y XY L H Q. destruct (Rle_dec (y * y) s2) as [?|N]; auto. exfalso. apply Rnot_le_lt in N.
  assert (S : 0 < s1) by nra.
  assert (E : G x y s1 s2 - G x y s1 (y * y) = (y * y - s2) * (s1 * (y * y - s2) + (- ub x y s1 - 2 * s1 * (y * y)))) by (unfold G; ring).
  rewrite vertex_low in E by auto. rewrite G_low in E.
  assert (0 <= y * y * ((s1 - x * x) * (s1 - x * x))) by (apply Rmult_le_pos; nra).
  assert (0 <= (s1 - x * x) * (1 - s1 - y * y)) by (apply Rmult_le_pos; nra).
  assert (0 < (y * y - s2) * (s1 * (y * y - s2) + (s1 - x * x) * (1 - s1 - y * y))) by (apply Rmult_lt_0_compat; nra). lra.
Qed.
Lemma below x y s1 s2 : 0 < x -> 0 <= y -> x + y < 1 -> x * x <= s1 -> s1 <= (1 - y) * (1 - y) -> G x y s1 s2 <= 0 -> s2 < 1 + x * x.
Proof.
  intros X Y XY L H Q. destruct (Rlt_dec s2 (1 + x * x)) as [?|N]; auto. exfalso. apply Rnot_lt_le in N.
  assert (S : 0 < s1) by nra.
  assert (E : G x y s1 s2 - G x y s1 (1 + x * x) = (s2 - (1 + x * x)) * (s1 * (s2 - (1 + x * x)) + (ub x y s1 + 2 * s1 * (1 + x * x)))) by (unfold G; ring).
  rewrite G_high in E.
  assert (P1 : 0 <= ub x y s1 + 2 * s1 * (1 + x * x)).
  { assert (YY : 0 <= 1 - y * y) by (replace (1 - y * y) with ((1 - y) * (1 + y)) by ring; apply Rmult_le_pos; lra).
    unfold ub. replace (s1 * s1 + x * x * (1 - y * y) - s1 * (1 + x * x + y * y) + 2 * s1 * (1 + x * x)) with (s1 * s1 + x * x * (1 - y * y) + s1 * (x * x + (1 - y * y))) by ring.
    assert (0 <= x * x * (1 - y * y)) by (apply Rmult_le_pos; [apply Rle_0_sqr|auto]). assert (0 <= s1 * (x * x + (1 - y * y))) by (apply Rmult_le_pos; [lra|pose proof (Rle_0_sqr x); unfold Rsqr in *; lra]). nra. }
  assert (P2 : 0 <= (1 - s1 + y * y) * (1 - s1 + y * y) - 4 * (y * y)).
  { assert (2 * y <= 1 - s1 + y * y) by nra. nra. }
  assert (0 < (s1 + x * x) * (s1 + x * x)) by nra. assert (0 <= x * x * ((1 - s1 + y * y) * (1 - s1 + y * y) - 4 * (y * y))) by (apply Rmult_le_pos; nra).
  assert (0 <= (s2 - (1 + x * x)) * (s1 * (s2 - (1 + x * x)) + (ub x y s1 + 2 * s1 * (1 + x * x)))) by (apply Rmult_le_pos; nra). lra.
Qed.

(** ** From the code's coefficients to these *)
Section Scale.
Variables (M ma mb : R).
Hypothesis HM : 0 < M.
Let x := ma / M.
Let y := mb / M.
Lemma scale_b nat mix s1 : dalitz_b (mkhnl3 M nat mix) ma mb s1 = M ^ 6 * ub x y s1.
Proof. unfold dalitz_b, ub, x, y. cbn [t_mass]. field. lra. Qed.
Lemma scale_c nat mix s1 : dalitz_c (mkhnl3 M nat mix) ma mb s1 = M ^ 6 * uc x y s1.
Proof. unfold dalitz_c, uc, x, y. cbn [t_mass]. field. lra. Qed.
Lemma scale_min nat mix : s1_min (mkhnl3 M nat mix) ma = x * x.
Proof. unfold s1_min, x. cbn [t_mass]. field. lra. Qed.
Lemma scale_max nat mix : s1_max (mkhnl3 M nat mix) mb = (1 - y) * (1 - y).
Proof. unfold s1_max, y. cbn [t_mass]. field. lra. Qed.
End Scale.

Definition lo_of (x y s1 : R) : R := (- ub x y s1 - sqrt (ub x y s1 * ub x y s1 - 4 * s1 * uc x y s1)) / (2 * s1).
Definition hi_of (x y s1 : R) : R := (- ub x y s1 + sqrt (ub x y s1 * ub x y s1 - 4 * s1 * uc x y s1)) / (2 * s1).

Lemma propose_eq d ma mb u1 u2 u3 u4 u5 : 0 < t_mass d -> 0 < ma -> 0 <= mb -> ma + mb < t_mass d -> 0 <= u1 <= 1 ->
  let x := ma / t_mass d in let y := mb / t_mass d in
  let s1 := x * x + ((1 - y) * (1 - y) - x * x) * u1 in
  0 < x /\ 0 <= y /\ x + y < 1 /\ x * x < (1 - y) * (1 - y) /\ x * x <= s1 <= (1 - y) * (1 - y) /\
  0 <= ub x y s1 * ub x y s1 - 4 * s1 * uc x y s1 /\ lo_of x y s1 <= hi_of x y s1 /\
  propose3 d ma mb u1 u2 u3 u4 u5 =
    Some (mkph s1 (lo_of x y s1 + (hi_of x y s1 - lo_of x y s1) * u2) (2 * u3 - 1) (uniform 0 (2 * c_pi) u4) (uniform 0 (2 * c_pi) u5)).
Proof.
  intros HM HA HB HS U x y s1. assert (X : 0 < x) by (apply Rdiv_lt_0_compat; auto). assert (Y : 0 <= y) by (apply Rdiv_le_0_compat; auto).
  assert (XY : x + y < 1).
  { unfold x, y. apply Rmult_lt_reg_r with (t_mass d); auto. replace ((ma / t_mass d + mb / t_mass d) * t_mass d) with (ma + mb) by (field; lra). lra. }
  assert (XX : x * x < (1 - y) * (1 - y)) by nra. assert (S : x * x <= s1 <= (1 - y) * (1 - y)) by (unfold s1; nra).
  assert (S0 : 0 < s1) by nra.
  assert (D : 0 <= ub x y s1 * ub x y s1 - 4 * s1 * uc x y s1).
  { rewrite disc_lam. apply Rmult_le_pos; [nra|]. apply lam_nonneg; nra. }
  assert (LH : lo_of x y s1 <= hi_of x y s1).
  { unfold lo_of, hi_of. apply Rmult_le_compat_r; [left; apply Rinv_0_lt_compat; lra|]. pose proof (sqrt_pos (ub x y s1 * ub x y s1 - 4 * s1 * uc x y s1)). lra. }
  repeat (split; [assumption|]). unfold propose3. destruct d as [M nat mix]. cbn [t_mass] in *.
  rewrite (scale_min M ma HM), (scale_max M mb HM). fold x y.
  assert (E1 : uniform (x * x) ((1 - y) * (1 - y)) u1 = s1).
  { unfold uniform. destruct (Rlt_dec _ _); [lra|]. unfold s1. ring. }
  rewrite E1, (scale_b M ma mb HM), (scale_c M ma mb HM). fold x y.
  change (dalitz_a {| t_mass := M; t_nature := nat; t_mixing := mix |} s1) with (M ^ 6 * s1).
  assert (M6 : 0 < M ^ 6) by (apply pow_lt; auto). set (k := M ^ 6) in *.
  replace (k * ub x y s1 * (k * ub x y s1) - 4 * (k * s1) * (k * uc x y s1)) with (k * k * (ub x y s1 * ub x y s1 - 4 * s1 * uc x y s1)) by ring.
  destruct (Rlt_dec _ 0) as [N|_]; [exfalso; assert (0 <= k * k * (ub x y s1 * ub x y s1 - 4 * s1 * uc x y s1)) by (apply Rmult_le_pos; nra); lra|].
  destruct (Req_EM_T _ 0) as [N|_]; [exfalso; assert (0 < k * s1) by (apply Rmult_lt_0_compat; auto); lra|].
  rewrite sqrt_mult by nra. rewrite (sqrt_square k) by lra.
  set (q := sqrt (ub x y s1 * ub x y s1 - 4 * s1 * uc x y s1)) in *.
  replace ((- (k * ub x y s1) - k * q) / (2 * (k * s1))) with (lo_of x y s1) by (unfold lo_of; fold q; field; lra).
  replace ((- (k * ub x y s1) + k * q) / (2 * (k * s1))) with (hi_of x y s1) by (unfold hi_of; fold q; field; lra).
  assert (E2 : uniform (lo_of x y s1) (hi_of x y s1) u2 = lo_of x y s1 + (hi_of x y s1 - lo_of x y s1) * u2).
  { unfold uniform. destruct (Rlt_dec _ _); [lra|]. ring. }
  rewrite E2, uniform_sym. reflexivity.
Qed.

(** ** Directions *)
Lemma n3_unit ct phi : -1 <= ct <= 1 -> vdot (n3_of ct phi) (n3_of ct phi) = 1.
Proof.
  intros C. unfold n3_of, vdot. cbn [vx vy vz]. set (st := sqrt _). assert (Q : st * st = 1 - ct * ct) by (apply sqrt_sqrt; nra).
  pose proof (sin2_cos2 phi) as T. unfold Rsqr in T.
  transitivity (st * st * (sin phi * sin phi + cos phi * cos phi) + ct * ct); [ring|]. rewrite T, Q. ring.
Qed.
Lemma n4_facts ct phi rot ca sa : -1 <= ct <= 1 -> sa * sa = 1 - ca * ca ->
  let n3 := n3_of ct phi in let n4 := n4_of ct phi rot ca sa in vdot n4 n4 = 1 /\ vdot n3 n4 = ca.
Proof.
  intros C SA. cbv zeta. unfold n4_of. set (st := sqrt (1 - ct * ct)). assert (Q : st * st = 1 - ct * ct) by (apply sqrt_sqrt; nra).
  pose proof (sin2_cos2 phi) as T. pose proof (sin2_cos2 rot) as T'. unfold Rsqr in T, T'.
  unfold n3_of, vdot. cbn [vx vy vz]. fold st. set (cp := cos phi) in *. set (sp := sin phi) in *. set (cr := cos rot) in *. set (sr := sin rot) in *.
  clearbody cp sp cr sr st. split.
  - transitivity (ca * ca * (st * st * (sp * sp + cp * cp) + ct * ct) + 2 * ca * sa * cr * st * ct * ((sp * sp + cp * cp) - 1)
      + sa * sa * (cr * cr * (ct * ct * (sp * sp + cp * cp) + st * st) + sr * sr * (sp * sp + cp * cp))); [ring|].
    rewrite T, Q, SA. transitivity (ca * ca + (1 - ca * ca) * (sr * sr + cr * cr)); [ring|]. rewrite T'. ring.
  - transitivity (ca * (st * st * (sp * sp + cp * cp) + ct * ct) + sa * cr * st * ct * ((sp * sp + cp * cp) - 1)); [ring|]. rewrite T, Q. ring.
Qed.

(** ** Boosting three particles whose sum is at rest *)
Lemma boost3 l p M k2 k3 k4 : 0 < M -> on_shell k2 -> on_shell k3 -> on_shell k4 ->
  is_boost l (direction p) (pe (p4_of p M) / M) (- (vlength p / M)) ->
  pe k2 + pe k3 + pe k4 = M -> vadd (vadd (pp k2) (pp k3)) (pp k4) = mkv 0 0 0 ->
  pe (p4_boost l k2) + pe (p4_boost l k3) + pe (p4_boost l k4) = pe (p4_of p M) /\
  vadd (vadd (pp (p4_boost l k2)) (pp (p4_boost l k3))) (pp (p4_boost l k4)) = p.
Proof.
  intros HM S2 S3 S4 B E P.
  rewrite (boost_time l _ _ _ k2 B S2), (boost_time l _ _ _ k3 B S3), (boost_time l _ _ _ k4 B S4).
  rewrite (boost_space l _ _ _ k2 B), (boost_space l _ _ _ k3 B), (boost_space l _ _ _ k4 B).
  set (n := direction p) in *. set (L := vlength p) in *. set (Q := pe (p4_of p M)) in *.
  assert (PX : vx (pp k2) = - vx (pp k3) - vx (pp k4)) by (apply (f_equal vx) in P; cbn in P; lra).
  assert (PY : vy (pp k2) = - vy (pp k3) - vy (pp k4)) by (apply (f_equal vy) in P; cbn in P; lra).
  assert (PZ : vz (pp k2) = - vz (pp k3) - vz (pp k4)) by (apply (f_equal vz) in P; cbn in P; lra).
  assert (E2 : pe k2 = M - pe k3 - pe k4) by lra. 
  assert (N : vdot n (pp k2) = - vdot n (pp k3) - vdot n (pp k4)) by (unfold vdot; rewrite PX, PY, PZ; ring).
  split.
  - unfold lorentz_time. rewrite N, E2. field. lra.
  - transitivity (vscale L n); [|apply direction_scale]. unfold lorentz_space. rewrite N, E2.
    apply veq; cbn; rewrite ?PX, ?PY, ?PZ; field; lra.
Qed.

(** ** The conversion inside the region *)
Lemma convert_inside d p ma mb z : 0 < t_mass d -> 0 < ma -> 0 <= mb -> ma + mb < t_mass d ->
  let x := ma / t_mass d in let y := mb / t_mass d in
  x * x <= ph_s1 z -> ph_s1 z < (1 - y) * (1 - y) -> G x y (ph_s1 z) (ph_s2 z) <= 0 ->
  ph_s2 z < (1 - x) * (1 - x) -> -1 <= ph_cos z <= 1 ->
  exists k2 k3 k4, final3 d p (t_mass d) ma mb z = Some (k2, k3, k4) /\
  decay3 (t_mass d) p ma mb k2 k3 k4 /\ pm k3 = ma /\ pm k4 = mb /\
  pair_mass2 k2 k3 = ph_s1 z * t_mass d ^ 2 /\ pair_mass2 k2 k4 = ph_s2 z * t_mass d ^ 2.
Proof.
  intros HM HA HB HS x y L1 H1 GN H2 C. set (M := t_mass d) in *. set (s1 := ph_s1 z) in *. set (s2 := ph_s2 z) in *.
  assert (X : 0 < x) by (apply Rdiv_lt_0_compat; auto). assert (Y : 0 <= y) by (apply Rdiv_le_0_compat; auto).
  assert (EA : ma = M * x) by (unfold x; field; lra). assert (EB : mb = M * y) by (unfold y; field; lra).
  assert (XY : x + y < 1) by nra.
  pose proof (above x y s1 s2 X Y XY L1 (Rlt_le _ _ H1) GN) as LS2.
  set (A := 1 - s2 + x * x). set (B := 1 - s1 + y * y).
  pose proof (G_cos x y s1 s2) as GC. cbv zeta in GC. fold A B in GC.
  assert (BP : 0 < B * B - 4 * (y * y)). { assert (2 * y < B) by (unfold B; nra). nra. }
  set (N := A * B - 2 * (1 - s1 - s2)) in *.
  assert (AP : 0 < A * A - 4 * (x * x)).
  { assert (2 * x < A) by (unfold A; lra). nra. }
  assert (A0 : 0 < A) by (unfold A; nra). assert (B0 : 0 < B) by (unfold B; nra).
  set (e3 := (M * M * (1 - s2) + ma * ma) / (2 * M)). set (e4 := (M * M * (1 - s1) + mb * mb) / (2 * M)).
  assert (E3 : e3 = M * A / 2) by (unfold e3, A; rewrite EA; field; lra).
  assert (E4 : e4 = M * B / 2) by (unfold e4, B; rewrite EB; field; lra).
  assert (Q3 : e3 * e3 - ma * ma = M * M * (A * A - 4 * (x * x)) / 4) by (rewrite E3, EA; field).
  assert (Q4 : e4 * e4 - mb * mb = M * M * (B * B - 4 * (y * y)) / 4) by (rewrite E4, EB; field).
  assert (P3 : 0 < e3 * e3 - ma * ma) by (rewrite Q3; apply Rmult_lt_0_compat; [apply Rmult_lt_0_compat; nra|lra]).
  assert (P4 : 0 < e4 * e4 - mb * mb) by (rewrite Q4; apply Rmult_lt_0_compat; [apply Rmult_lt_0_compat; nra|lra]).
  unfold final3, convert3. fold M s1 s2. fold e3 e4. destruct (Rlt_dec _ 0) as [?|_]; [lra|]. destruct (Rlt_dec _ 0) as [?|_]; [lra|].
  set (p3 := sqrt (e3 * e3 - ma * ma)). set (q4 := sqrt (e4 * e4 - mb * mb)).
  assert (p3P : 0 < p3) by (apply sqrt_lt_R0; auto). assert (q4P : 0 < q4) by (apply sqrt_lt_R0; auto).
  assert (S3 : p3 * p3 = e3 * e3 - ma * ma) by (apply sqrt_sqrt; lra). assert (S4 : q4 * q4 = e4 * e4 - mb * mb) by (apply sqrt_sqrt; lra).
  set (num := e3 * e4 - 1 / 2 * ((1 + (ma * ma + mb * mb) / (M * M) - s1 - s2) * (M * M) - ma * ma - mb * mb)).
  assert (EN : num = M * M * N / 4) by (unfold num, N; rewrite E3, E4, EA, EB; field; lra).
  assert (NU : num * num <= (p3 * q4) * (p3 * q4)).
  { replace (p3 * q4 * (p3 * q4)) with (p3 * p3 * (q4 * q4)) by ring. rewrite S3, S4, Q3, Q4, EN.
    assert (MM : 0 < M * M * (M * M) / 16) by (apply Rmult_lt_0_compat; [nra|lra]).
    replace (M * M * N / 4 * (M * M * N / 4)) with (M * M * (M * M) / 16 * (N * N)) by field.
    replace (M * M * (A * A - 4 * (x * x)) / 4 * (M * M * (B * B - 4 * (y * y)) / 4)) with (M * M * (M * M) / 16 * ((A * A - 4 * (x * x)) * (B * B - 4 * (y * y)))) by field.
    apply Rmult_le_compat_l; [lra|]. lra. }
  assert (DP : 0 < p3 * q4) by (apply Rmult_lt_0_compat; auto).
  set (ca := num / (p3 * q4)). assert (CN : ca * (p3 * q4) = num) by (unfold ca; field; lra).
  assert (CA : -1 <= ca <= 1).
  { assert (ca * ca <= 1). { apply Rmult_le_reg_r with (p3 * q4 * (p3 * q4)); [nra|]. replace (ca * ca * (p3 * q4 * (p3 * q4))) with (num * num) by (rewrite <- CN; ring). lra. }
    split; nra. }
  unfold cos34. destruct (Req_EM_T _ 0) as [?|_]; [lra|]. fold ca. destruct (Rlt_dec 1 ca) as [?|_]; [lra|]. destruct (Rlt_dec ca _) as [?|_]; [lra|].
  destruct (Rlt_dec _ 0) as [?|_]; [nra|]. replace (M - M) with 0 by ring. rewrite Rabs_R0.
  destruct (Rlt_dec 0 _) as [_|Z]; [|exfalso; apply Z; apply Rinv_0_lt_compat, pow_lt; lra].
  assert (SP : on_shell (p4_of p M)) by (apply p4_of_shell; lra).
  destruct (lab_is _ SP HM) as [l [EL BL]]. rewrite EL.
  set (sa := sqrt (1 - ca * ca)). assert (SA : sa * sa = 1 - ca * ca) by (apply sqrt_sqrt; nra).
  set (n3 := n3_of (ph_cos z) (ph_phi z)). set (n4 := n4_of _ _ _ ca sa).
  assert (U3 : vdot n3 n3 = 1) by (apply n3_unit; auto). destruct (n4_facts (ph_cos z) (ph_phi z) (ph_rot z) ca sa C SA) as [U4 U34]. fold n3 n4 in U4, U34.
  set (r3 := p4_of (vscale p3 n3) ma). set (r4 := p4_of (vscale q4 n4) mb).
  assert (V3 : vdot (pp r3) (pp r3) = p3 * p3) by (unfold r3, vdot; cbn [pp p4_of vscale vx vy vz]; transitivity (p3 * p3 * vdot n3 n3); [unfold vdot; ring|rewrite U3; ring]).
  assert (V4 : vdot (pp r4) (pp r4) = q4 * q4) by (unfold r4, vdot; cbn [pp p4_of vscale vx vy vz]; transitivity (q4 * q4 * vdot n4 n4); [unfold vdot; ring|rewrite U4; ring]).
  assert (V34 : vdot (pp r3) (pp r4) = num).
  { rewrite <- CN, <- U34. unfold r3, r4, vdot. cbn [pp p4_of vscale vx vy vz]. ring. }
  assert (R3 : on_shell r3) by (apply p4_of_shell; lra). assert (R4 : on_shell r4) by (apply p4_of_shell; lra).
  assert (F3 : pe r3 = e3).
  { change (pe r3) with (sqrt (ma * ma + length_squared (pp r3))). rewrite lsq, V3, S3. replace (ma * ma + (e3 * e3 - ma * ma)) with (Rsqr e3) by (unfold Rsqr; ring). apply sqrt_Rsqr. rewrite E3. nra. }
  assert (F4 : pe r4 = e4).
  { change (pe r4) with (sqrt (mb * mb + length_squared (pp r4))). rewrite lsq, V4, S4. replace (mb * mb + (e4 * e4 - mb * mb)) with (Rsqr e4) by (unfold Rsqr; ring). apply sqrt_Rsqr. rewrite E4. nra. }
  set (r2 := mkp4 (M - e3 - e4) (vneg (vadd (pp r3) (pp r4))) 0).
  assert (V2 : vdot (pp r2) (pp r2) = p3 * p3 + q4 * q4 + 2 * num).
  { rewrite <- V3, <- V4, <- V34. unfold r2, vdot. cbn [pp vneg vadd vx vy vz]. ring. }
  assert (R2 : on_shell r2).
  { split; [cbn; lra|]. split; [cbn [pe r2]; rewrite E3, E4; unfold A, B; nra|]. cbn [pe pm r2]. fold r2. rewrite V2, S3, S4. unfold num. rewrite E3, E4, EA, EB. unfold A, B. field. lra. }
  destruct (boost3 l p M r2 r3 r4 HM R2 R3 R4 BL) as [BE BP'].
  { cbn [pe r2]. rewrite F3, F4. ring. } { cbn [pp r2]. apply veq; cbn; ring. }
  destruct (boost_shell l _ _ _ r2 BL R2) as [T2 M2]. destruct (boost_shell l _ _ _ r3 BL R3) as [T3 M3]. destruct (boost_shell l _ _ _ r4 BL R4) as [T4 M4].
  pose proof (boost_dot l _ _ _ r2 r3 BL R2 R3) as D23. pose proof (boost_dot l _ _ _ r2 r4 BL R2 R4) as D24.
  set (b2 := p4_boost l r2) in *. set (b3 := p4_boost l r3) in *. set (b4 := p4_boost l r4) in *.
  assert (EK : p4_sub (p4_sub (p4_of p M) b3) b4 = mkp4 (pe b2) (pp b2) (- (1))).
  { unfold p4_sub. cbn [pe pp]. f_equal; [lra|]. change (pp (p4_of p M)) with p. rewrite <- BP'. apply veq; cbn; ring. }
  exists (mkp4 (pe b2) (pp b2) (- (1))), b3, b4. split; [rewrite EK; reflexivity|].
  change (pm r2) with 0 in M2. change (pm r3) with ma in M3. change (pm r4) with mb in M4.
  destruct T2 as [_ [T2a T2b]]. destruct T3 as [_ [T3a T3b]]. destruct T4 as [_ [T4a T4b]]. rewrite M2 in T2b. rewrite M3 in T3b. rewrite M4 in T4b.
  split.
  { unfold decay3, has_mass. cbn [pe pp]. split; [auto|]. split; [auto|]. split; [auto|]. split; [exact BE|exact BP']. }
  split; auto. split; auto.
  assert (PM : forall a b ma mb, pe a * pe a = ma * ma + vdot (pp a) (pp a) -> pe b * pe b = mb * mb + vdot (pp b) (pp b) ->
             (pe a + pe b) * (pe a + pe b) - vdot (vadd (pp a) (pp b)) (vadd (pp a) (pp b)) = ma * ma + mb * mb + 2 * p4_dot a b).
  { intros a b m1 m2 Ha Hb. unfold p4_dot. transitivity (pe a * pe a + pe b * pe b + 2 * (pe a * pe b) - (vdot (pp a) (pp a) + vdot (pp b) (pp b) + 2 * vdot (pp a) (pp b))); [unfold vdot; cbn; ring|]. rewrite Ha, Hb. ring. }
  unfold pair_mass2. cbn [pe pp]. rewrite (PM b2 b3 0 ma T2b T3b), (PM b2 b4 0 mb T2b T4b), D23, D24. unfold p4_dot. rewrite F3, F4.
  replace (vdot (pp r2) (pp r3)) with (- (vdot (pp r3) (pp r3) + vdot (pp r3) (pp r4))) by (unfold r2, vdot; cbn [pp vneg vadd vx vy vz]; ring).
  replace (vdot (pp r2) (pp r4)) with (- (vdot (pp r4) (pp r4) + vdot (pp r3) (pp r4))) by (unfold r2, vdot; cbn [pp vneg vadd vx vy vz]; ring).
  rewrite V3, V4, V34, S3, S4. cbn [pe r2]. unfold num. rewrite E3, E4, EA, EB. unfold A, B. split; field; lra.
Qed.

(** ** The region is the right one *)
Lemma region ma mb M k2 k3 k4 : 0 < M -> 0 < ma -> 0 <= mb -> ma + mb < M -> decay3 M (mkv 0 0 0) ma mb k2 k3 k4 ->
  let x := ma / M in let y := mb / M in let s1 := pair_mass2 k2 k3 / M ^ 2 in let s2 := pair_mass2 k2 k4 / M ^ 2 in
  x * x <= s1 <= (1 - y) * (1 - y) /\ G x y s1 s2 <= 0.
Proof.
  intros HM HA HB HS [[P2 H2] [[P3 H3] [[P4 H4] [ES PS]]]] x y s1 s2.
  assert (EM : energy (mkv 0 0 0) M = M).
  { unfold energy, vdot; cbn. replace (_ + _) with (Rsqr M) by (unfold Rsqr; ring). apply sqrt_Rsqr; lra. }
  rewrite EM in ES. clear EM.
  assert (EA : ma = M * x) by (unfold x; field; lra). assert (EB : mb = M * y) by (unfold y; field; lra).
  assert (X : 0 < x) by (apply Rdiv_lt_0_compat; auto). assert (Y : 0 <= y) by (apply Rdiv_le_0_compat; auto). assert (XY : x + y < 1) by nra.
  assert (PX : vx (pp k2) = - vx (pp k3) - vx (pp k4)) by (apply (f_equal vx) in PS; cbn in PS; lra).
  assert (PY : vy (pp k2) = - vy (pp k3) - vy (pp k4)) by (apply (f_equal vy) in PS; cbn in PS; lra).
  assert (PZ : vz (pp k2) = - vz (pp k3) - vz (pp k4)) by (apply (f_equal vz) in PS; cbn in PS; lra).
  assert (E2 : pe k2 = M - pe k3 - pe k4) by lra.
  assert (D22 : vdot (pp k2) (pp k2) = vdot (pp k3) (pp k3) + vdot (pp k4) (pp k4) + 2 * vdot (pp k3) (pp k4)) by (unfold vdot; rewrite PX, PY, PZ; ring).
  assert (S1 : pair_mass2 k2 k3 = M * M - 2 * M * pe k4 + mb * mb).
  { unfold pair_mass2. replace (pe k2 + pe k3) with (M - pe k4) by lra.
    replace (vdot (vadd (pp k2) (pp k3)) (vadd (pp k2) (pp k3))) with (vdot (pp k4) (pp k4)) by (unfold vdot; cbn; rewrite PX, PY, PZ; ring). nra. }
  assert (S2 : pair_mass2 k2 k4 = M * M - 2 * M * pe k3 + ma * ma).
  { unfold pair_mass2. replace (pe k2 + pe k4) with (M - pe k3) by lra.
    replace (vdot (vadd (pp k2) (pp k4)) (vadd (pp k2) (pp k4))) with (vdot (pp k3) (pp k3)) by (unfold vdot; cbn; rewrite PX, PY, PZ; ring). nra. }
  assert (E4 : pe k4 = M * (1 - s1 + y * y) / 2) by (unfold s1; rewrite S1, EB; field; lra).
  assert (E3 : pe k3 = M * (1 - s2 + x * x) / 2) by (unfold s2; rewrite S2, EA; field; lra).
  pose proof (vdot_nonneg (pp k3)) as N3. pose proof (vdot_nonneg (pp k4)) as N4.
  split; [split|].
  - (* the pair's mass is at least that of its massive member *)
    assert (C : vdot (pp k2) (pp k3) <= pe k2 * pe k3).
    { pose proof (cauchy (pp k2) (pp k3)) as C. destruct (Rle_dec (vdot (pp k2) (pp k3)) 0) as [?|NN]; [nra|]. apply Rnot_le_lt in NN.
      apply Rsqr_incr_0_var; [unfold Rsqr|nra]. assert (vdot (pp k3) (pp k3) <= pe k3 * pe k3) by nra.
      assert (vdot (pp k2) (pp k2) * vdot (pp k3) (pp k3) <= vdot (pp k2) (pp k2) * (pe k3 * pe k3)) by (apply Rmult_le_compat_l; [apply vdot_nonneg|auto]). nra. }
    assert (L : ma * ma <= pair_mass2 k2 k3).
    { unfold pair_mass2. replace (vdot (vadd (pp k2) (pp k3)) (vadd (pp k2) (pp k3))) with (vdot (pp k2) (pp k2) + vdot (pp k3) (pp k3) + 2 * vdot (pp k2) (pp k3)) by (unfold vdot; cbn; ring). nra. }
    unfold s1. apply Rmult_le_reg_r with (M ^ 2); [apply pow_lt; auto|]. replace (pair_mass2 k2 k3 / M ^ 2 * M ^ 2) with (pair_mass2 k2 k3) by (field; lra).
    replace (x * x * M ^ 2) with (ma * ma) by (rewrite EA; ring). auto.
  - assert (LB : mb <= pe k4) by (apply Rsqr_incr_0_var; [unfold Rsqr; nra|auto]). rewrite E4, EB in LB.
    assert (y <= (1 - s1 + y * y) / 2) by (apply Rmult_le_reg_l with M; auto; lra). nra.
  - pose proof (cauchy (pp k3) (pp k4)) as C. pose proof (G_cos x y s1 s2) as GC. cbv zeta in GC.
    assert (V3 : vdot (pp k3) (pp k3) = M * M * ((1 - s2 + x * x) * (1 - s2 + x * x) - 4 * (x * x)) / 4) by (replace (vdot (pp k3) (pp k3)) with (pe k3 * pe k3 - ma * ma) by lra; rewrite E3, EA; field).
    assert (V4 : vdot (pp k4) (pp k4) = M * M * ((1 - s1 + y * y) * (1 - s1 + y * y) - 4 * (y * y)) / 4) by (replace (vdot (pp k4) (pp k4)) with (pe k4 * pe k4 - mb * mb) by lra; rewrite E4, EB; field).
    assert (V34 : vdot (pp k3) (pp k4) = M * M * ((1 - s2 + x * x) * (1 - s1 + y * y) - 2 * (1 - s1 - s2)) / 4).
    { assert (2 * vdot (pp k3) (pp k4) = pe k2 * pe k2 - vdot (pp k3) (pp k3) - vdot (pp k4) (pp k4)) by lra.
      apply Rmult_eq_reg_l with 2; [|lra]. rewrite H, V3, V4, E2, E3, E4. field. }
    rewrite V3, V4, V34 in C. set (A := 1 - s2 + x * x) in *. set (B := 1 - s1 + y * y) in *. set (N := A * B - 2 * (1 - s1 - s2)) in *.
    assert (MM : 0 < M * M * (M * M) / 16) by (repeat apply Rmult_lt_0_compat; lra).
    assert (N * N <= (A * A - 4 * (x * x)) * (B * B - 4 * (y * y))); [|lra].
    apply Rmult_le_reg_l with (M * M * (M * M) / 16); auto.
    replace (M * M * (M * M) / 16 * (N * N)) with (M * M * N / 4 * (M * M * N / 4)) by field.
    replace (M * M * (M * M) / 16 * ((A * A - 4 * (x * x)) * (B * B - 4 * (y * y)))) with (M * M * (A * A - 4 * (x * x)) / 4 * (M * M * (B * B - 4 * (y * y)) / 4)) by field. auto.
Qed.

Lemma between x y s1 s2 : 0 < s1 -> 0 <= ub x y s1 * ub x y s1 - 4 * s1 * uc x y s1 -> lo_of x y s1 <= hi_of x y s1 ->
  (G x y s1 s2 <= 0 <-> lo_of x y s1 <= s2 <= hi_of x y s1).
Proof.
  intros S D L. rewrite (G_roots x y s1 s2 S D). fold (lo_of x y s1) (hi_of x y s1). set (l := lo_of x y s1) in *. set (h := hi_of x y s1) in *. clearbody l h. split; intros H.
  - split; apply Rnot_lt_le; intros K.
    + assert (0 < s1 * (s2 - l) * (s2 - h)); [|lra]. replace (s1 * (s2 - l) * (s2 - h)) with (s1 * ((l - s2) * (h - s2))) by ring. apply Rmult_lt_0_compat; auto. apply Rmult_lt_0_compat; lra.
    + assert (0 < s1 * (s2 - l) * (s2 - h)); [|lra]. apply Rmult_lt_0_compat; [apply Rmult_lt_0_compat; lra|lra].
  - replace (s1 * (s2 - l) * (s2 - h)) with (- (s1 * ((s2 - l) * (h - s2)))) by ring. assert (0 <= s1 * ((s2 - l) * (h - s2))) by (apply Rmult_le_pos; [lra|apply Rmult_le_pos; lra]). lra.
Qed.
Lemma between_strict x y s1 s2 : 0 < s1 -> 0 <= ub x y s1 * ub x y s1 - 4 * s1 * uc x y s1 ->
  lo_of x y s1 < s2 < hi_of x y s1 -> G x y s1 s2 < 0.
Proof.
  intros S D L. rewrite (G_roots x y s1 s2 S D). fold (lo_of x y s1) (hi_of x y s1). set (l := lo_of x y s1) in *. set (h := hi_of x y s1) in *. clearbody l h.
  replace (s1 * (s2 - l) * (s2 - h)) with (- (s1 * ((s2 - l) * (h - s2)))) by ring. assert (0 < s1 * ((s2 - l) * (h - s2))) by (apply Rmult_lt_0_compat; [lra|apply Rmult_lt_0_compat; lra]). lra.
Qed.
Lemma spread x y s1 : 0 < s1 -> 0 <= ub x y s1 * ub x y s1 - 4 * s1 * uc x y s1 -> x * x <= s1 ->
  (hi_of x y s1 - lo_of x y s1) * (hi_of x y s1 - lo_of x y s1) = (s1 - x * x) * (s1 - x * x) * lam y s1 / (s1 * s1).
Proof.
  intros S D L. rewrite <- disc_lam. unfold hi_of, lo_of. set (q := sqrt _). assert (Q : q * q = ub x y s1 * ub x y s1 - 4 * s1 * uc x y s1) by (apply sqrt_sqrt; auto).
  rewrite <- Q. field. lra.
Qed.
Lemma lam_pos y s1 : 0 <= y -> 0 < s1 -> y < 1 -> s1 < (1 - y) * (1 - y) -> 0 < lam y s1.
Proof.
  intros Y S Y1 H. set (r := sqrt s1). assert (R : r * r = s1) by (apply sqrt_sqrt; lra). assert (R0 : 0 < r) by (apply sqrt_lt_R0; auto).
  assert (R1 : r < 1 - y) by nra.
  unfold lam. rewrite <- R.
  replace ((1 - r * r - y * y) * (1 - r * r - y * y) - 4 * (r * r) * (y * y)) with ((1 - (r + y) * (r + y)) * (1 - (r - y) * (r - y))) by ring.
  apply Rmult_lt_0_compat; nra.
Qed.
Lemma spread_pos x y s1 : 0 <= y -> 0 < s1 -> y < 1 -> x * x < s1 -> s1 < (1 - y) * (1 - y) -> lo_of x y s1 < hi_of x y s1.
Proof.
  intros Y S Y1 L H. unfold lo_of, hi_of. apply Rmult_lt_compat_r; [apply Rinv_0_lt_compat; lra|].
  assert (0 < sqrt (ub x y s1 * ub x y s1 - 4 * s1 * uc x y s1)); [|lra]. apply sqrt_lt_R0. rewrite disc_lam.
  apply Rmult_lt_0_compat; [nra|]. apply lam_pos; auto.
Qed.

(** The upper root stays below the largest pair mass. *)
Lemma under x y s1 s2 : 0 < x -> 0 <= y -> x + y < 1 -> x * x <= s1 -> s1 < (1 - y) * (1 - y) -> G x y s1 s2 <= 0 -> s2 <= (1 - x) * (1 - x).
Proof.
  intros X Y XY L H Q. pose proof (below x y s1 s2 X Y XY L (Rlt_le _ _ H) Q) as HB. pose proof (G_cos x y s1 s2) as GC. cbv zeta in GC.
  set (A := 1 - s2 + x * x) in *. set (B := 1 - s1 + y * y) in *. set (N := A * B - 2 * (1 - s1 - s2)) in *.
  assert (BP : 0 < B * B - 4 * (y * y)). { assert (2 * y < B) by (unfold B; nra). nra. }
  assert (AP : 0 <= A * A - 4 * (x * x)).
  { apply Rmult_le_reg_r with (B * B - 4 * (y * y)); auto. rewrite Rmult_0_l. assert (0 <= N * N) by nra. lra. }
  assert (A0 : 0 < A) by (unfold A; lra). assert (2 * x <= A) by nra. unfold A in *. lra.
Qed.
Lemma proposed_below x y s1 u2 : 0 < x -> 0 <= y -> x + y < 1 -> x * x <= s1 -> s1 < (1 - y) * (1 - y) ->
  0 <= ub x y s1 * ub x y s1 - 4 * s1 * uc x y s1 -> 0 <= u2 < 1 ->
  let s2 := lo_of x y s1 + (hi_of x y s1 - lo_of x y s1) * u2 in G x y s1 s2 <= 0 /\ s2 < (1 - x) * (1 - x).
Proof.
  intros X Y XY L H D U s2. assert (S : 0 < s1) by nra.
  assert (LH : lo_of x y s1 <= hi_of x y s1).
  { unfold lo_of, hi_of. apply Rmult_le_compat_r; [left; apply Rinv_0_lt_compat; lra|]. pose proof (sqrt_pos (ub x y s1 * ub x y s1 - 4 * s1 * uc x y s1)). lra. }
  assert (GS : G x y s1 s2 <= 0) by (apply between; auto; unfold s2; nra).
  split; auto. destruct (Req_dec s1 (x * x)) as [E|E].
  - assert (Z : ub x y s1 * ub x y s1 - 4 * s1 * uc x y s1 = 0) by (rewrite disc_lam, E; ring).
    assert (EY : s2 = y * y).
    { unfold s2, lo_of, hi_of. rewrite Z, sqrt_0. pose proof (vertex_low x y s1 S) as V.
      replace (- ub x y s1) with (2 * s1 * (y * y) + (s1 - x * x) * (1 - s1 - y * y)) by lra. rewrite E. field. nra. }
    rewrite EY. nra.
  - pose proof (spread_pos x y s1 Y S ltac:(lra) ltac:(lra) H) as SP.
    assert (GH : G x y s1 (hi_of x y s1) <= 0) by (apply between; auto; lra).
    pose proof (under x y s1 _ X Y XY L H GH) as UH. unfold s2. nra.
Qed.
