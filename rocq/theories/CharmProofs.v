(** Kinematics of the decay of a charmed meson. *)
From Coquelicot Require Import Coquelicot.
From Coq Require Import Reals List Lra Psatz ZArith Lia.
From Verif Require Import VectorModel RkModel RkSpec RkProofs RandomModel DipoleProofs CharmModel CharmSpec CharmQuad.
Import ListNotations.
Open Scope R_scope.

Lemma uniform01 g : uniform 0 1 g = g.
Proof. unfold uniform. destruct (Rlt_dec 1 0); [lra|]. ring. Qed.
Lemma uniform_sym g : uniform (- (1)) 1 g = 2 * g - 1.
Proof. unfold uniform. destruct (Rlt_dec 1 (- (1))); [lra|]. ring. Qed.

Lemma iso_unit u v : 0 <= u < 1 -> unit_vec (iso_dir u v).
Proof.
  intros U. unfold iso_dir, unit_vec. set (c := uniform (- (1)) 1 u).
  assert (C : -1 <= c <= 1) by (unfold c; rewrite uniform_sym; lra).
  pose proof (sin_acos_sq c C) as S. set (s := sin (acos c)) in *. set (f := uniform 0 (2 * PI) v).
  unfold vdot. cbn [vx vy vz]. pose proof (sin2_cos2 f) as T. unfold Rsqr in T.
  transitivity (s * s * (sin f * sin f + cos f * cos f) + c * c); [ring|]. rewrite T. lra.
Qed.

(** ** Two-body break-up *)
Section two.
Variables m a b : R.
Hypotheses (A : 0 <= a) (B : 0 <= b) (M : 0 < m) (AB : a + b <= m).
Let P := (m - a - b) * (m + a + b) * (m + a - b) * (m - a + b).

Lemma P_pos : 0 <= P.
Proof. unfold P. repeat apply Rmult_le_pos; lra. Qed.
Lemma break_nonneg : 0 <= break_up m a b.
Proof.
  unfold break_up. apply Rmult_le_pos; [|apply Rlt_le, Rinv_0_lt_compat; lra].
  apply Rmult_le_pos; [lra | apply sqrt_pos].
Qed.
Lemma break_pos : a + b < m -> 0 < break_up m a b.
Proof.
  intros L. unfold break_up. apply Rmult_lt_0_compat; [|apply Rinv_0_lt_compat; lra].
  apply Rmult_lt_0_compat; [lra|]. apply sqrt_lt_R0. repeat apply Rmult_lt_0_compat; lra.
Qed.
Lemma break_sq : break_up m a b * break_up m a b = P / (4 * m * m).
Proof.
  unfold break_up. fold P. transitivity (sqrt P * sqrt P / (4 * m * m)); [field; lra|].
  rewrite sqrt_sqrt by apply P_pos. reflexivity.
Qed.
Lemma break_first : sqrt (break_up m a b * break_up m a b + a * a) = (m * m + a * a - b * b) / (2 * m).
Proof.
  rewrite break_sq. replace (P / (4 * m * m) + a * a) with (Rsqr ((m * m + a * a - b * b) / (2 * m))).
  - apply sqrt_Rsqr. apply Rmult_le_pos; [|apply Rlt_le, Rinv_0_lt_compat; lra]. nra.
  - unfold Rsqr, P. field. lra.
Qed.
Lemma break_second : sqrt (break_up m a b * break_up m a b + b * b) = (m * m + b * b - a * a) / (2 * m).
Proof.
  rewrite break_sq. replace (P / (4 * m * m) + b * b) with (Rsqr ((m * m + b * b - a * a) / (2 * m))).
  - apply sqrt_Rsqr. apply Rmult_le_pos; [|apply Rlt_le, Rinv_0_lt_compat; lra]. nra.
  - unfold Rsqr, P. field. lra.
Qed.
Lemma break_total : sqrt (break_up m a b * break_up m a b + a * a) + sqrt (break_up m a b * break_up m a b + b * b) = m.
Proof. rewrite break_first, break_second. field. lra. Qed.
End two.

Lemma len_scale k n : unit_vec n -> length_squared (vscale k n) = k * k.
Proof. intros U. rewrite lsq. unfold unit_vec in U. transitivity (k * k * vdot n n); [unfold vdot; cbn; ring|]. rewrite U. ring. Qed.
Lemma vlen_scale k n : unit_vec n -> 0 <= k -> vlength (vscale (- k) n) = k.
Proof.
  intros U K. assert (V : vlength (vscale (- k) n) * vlength (vscale (- k) n) = k * k).
  { rewrite vlength_sq, <- lsq, len_scale by exact U. ring. }
  pose proof (vlength_nonneg (vscale (- k) n)). nra.
Qed.
Lemma e_scale k n mm : unit_vec n -> pe (p4_of (vscale k n) mm) = sqrt (k * k + mm * mm).
Proof. intros U. cbn [p4_of pe]. rewrite len_scale by exact U. f_equal. ring. Qed.

(** ** Boosting several particles *)
Lemma boost_two l p M x y e k : 0 < M -> on_shell x -> on_shell y ->
  is_boost l (direction p) (pe (p4_of p M) / M) (- (vlength p / M)) ->
  pe x + pe y = e -> vadd (pp x) (pp y) = vscale k p ->
  pe (p4_boost l x) + pe (p4_boost l y) = (pe (p4_of p M) * e + k * vdot p p) / M.
Proof.
  intros HM S2 S3 B E Q.
  rewrite (boost_time l _ _ _ x B S2), (boost_time l _ _ _ y B S3). unfold lorentz_time.
  assert (N : vdot (direction p) (pp x) + vdot (direction p) (pp y) = k * vlength p).
  { transitivity (vdot (direction p) (vadd (pp x) (pp y))); [unfold vdot; cbn; ring|]. rewrite Q.
    transitivity (k * vdot (direction p) p); [unfold vdot; cbn; ring|]. rewrite direction_dot. reflexivity. }
  rewrite <- vlength_sq. rewrite <- E.
  transitivity (pe (p4_of p M) * (pe x + pe y) / M + vlength p / M * (vdot (direction p) (pp x) + vdot (direction p) (pp y)));
    [field; lra|]. rewrite N. field. lra.
Qed.

(** A sum at rest of energy [T]. *)
Lemma boost_at_rest2 l p M x y T : 0 < M -> on_shell x -> on_shell y ->
  is_boost l (direction p) (pe (p4_of p M) / M) (- (vlength p / M)) ->
  pe x + pe y = T -> vadd (pp x) (pp y) = mkv 0 0 0 ->
  pe (p4_boost l x) + pe (p4_boost l y) = T / M * pe (p4_of p M) /\
  vadd (pp (p4_boost l x)) (pp (p4_boost l y)) = vscale (T / M) p.
Proof.
  intros HM S2 S3 B E Q.
  rewrite (boost_time l _ _ _ x B S2), (boost_time l _ _ _ y B S3).
  rewrite (boost_space l _ _ _ x B), (boost_space l _ _ _ y B).
  set (n := direction p) in *. set (L := vlength p) in *. set (G := pe (p4_of p M)) in *.
  assert (PX : vx (pp x) = - vx (pp y)) by (apply (f_equal vx) in Q; cbn in Q; lra).
  assert (PY : vy (pp x) = - vy (pp y)) by (apply (f_equal vy) in Q; cbn in Q; lra).
  assert (PZ : vz (pp x) = - vz (pp y)) by (apply (f_equal vz) in Q; cbn in Q; lra).
  assert (E2 : pe x = T - pe y) by lra.
  assert (N : vdot n (pp x) = - vdot n (pp y)) by (unfold vdot; rewrite PX, PY, PZ; ring).
  split.
  - unfold lorentz_time. rewrite N, E2. field. lra.
  - transitivity (vscale (T / M) (vscale L n)); [|unfold L, n; rewrite direction_scale; reflexivity]. unfold lorentz_space. rewrite N, E2.
    apply veq; cbn; rewrite ?PX, ?PY, ?PZ; field; lra.
Qed.

Lemma boost_at_rest3 l p M x y z T : 0 < M -> on_shell x -> on_shell y -> on_shell z ->
  is_boost l (direction p) (pe (p4_of p M) / M) (- (vlength p / M)) ->
  pe x + pe y + pe z = T -> vadd (vadd (pp x) (pp y)) (pp z) = mkv 0 0 0 ->
  pe (p4_boost l x) + pe (p4_boost l y) + pe (p4_boost l z) = T / M * pe (p4_of p M) /\
  vadd (vadd (pp (p4_boost l x)) (pp (p4_boost l y))) (pp (p4_boost l z)) = vscale (T / M) p.
Proof.
  intros HM S2 S3 S4 B E Q.
  rewrite (boost_time l _ _ _ x B S2), (boost_time l _ _ _ y B S3), (boost_time l _ _ _ z B S4).
  rewrite (boost_space l _ _ _ x B), (boost_space l _ _ _ y B), (boost_space l _ _ _ z B).
  set (n := direction p) in *. set (L := vlength p) in *. set (G := pe (p4_of p M)) in *.
  assert (PX : vx (pp x) = - vx (pp y) - vx (pp z)) by (apply (f_equal vx) in Q; cbn in Q; lra).
  assert (PY : vy (pp x) = - vy (pp y) - vy (pp z)) by (apply (f_equal vy) in Q; cbn in Q; lra).
  assert (PZ : vz (pp x) = - vz (pp y) - vz (pp z)) by (apply (f_equal vz) in Q; cbn in Q; lra).
  assert (E2 : pe x = T - pe y - pe z) by lra.
  assert (N : vdot n (pp x) = - vdot n (pp y) - vdot n (pp z)) by (unfold vdot; rewrite PX, PY, PZ; ring).
  split.
  - unfold lorentz_time. rewrite N, E2. field. lra.
  - transitivity (vscale (T / M) (vscale L n)); [|unfold L, n; rewrite direction_scale; reflexivity]. unfold lorentz_space. rewrite N, E2.
    apply veq; cbn; rewrite ?PX, ?PY, ?PZ; field; lra.
Qed.

Lemma shell_mass a : on_shell a -> on_mass (pm a) a.
Proof. intros (A & B & C). split; assumption. Qed.

(** ** The products in the rest frame of the meson *)
Section decay.
Variables mD mK ml m23 : R.
Hypotheses (HD : 0 < mD) (HK : 0 <= mK) (HL : 0 <= ml) (H3 : 0 < m23) (H3l : ml <= m23) (H3D : mK + m23 <= mD).
Variables n23 n1 : vec.
Hypotheses (U23 : unit_vec n23) (U1 : unit_vec n1).
Let p1 := break_up mD mK m23.
Let p23 := break_up m23 ml 0.
Let E23 := sqrt (p1 * p1 + m23 * m23).

Lemma boost23 : exists b, lab_boost (p4_of (vscale (- p1) n1) m23) = Some b /\
  is_boost b (direction (vscale (- p1) n1)) (pe (p4_of (vscale (- p1) n1) m23) / m23)
    (- (vlength (vscale (- p1) n1) / m23)).
Proof.
  destruct (lab_is (p4_of (vscale (- p1) n1) m23)) as (b & E & IB).
  - apply p4_of_shell. lra.
  - cbn [p4_of pm]. exact H3.
  - exists b. split; [exact E|]. cbn [p4_of pm pp] in IB. exact IB.
Qed.

Lemma products : exists k l nu, rest_products mD mK ml m23 n23 n1 = Some (k, l, nu) /\
  on_shell k /\ on_shell l /\ on_shell nu /\ pm k = mK /\ pm l = ml /\ pm nu = 0 /\
  pe k + pe l + pe nu = mD /\ vadd (vadd (pp k) (pp l)) (pp nu) = mkv 0 0 0 /\
  pe l + pe nu = E23 /\ vadd (pp l) (pp nu) = vscale (- p1) n1.
Proof.
  destruct boost23 as (b & E & IB).
  assert (P1 : 0 <= p1) by (apply break_nonneg; lra).
  assert (SL : on_shell (p4_of (vscale p23 n23) ml)) by (apply p4_of_shell; exact HL).
  assert (SN : on_shell (p4_of (vscale (- p23) n23) 0)) by (apply p4_of_shell; lra).
  assert (SK : on_shell (p4_of (vscale p1 n1) mK)) by (apply p4_of_shell; exact HK).
  destruct (boost_shell b _ _ _ _ IB SL) as [BL ML].
  destruct (boost_shell b _ _ _ _ IB SN) as [BN MN].
  assert (T : pe (p4_of (vscale p23 n23) ml) + pe (p4_of (vscale (- p23) n23) 0) = m23).
  { rewrite !e_scale by exact U23. transitivity (sqrt (p23 * p23 + ml * ml) + sqrt (p23 * p23 + 0 * 0)).
    - do 2 f_equal. ring.
    - apply break_total; lra. }
  destruct (boost_at_rest2 b (vscale (- p1) n1) m23 _ _ m23 H3 SL SN IB T) as [BE BP].
  { apply veq; cbn; ring. }
  replace (m23 / m23) with 1 in BE, BP by (field; lra). rewrite Rmult_1_l in BE.
  rewrite e_scale in BE by exact U1. replace (- p1 * - p1) with (p1 * p1) in BE by ring. fold E23 in BE.
  assert (V1 : forall v, vscale 1 v = v) by (intros v; apply veq; cbn; ring). rewrite V1 in BP.
  exists (p4_of (vscale p1 n1) mK), (p4_boost b (p4_of (vscale p23 n23) ml)), (p4_boost b (p4_of (vscale (- p23) n23) 0)).
  split; [|split; [exact SK | split; [exact BL | split; [exact BN|]]]].
  - unfold rest_products. fold p1 p23. rewrite E. reflexivity.
  - split; [reflexivity|]. split; [exact ML|]. split; [exact MN|].
    split; [|split; [|split; [exact BE | exact BP]]].
    + rewrite Rplus_assoc, BE. rewrite e_scale by exact U1. unfold E23, p1.
      apply break_total; lra.
    + assert (AS : forall a b c, vadd (vadd a b) c = vadd a (vadd b c)) by (intros; apply veq; cbn; ring).
      rewrite AS, BP. apply veq; cbn; ring.
Qed.

Lemma weight k l nu : 0 < p1 -> rest_products mD mK ml m23 n23 n1 = Some (k, l, nu) ->
  let v := va_of mD mK ml m23 in let c := vdot n1 n23 in
  me_weight mD k l nu = va_pref v * ((va_C v + va_D v * c) * (va_A v + va_B v * c)).
Proof.
  intros P1 E v c. unfold rest_products in E. fold p1 p23 in E.
  destruct boost23 as (b & EB & IB). rewrite EB in E. inversion E; subst k l nu; clear E.
  assert (SL : on_shell (p4_of (vscale p23 n23) ml)) by (apply p4_of_shell; exact HL).
  assert (SN : on_shell (p4_of (vscale (- p23) n23) 0)) by (apply p4_of_shell; lra).
  assert (DN : direction (vscale (- p1) n1) = vscale (- (1)) n1).
  { pose proof (direction_scale (vscale (- p1) n1)) as DS. rewrite vlen_scale in DS by (try exact U1; lra).
    apply veq; [apply (f_equal vx) in DS | apply (f_equal vy) in DS | apply (f_equal vz) in DS]; cbn in DS |- *;
      apply Rmult_eq_reg_l with p1; lra. }
  rewrite DN, vlen_scale in IB by (try exact U1; lra). rewrite e_scale in IB by exact U1.
  replace (- p1 * - p1) with (p1 * p1) in IB by ring. fold E23 in IB.
  unfold me_weight, p4_dot. rewrite (boost_time b _ _ _ _ IB SL), (boost_time b _ _ _ _ IB SN), (boost_space b _ _ _ _ IB).
  rewrite !e_scale by assumption. replace (- p23 * - p23 + 0 * 0) with (Rsqr p23) by (unfold Rsqr; ring).
  rewrite sqrt_Rsqr by (apply break_nonneg; lra).
  assert (EP : 0 < E23) by (apply sqrt_lt_R0; nra).
  unfold lorentz_time, lorentz_space.
  assert (D1 : vdot (vscale (- (1)) n1) (vscale p23 n23) = - (p23 * c)) by (unfold c, vdot; cbn; ring).
  assert (D2 : vdot (vscale (- (1)) n1) (vscale (- p23) n23) = p23 * c) by (unfold c, vdot; cbn; ring).
  cbn [p4_of pp]. rewrite D1, D2.
  set (g := E23 / m23). set (s := - (p1 / m23)).
  assert (D3 : vdot (vadd (vsub (vscale (- p23) n23) (vscale (p23 * c) (vscale (- (1)) n1)))
      (vscale (g * (p23 * c) - s * p23) (vscale (- (1)) n1))) (vscale p1 n1) = p1 * (s * p23 - g * (p23 * c))).
  { transitivity (p1 * (- p23 * c + p23 * c * vdot n1 n1 - (g * (p23 * c) - s * p23) * vdot n1 n1)).
    - unfold c, vdot; cbn; ring.
    - unfold unit_vec in U1. rewrite U1. ring. }
  rewrite D3. unfold v, va_of. cbn [va_pref va_C va_D va_A va_B]. fold p1 p23 E23.
  unfold g, s. field. lra.
Qed.
End decay.

(** ** Clamping *)
Lemma clamp_split M q pref : 0 < pref -> 0 <= M ->
  Rmin M (Rmax 0 (pref * q)) = pref * (Rmax 0 q - Rmax 0 (q - M / pref)).
Proof.
  intros P HM. assert (X : pref * (M / pref) = M) by (field; lra). set (x := M / pref) in *.
  assert (XN : 0 <= x) by nra.
  unfold Rmin, Rmax. destruct (Rle_dec 0 (pref * q)), (Rle_dec 0 q), (Rle_dec 0 (q - x)); try nra;
    destruct (Rle_dec M _); nra.
Qed.

Lemma me_max_nonneg mD mK ml : 0 <= mD -> 0 <= mK -> 0 <= ml -> mK + ml <= mD -> 0 <= me_max mD mK ml.
Proof.
  intros A B C D. unfold me_max. apply Rmin_glb.
  - apply Rmult_le_pos; [apply pow_le; exact A | lra].
  - repeat apply Rmult_le_pos; lra.
Qed.
