(** Proofs about two-body decays. *)
From Coquelicot Require Import Coquelicot.
From Coq Require Import Reals Bool List Lra Lia Psatz.
From Verif Require Import VectorModel RkModel RkSpec RkProofs RandomModel DipoleModel DipoleSpec DipoleProofs TurnModel TurnProofs HnlModel HnlSpec.
Import ListNotations.
Open Scope R_scope.

(** A pair that is back to back in the rest frame and has the mass as its energy there. *)
Lemma pair_kept l p M k mL : 0 < M -> 0 <= mL -> on_shell k -> is_boost l (direction p) (pe (p4_of p M) / M) (- (vlength p / M)) ->
  pe k <= M -> (M - pe k) * (M - pe k) = mL * mL + vdot (pp k) (pp k) ->
  kept p M (pm k) mL (p4_boost l k) (p4_of (vsub p (pp (p4_boost l k))) mL).
Proof.
  intros H HL S B LE Q. set (P := p4_of p M) in *.
  set (k' := mkp4 (M - pe k) (vneg (pp k)) mL).
  assert (S' : on_shell k').
  { split; [exact HL|]. split; [cbn; lra|]. cbn [pe pm pp k']. rewrite Q. unfold vdot. cbn. ring. }
  destruct (boost_shell l _ _ _ k B S) as [S1 M1]. destruct (boost_shell l _ _ _ k' B S') as [S2 M2].
  assert (V : vadd (pp (p4_boost l k)) (pp (p4_boost l k')) = p).
  { rewrite (boost_space l _ _ _ k B), (boost_space l _ _ _ k' B). cbn [pe pp k']. transitivity (vscale (vlength p) (direction p)); [|apply direction_scale].
    set (n := direction p). set (L := vlength p). set (g := pe P / M). unfold lorentz_space.
    assert (N : vdot n (vneg (pp k)) = - vdot n (pp k)) by (unfold vdot; cbn; ring). rewrite N. set (w := vdot n (pp k)). 
    apply veq; cbn; field; lra. }
  assert (T : pe (p4_boost l k) + pe (p4_boost l k') = pe P).
  { rewrite (boost_time l _ _ _ k B S), (boost_time l _ _ _ k' B S'). cbn [pe pp k']. unfold lorentz_time.
    replace (vdot (direction p) (vneg (pp k))) with (- vdot (direction p) (pp k)) by (unfold vdot; cbn; ring). field. lra. }
  assert (E : vsub p (pp (p4_boost l k)) = pp (p4_boost l k')).
  { rewrite <- V at 1. apply veq; cbn; ring. }
  assert (E2 : p4_of (vsub p (pp (p4_boost l k))) mL = p4_boost l k').
  { rewrite E. replace mL with (pm (p4_boost l k')) by (rewrite M2; reflexivity). apply p4_of_eq; auto. }
  assert (SE : forall a, on_shell a -> pe a = energy (pp a) (pm a)).
  { intros a SA. pose proof (p4_of_eq a SA) as X. apply (f_equal pe) in X. rewrite <- X at 1. reflexivity. }
  rewrite E2. unfold kept. split; [exact M1|]. split; [exact M2|]. split; [rewrite <- M1; apply SE; auto|].
  split; [replace mL with (pm (p4_boost l k')) by (rewrite M2; reflexivity); apply SE; auto|]. split; [exact T|exact V].
Qed.

(** Energies in the rest frame. *)
Lemma rest_energy M a b : 0 < M -> 0 <= a -> 0 <= b -> a + b <= M ->
  let e := (M * M + a * a - b * b) / (2 * M) in
  0 <= e * e - a * a /\ a <= e <= M /\ (M - e) * (M - e) = b * b + (e * e - a * a).
Proof.
  intros H A B K e.
  assert (F : e * (2 * M) = M * M + a * a - b * b) by (unfold e; field; lra).
  assert (L : a <= e).
  { apply Rmult_le_reg_r with (2 * M); [lra|]. rewrite F. nra. }
  split; [nra|]. split; [split; auto|].
  - apply Rmult_le_reg_r with (2 * M); [lra|]. rewrite F. nra.
  - nra.
Qed.
Lemma rest_moving M a b : 0 < M -> 0 <= a -> 0 <= b -> a + b < M ->
  let e := (M * M + a * a - b * b) / (2 * M) in 0 < e * e - a * a.
Proof.
  intros H A B K e. assert (F : e * (2 * M) = M * M + a * a - b * b) by (unfold e; field; lra).
  assert (L : a < e). { apply Rmult_lt_reg_r with (2 * M); [lra|]. rewrite F. nra. } nra.
Qed.

Definition rest_meson o (d : hnl) p mX mL c u : p4 :=
  let ex := (n_mass d * n_mass d + mX * mX - mL * mL) / (2 * n_mass d) in
  turn o p u (p4_of (vscale (sqrt (ex * ex - mX * mX)) (mkv c (sin (acos c)) 0)) mX).

Lemma circle_sq k c : 0 <= k -> -1 <= c <= 1 -> let v := vscale (sqrt k) (mkv c (sin (acos c)) 0) in vdot v v = k.
Proof.
  intros K C v. pose proof (sin_acos_sq c C) as Q. unfold v, vdot. cbn [vscale vx vy vz].
  transitivity (sqrt k * sqrt k * (c * c + sin (acos c) * sin (acos c))); [ring|]. rewrite Q, sqrt_sqrt by auto. ring.
Qed.
Lemma rest_meson_ok o d p mX mL c u : -1 <= c <= 1 -> 0 < n_mass d -> 0 <= mX -> 0 <= mL -> mX + mL <= n_mass d ->
  let ex := (n_mass d * n_mass d + mX * mX - mL * mL) / (2 * n_mass d) in
  let g := rest_meson o d p mX mL c u in
  on_shell g /\ pm g = mX /\ pe g = ex /\ vdot (pp g) (pp g) = ex * ex - mX * mX.
Proof.
  intros C H X L K ex g. destruct (rest_energy _ _ _ H X L K) as [K1 [K2 K3]]. fold ex in K1, K2, K3.
  pose proof (circle_sq _ c K1 C) as Q. cbv zeta in Q.
  unfold g, rest_meson. fold ex.
  split; [apply turn_shell, p4_of_shell; auto|]. split; [reflexivity|]. split.
  - rewrite turn_energy. cbn [pe p4_of]. rewrite lsq, Q. replace (mX * mX + (ex * ex - mX * mX)) with (Rsqr ex) by (unfold Rsqr; ring). apply sqrt_Rsqr. lra.
  - rewrite turn_square. cbn [pp p4_of]. exact Q.
Qed.

Lemma hnl_products_eq o d p mX mL c u : -1 <= c <= 1 -> 0 < n_mass d -> 0 <= mX -> 0 <= mL -> mX + mL <= n_mass d ->
  exists l, lab_boost (p4_of p (n_mass d)) = Some l /\ is_boost l (direction p) (pe (p4_of p (n_mass d)) / n_mass d) (- (vlength p / n_mass d)) /\
  hnl_products o d p (n_mass d) mX mL c u =
    Some (p4_boost l (rest_meson o d p mX mL c u), p4_of (vsub p (pp (p4_boost l (rest_meson o d p mX mL c u)))) mL).
Proof.
  intros C H X L K. destruct (lab_is (p4_of p (n_mass d)) (p4_of_shell p _ (Rlt_le _ _ H)) H) as [l [E B]]. exists l. split; auto. split; auto.
  unfold hnl_products. rewrite E. destruct (rest_energy _ _ _ H X L K) as [K1 _]. destruct (Rlt_dec _ 0); [lra|]. reflexivity.
Qed.

(** ** The cosine *)
Lemma get_alpha_bound d t : 0 < n_mass d -> Rabs (get_alpha d t) <= 1.
Proof.
  intros H. assert (V : forall m, Rabs ((n_mass d * n_mass d - 2 * m * m) / (n_mass d * n_mass d + 2 * m * m)) <= 1).
  { intros m. assert (P : 0 < n_mass d * n_mass d + 2 * m * m) by nra.
    apply Rabs_le. split; (apply Rmult_le_reg_r with (n_mass d * n_mass d + 2 * m * m); [auto|]);
      replace ((n_mass d * n_mass d - 2 * m * m) / (n_mass d * n_mass d + 2 * m * m) * (n_mass d * n_mass d + 2 * m * m)) with (n_mass d * n_mass d - 2 * m * m) by (field; lra); nra. }
  destruct t; cbn; auto; rewrite ?Rabs_R1, ?Rabs_R0; lra.
Qed.
Lemma hnl_alpha_sign d s x h : hnl_alpha d s x h = hnl_sign (hs_primary s) h * Rabs (get_alpha d x).
Proof. unfold hnl_alpha, hnl_sign, copysign. destruct (hs_primary s); destruct (Rlt_dec h 0); ring. Qed.
Lemma hnl_sign_abs t h : Rabs (hnl_sign t h) = 1.
Proof. unfold hnl_sign. destruct t; destruct (Rlt_dec h 0); unfold Rabs; destruct (Rcase_abs _); lra. Qed.
Lemma hnl_alpha_abs d s x h : Rabs (hnl_alpha d s x h) = Rabs (get_alpha d x).
Proof. rewrite hnl_alpha_sign, Rabs_mult, hnl_sign_abs, Rabs_Rabsolu. ring. Qed.
Lemma hnl_alpha_bound d s x h : 0 < n_mass d -> -1 <= hnl_alpha d s x h <= 1.
Proof. intros H. pose proof (get_alpha_bound d x H) as B. rewrite <- (hnl_alpha_abs d s x h) in B. apply Rabs_le_between in B. lra. Qed.

Lemma tilted al u t : -1 <= al <= 1 -> al <> 0 -> 0 <= u <= 1 -> -1 <= t <= 1 ->
  let c := (sqrt (1 - 2 * al * (1 - al / 2 - 2 * u)) - 1) / al in
  c <= t <-> u <= (t + 1) / 2 + al * (t * t - 1) / 4.
Proof.
  intros A N U T c.
  assert (D : 1 - 2 * al * (1 - al / 2 - 2 * u) = (1 - al) * (1 - al) + 4 * al * u) by field.
  assert (P : 0 <= (1 - al) * (1 - al) + 4 * al * u).
  { destruct (Rle_dec 0 al); [nra|]. assert (4 * al <= 4 * al * u) by nra. nra. }
  unfold c. rewrite D. set (r := sqrt _). assert (J : 0 <= 1 + al * t) by nra.
  destruct (Rlt_dec 0 al) as [Z|Z].
  - assert (Q : (r - 1) / al <= t <-> r <= 1 + al * t).
    { split; intros X.
      - apply Rmult_le_compat_r with (r := al) in X; [|lra]. replace ((r - 1) / al * al) with (r - 1) in X by (field; auto). lra.
      - apply Rmult_le_reg_r with al; auto. replace ((r - 1) / al * al) with (r - 1) by (field; auto). lra. }
    rewrite Q. unfold r. rewrite le_sqrt by auto. split; intros X.
    + apply Rmult_le_reg_l with (4 * al); [lra|]. nra.
    + apply Rmult_le_compat_l with (r := 4 * al) in X; [|lra]. nra.
  - assert (Z' : 0 < - al) by lra.
    assert (Q : (r - 1) / al <= t <-> 1 + al * t <= r).
    { split; intros X.
      - apply Rmult_le_compat_r with (r := - al) in X; [|lra]. replace ((r - 1) / al * - al) with (1 - r) in X by (field; auto). lra.
      - apply Rmult_le_reg_r with (- al); auto. replace ((r - 1) / al * - al) with (1 - r) by (field; auto). lra. }
    rewrite Q. unfold r. rewrite ge_sqrt by auto. split; intros X.
    + apply Rmult_le_reg_l with (4 * - al); [lra|]. nra.
    + apply Rmult_le_compat_l with (r := 4 * - al) in X; [|lra]. nra.
Qed.
Lemma tilted_range al u : -1 <= al <= 1 -> al <> 0 -> 0 <= u <= 1 ->
  let c := (sqrt (1 - 2 * al * (1 - al / 2 - 2 * u)) - 1) / al in -1 <= c <= 1.
Proof.
  intros A N U c. split; [|apply (tilted al u 1 A N U); [lra|]; lra].
  assert (D : 1 - 2 * al * (1 - al / 2 - 2 * u) = (1 - al) * (1 - al) + 4 * al * u) by field.
  assert (P : 0 <= (1 - al) * (1 - al) + 4 * al * u).
  { destruct (Rle_dec 0 al); [nra|]. assert (4 * al <= 4 * al * u) by nra. nra. }
  unfold c. rewrite D. set (r := sqrt _). destruct (Rlt_dec 0 al) as [Z|Z].
  - apply Rmult_le_reg_r with al; auto. replace ((r - 1) / al * al) with (r - 1) by (field; auto).
    assert (1 - al <= r); [|lra]. apply ge_sqrt; nra.
  - apply Rmult_le_reg_r with (- al); [lra|]. replace ((r - 1) / al * - al) with (1 - r) by (field; auto).
    assert (r <= 1 - al); [|lra]. apply le_sqrt; nra.
Qed.

Lemma hnl_cos_range d al u : -1 <= al <= 1 -> 0 <= u <= 1 -> -1 <= hnl_cos d al u <= 1.
Proof.
  intros A U. unfold hnl_cos. rewrite uniform_sym, uniform_01. destruct (n_nature d); [|lra].
  destruct (Rlt_dec _ _) as [Z|Z]; [lra|]. apply tilted_range; auto. intros ->. apply Z. rewrite Rabs_R0. lra.
Qed.

(** ** What the density is evaluated at *)
Lemma hnl_evaluated d p mX mL c u l r : -1 <= c <= 1 -> 0 < n_mass d -> 0 <= mX -> 0 <= mL -> mX + mL < n_mass d ->
  p <> mkv 0 0 0 -> clear_of_x p ->
  lab_boost (p4_of p (n_mass d)) = Some l -> rest_boost (p4_of p (n_mass d)) = Some r ->
  let g := p4_boost l (rest_meson AbsDouble d p mX mL c u) in
  vdot (vnormalized (pp (p4_boost r (p4_of (pp g) (pm g))))) (vnormalized p) = c.
Proof.
  intros C H X L K N CL EL ER g. set (m := n_mass d) in *. assert (SP : on_shell (p4_of p m)) by (apply p4_of_shell; lra).
  destruct (lab_is _ SP H) as [l' [L' B]]. rewrite EL in L'. injection L' as <-.
  destruct (rest_is _ SP H) as [r' [R' B']]. rewrite ER in R'. injection R' as <-.
  destruct (rest_meson_ok AbsDouble d p mX mL c u C H X L (Rlt_le _ _ K)) as [S0 [M0 [E0 Q0]]].
  pose proof (rest_moving m mX mL H X L K) as PV. cbv zeta in PV. fold m in E0, Q0. set (ex := (m * m + mX * mX - mL * mL) / (2 * m)) in *.
  destruct (boost_shell l _ _ _ _ B S0) as [S1 M1]. unfold g. rewrite p4_of_eq by auto.
  rewrite (boost_cancel l r _ _ _ _ B) by (auto; rewrite Ropp_involutive; auto).
  rewrite (normalized_direction p N).
  assert (LEN : vmag (pp (rest_meson AbsDouble d p mX mL c u)) = sqrt (ex * ex - mX * mX)).
  { change (vmag (pp (rest_meson AbsDouble d p mX mL c u))) with (sqrt (length_squared (pp (rest_meson AbsDouble d p mX mL c u)))). rewrite lsq, Q0. reflexivity. }
  pose proof (sqrt_lt_R0 _ PV) as SP'. unfold vnormalized. rewrite LEN. destruct (Req_EM_T _ 0) as [Z|_]; [lra|].
  pose proof (turn_along p u (p4_of (vscale (sqrt (ex * ex - mX * mX)) (mkv c (sin (acos c)) 0)) mX) N CL) as T.
  change (turn AbsDouble p u _) with (rest_meson AbsDouble d p mX mL c u) in T. cbn [pp p4_of vscale vx] in T.
  set (v := pp (rest_meson _ _ _ _ _ _ _)) in *. set (n := direction p) in *. set (k := sqrt _) in *.
  transitivity (vdot n v / k); [unfold vdot; cbn [vdiv vx vy vz]; field; lra|]. rewrite T. field. lra.
Qed.
