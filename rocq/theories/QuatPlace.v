(** Proofs about rotations between vectors, Euler angles, placements, detector
    coordinates and vector equality. *)
From Coq Require Import Reals Bool Lra Lia.
From Verif Require Import VectorModel QuatModel QuatSpec QuatProofs.
Open Scope R_scope.

(** ** Normalising *)
Lemma normalize_cases q : nonzero q -> exists k, 0 < k /\ qnormalize q = qscale q k /\ k * k * qnorm2 q = 1.
Proof.
  intros N. pose proof (qnorm2_pos q N) as P. unfold qnormalize.
  assert (E : qx q * qx q + qy q * qy q + qz q * qz q + qw q * qw q = qnorm2 q) by (unfold qnorm2; ring). rewrite E.
  destruct (Req_EM_T (qnorm2 q) 1) as [H|H].
  - exists 1. split; [lra|]. split; [qring|]. rewrite H. ring.
  - pose proof (sqrt_lt_R0 _ P) as S. exists (1 / sqrt (qnorm2 q)). split; [apply Rdiv_lt_0_compat; lra|]. split; [qring|].
    rewrite <- (sqrt_sqrt (qnorm2 q)) at 3 by lra. field. lra.
Qed.

Lemma normalize_unit q : nonzero q -> unit (qnormalize q).
Proof. intros N. destruct (normalize_cases q N) as [k [K [E H]]]. rewrite E. unfold unit. rewrite <- H. unfold qnorm2; cbn; ring. Qed.

Lemma normalize_turn q p : nonzero q -> turn (qnormalize q) p = turn q p.
Proof.
  intros N. destruct (normalize_cases q N) as [k [K [E H]]]. pose proof (qnorm2_pos q N). rewrite E. unfold turn. rewrite sw_scale.
  replace (qnorm2 (qscale q k)) with 1 by (rewrite <- H; unfold qnorm2; cbn; ring).
  assert (Q : k * k = / qnorm2 q) by (apply Rmult_eq_reg_r with (qnorm2 q); [rewrite H; field; lra|lra]).
  rewrite <- Q. set (v := sw q p). clearbody v. apply vec_eq; cbn; field.
Qed.

(** ** Rotation between two vectors *)
Lemma dot_sq_sum a b : vdot (vadd a b) (vadd a b) = vdot a a + vdot b b + 2 * vdot a b.
Proof. unfold vdot; cbn; ring. Qed.
Lemma vdot_zero a : vdot a a = 0 -> a = mkv 0 0 0.
Proof. intros H. unfold vdot in H. destruct a as [x y z]; cbn in H. f_equal; nra. Qed.

Lemma between_q d0 d1 : vdot d0 d0 = 1 -> vdot d1 d1 = 1 -> vdot d0 d1 <> -1 ->
  let c := vcross d0 d1 in let q := mkq (vx c) (vy c) (vz c) (1 + vdot d0 d1) in
  qnorm2 q = 2 * (1 + vdot d0 d1) /\ nonzero q /\ turn q d0 = d1.
Proof.
  intros U0 U1 ND c q. set (t := vdot d0 d1) in *.
  assert (C2 : vdot c c = 1 - t * t). { transitivity (vdot d0 d0 * vdot d1 d1 - t * t); [unfold c, t, vdot; cbn; ring|rewrite U0, U1; ring]. }
  assert (N2 : qnorm2 q = 2 * (1 + t)). { transitivity (vdot c c + (1 + t) * (1 + t)); [unfold q, qnorm2, vdot; cbn; ring|rewrite C2; ring]. }
  assert (P : 0 < 1 + t).
  { pose proof (vdot_nonneg (vadd d0 d1)) as H. rewrite dot_sq_sum, U0, U1 in H. fold t in H. destruct (Req_EM_T t (-1)); [tauto|lra]. }
  assert (NZ : nonzero q). { intros E. assert (qnorm2 q = 0) by (rewrite E; unfold qnorm2; cbn; ring). lra. }
  split; auto. split; auto. unfold turn. rewrite N2.
  assert (S : sw q d0 = vadd (vadd (vscale ((1 + t) * (1 + t) - vdot c c) d0) (vscale (2 * vdot c d0) c)) (vscale (2 * (1 + t)) (vsub (vscale (vdot d0 d0) d1) (vscale (vdot d0 d1) d0)))).
  { unfold q. apply vec_eq; unfold c; cbn; unfold vdot; cbn; ring. }
  assert (CD : vdot c d0 = 0) by (unfold c, vdot; cbn; ring).
  rewrite S, C2, CD, U0. fold t. apply vec_eq; cbn; field; lra.
Qed.

Definition along_x (v : vec) : Prop := vy v = 0 /\ vz v = 0.

(** [vsame v0 v1]: the direction of [v0] is opposite to that of [v1]. *)
Definition antiparallel (v0 v1 : vec) : Prop := vnormalized v0 = vneg (vnormalized v1).

Lemma between_ok v0 v1 : v0 <> mkv 0 0 0 -> v1 <> mkv 0 0 0 -> ~ (along_x v0 /\ antiparallel v0 v1) ->
  unit (rotation_between v0 v1) /\ qrotate (rotation_between v0 v1) (vscale (/ vmag v0) v0) false = vscale (/ vmag v1) v1.
Proof.
  intros N0 N1 NA. destruct (normalized_unit v0 N0) as [U0 E0], (normalized_unit v1 N1) as [U1 E1].
  unfold rotation_between. unfold antiparallel in NA. rewrite <- E0, <- E1. 
  assert (AX : along_x (vnormalized v0) -> along_x v0).
  { intros [A B]. rewrite E0 in A, B. cbn in A, B. assert (M : / vmag v0 <> 0).
    { apply Rinv_neq_0_compat. intros Z. apply N0. apply vdot_zero. rewrite <- vmag_sq, Z. ring. }
    split; [apply Rmult_integral in A|apply Rmult_integral in B]; tauto. }
  set (d0 := vnormalized v0) in *. set (d1 := vnormalized v1) in *.
  destruct (Req_EM_T (vdot d0 d1) (-1)) as [H|H].
  - assert (OP : d0 = vneg d1).
    { assert (Z : vadd d0 d1 = mkv 0 0 0) by (apply vdot_zero; rewrite dot_sq_sum, U0, U1, H; ring).
      injection Z as A B C. apply vec_eq; cbn; lra. }
    set (c := vcross (mkv 1 0 0) d0).
    assert (CN : c <> mkv 0 0 0).
    { intros Z. apply NA. split; auto. apply AX. unfold c in Z. cbn in Z. injection Z as A B C. split; lra. }
    destruct (normalized_unit c CN) as [UC EC]. set (a := vnormalized c) in *.
    assert (UQ : unit (qvec a)). { unfold unit, qnorm2, qvec; cbn. unfold vdot in UC. lra. }
    split; auto. rewrite rotate_turn by (auto using unit_nonzero, unit_exact). unfold turn. rewrite UQ.
    assert (D : vdot a d0 = 0). { rewrite EC. transitivity (/ vmag c * vdot c d0); [unfold vdot; cbn; ring|]. unfold c, vdot; cbn; ring. }
    assert (S : sw (qvec a) d0 = vsub (vscale (2 * vdot a d0) a) (vscale (vdot a a) d0)) by vring.
    rewrite S, D, UC, OP. apply vec_eq; cbn; field.
  - destruct (between_q d0 d1 U0 U1 H) as [_ [NZ T]]. set (q := mkq _ _ _ _) in *.
    pose proof (normalize_unit q NZ) as UN. split; auto.
    rewrite rotate_turn by (auto using unit_nonzero, unit_exact). rewrite normalize_turn; auto.
Qed.

Lemma normalized_of_unit v : vdot v v = 1 -> vnormalized v = v.
Proof.
  intros U. assert (M : vmag v = 1) by (rewrite vmag_dot, U; apply sqrt_1). unfold vnormalized. rewrite M.
  destruct (Req_EM_T 1 0); [lra|]. apply vec_eq; cbn; field.
Qed.

Lemma between_x_zero : rotation_between (mkv 1 0 0) (mkv (-1) 0 0) = mkq 0 0 0 0.
Proof.
  unfold rotation_between. rewrite !normalized_of_unit by (unfold vdot; cbn; ring).
  destruct (Req_EM_T _ _) as [H|H]; [|exfalso; apply H; unfold vdot; cbn; ring].
  assert (Z : vcross (mkv 1 0 0) (mkv 1 0 0) = mkv 0 0 0) by (apply vec_eq; cbn; ring). rewrite Z.
  unfold vnormalized. assert (M : vmag (mkv 0 0 0) = 0) by (unfold vmag; cbn; replace (0*0+0*0+0*0) with 0 by ring; apply sqrt_0). rewrite M.
  destruct (Req_EM_T 0 0); [|lra]. auto.
Qed.

Lemma between_refuted : exists v0 v1, v0 <> mkv 0 0 0 /\ v1 <> mkv 0 0 0 /\ ~ unit (rotation_between v0 v1).
Proof.
  exists (mkv 1 0 0), (mkv (-1) 0 0). split; [intros H; injection H as H; lra|]. split; [intros H; injection H as H; lra|].
  rewrite between_x_zero. unfold unit, qnorm2. cbn. lra.
Qed.

(** ** Euler angles *)
Lemma axis_q (v : vec) t : vdot v v = 1 -> set_axis_angle v t = mkq (sin (t * / 2) * vx v) (sin (t * / 2) * vy v) (sin (t * / 2) * vz v) (cos (t * / 2)).
Proof. intros U. unfold set_axis_angle. rewrite normalized_of_unit; auto. Qed.

Lemma xyzs_ok a b g : q_from_xyzs a b g = qmul (set_axis_angle axis_z g) (qmul (set_axis_angle axis_y b) (set_axis_angle axis_x a)).
Proof. rewrite !axis_q by (unfold vdot; cbn; ring). qring. Qed.
Lemma zxzr_ok a b g : q_from_zxzr a b g = qmul (set_axis_angle axis_z a) (qmul (set_axis_angle axis_x b) (set_axis_angle axis_z g)).
Proof.
  rewrite !axis_q by (unfold vdot; cbn; ring). unfold q_from_zxzr. rewrite cos_minus, sin_minus, sin_plus, cos_plus. qring.
Qed.
Lemma unit_mul a b : unit a -> unit b -> unit (qmul a b).
Proof. intros A B. unfold unit in *. rewrite qnorm2_mul, A, B. ring. Qed.
Lemma axis_unit v t : vdot v v = 1 -> unit (set_axis_angle v t).
Proof. intros U. apply axis_angle_ok. intros E. subst. unfold vdot in U. cbn in U. lra. Qed.
Lemma euler_unit a b g : unit (q_from_xyzs a b g) /\ unit (q_from_zxzr a b g).
Proof. rewrite xyzs_ok, zxzr_ok. split; repeat apply unit_mul; apply axis_unit; unfold vdot; cbn; ring. Qed.

Lemma euler_action a b g p :
  qrotate (q_from_xyzs a b g) p false = rodrigues axis_z g (rodrigues axis_y b (rodrigues axis_x a p)) /\
  qrotate (q_from_zxzr a b g) p false = rodrigues axis_z a (rodrigues axis_x b (rodrigues axis_z g p)).
Proof.
  destruct (euler_unit a b g) as [U1 U2].
  assert (R : forall v t p, vdot v v = 1 -> turn (set_axis_angle v t) p = rodrigues v t p).
  { intros v t p0 U. assert (NZ : v <> mkv 0 0 0) by (intros E; subst; unfold vdot in U; cbn in U; lra).
    destruct (axis_angle_ok v t NZ) as [UN H]. rewrite <- rotate_turn by (auto using unit_nonzero, unit_exact). rewrite H. f_equal.
    assert (M : vmag v = 1) by (rewrite vmag_dot, U; apply sqrt_1). rewrite M. apply vec_eq; cbn; field. }
  rewrite !rotate_turn by (auto using unit_nonzero, unit_exact). rewrite xyzs_ok, zxzr_ok.
  assert (X : vdot axis_x axis_x = 1) by (unfold vdot; cbn; ring).
  assert (Y : vdot axis_y axis_y = 1) by (unfold vdot; cbn; ring).
  assert (Z : vdot axis_z axis_z = 1) by (unfold vdot; cbn; ring).
  pose proof (fun v t U => unit_nonzero _ (axis_unit v t U)) as AN.
  split; rewrite !turn_mul by (repeat apply mul_nonzero; apply AN; auto); rewrite !R; auto.
Qed.

(** ** Placements *)
(** What the constructors and the setters keep. *)
Definition valid (s : placement) : Prop := unit (p_quat s) /\ p_identity s = identity_flag (p_position s) (p_quat s).
Lemma place_valid p q : nonzero q -> valid (place p q).
Proof. intros N. split; auto. apply normalize_unit; auto. Qed.
Lemma set_position_valid s p : valid s -> valid (set_position s p).
Proof. intros [A B]. split; auto. Qed.
Lemma set_quaternion_valid s q : nonzero q -> valid (set_quaternion s q).
Proof. intros N. split; auto. apply normalize_unit; auto. Qed.

Lemma vsub_add a b : vsub (vadd a b) b = a.
Proof. vring. Qed.
Lemma vadd_sub a b : vadd (vsub a b) b = a.
Proof. vring. Qed.

Lemma rotation_sub f p q : rotation f -> f (vsub p q) = vsub (f p) (f q).
Proof.
  intros [A B _ _]. assert (E : vsub p q = vadd p (vscale (-1) q)) by vring. rewrite E, A, B. vring.
Qed.

Lemma moved_inverse q o : nonzero q -> exact q ->
  mutually_inverse (fun p => vadd (qrotate q p false) o) (fun p => qrotate q (vsub p o) true) /\
  isometry (fun p => vadd (qrotate q p false) o) /\ isometry (fun p => qrotate q (vsub p o) true).
Proof.
  intros N E. destruct (rotate_undone q N E) as [A B]. destruct (rotate_is_rotation q N E) as [F G]. cbn in A, B.
  split; [|split].
  - split; intros p; cbn beta; [rewrite A; apply vadd_sub|rewrite vsub_add; apply B].
  - intros p r. cbn beta. replace (vsub _ _) with (vsub (qrotate q p false) (qrotate q r false)) by vring.
    rewrite <- (rotation_sub (fun p => qrotate q p false)) by auto. apply (rotation_length _ _ F).
  - intros p r. cbn beta. rewrite <- (rotation_sub (fun p => qrotate q p true)) by auto.
    rewrite (rotation_length (fun p => qrotate q p true)) by auto. f_equal. vring.
Qed.

Lemma valid_maps s : valid s ->
  mutually_inverse (local_to_global s) (global_to_local s) /\ mutually_inverse (local_to_global_dir s) (global_to_local_dir s) /\
  isometry (local_to_global s) /\ isometry (global_to_local s) /\ rotation (local_to_global_dir s) /\ rotation (global_to_local_dir s).
Proof.
  intros [U _]. pose proof (unit_nonzero _ U) as N. pose proof (unit_exact _ U) as E.
  destruct (moved_inverse (p_quat s) (p_position s) N E) as [A [B C]]. destruct (rotate_is_rotation _ N E) as [F G].
  pose proof (rotate_undone _ N E). repeat (split; [assumption|]). assumption.
Qed.

(** A placement flagged as identity moves points by at most 4 parts in 10^12. *)
Lemma unit_shift q p : unit q -> vmag (vsub (qrotate q p false) p) * vmag (vsub (qrotate q p false) p) <= 4 * (qx q * qx q + qy q * qy q + qz q * qz q) * vdot p p.
Proof.
  intros U. rewrite rotate_turn by (auto using unit_nonzero, unit_exact). rewrite vmag_sq. unfold turn. rewrite U.
  set (v := qv q). set (u := vcross v p).
  assert (W : qw q * qw q = 1 - vdot v v) by (unfold unit, qnorm2 in U; unfold v, vdot; cbn; lra).
  assert (E : vsub (vscale (/ 1) (sw q p)) p = vadd (vscale (2 * qw q) u) (vscale 2 (vcross v u))).
  { transitivity (vsub (vadd (vadd (vscale (qw q * qw q - vdot v v) p) (vscale (2 * vdot v p) v)) (vscale (2 * qw q) u)) p).
    - f_equal. apply vec_eq; unfold u, v; cbn; unfold vdot; cbn; field.
    - rewrite W. apply vec_eq; unfold u, v; cbn; unfold vdot; cbn; ring. }
  rewrite E. replace (vdot _ _) with (4 * (qw q * qw q) * vdot u u + 4 * (vdot v v * vdot u u - vdot v u * vdot v u) + 8 * qw q * (vdot u (vcross v u))) by (unfold vdot; cbn; ring).
  assert (Z1 : vdot v u = 0) by (unfold u, vdot; cbn; ring). assert (Z2 : vdot u (vcross v u) = 0) by (unfold vdot; cbn; ring).
  rewrite Z1, Z2, W.
  assert (UU : vdot u u = vdot v v * vdot p p - vdot v p * vdot v p) by (unfold u, vdot; cbn; ring).
  replace (qx q * qx q + qy q * qy q + qz q * qz q) with (vdot v v) by reflexivity. rewrite UU. nra.
Qed.

Lemma abs_small x e : Rabs x < e -> x * x < e * e.
Proof. intros H. assert (0 <= Rabs x) by apply Rabs_pos. replace (x * x) with (Rabs x * Rabs x) by (rewrite <- Rabs_mult; apply Rabs_right; nra). nra. Qed.

Lemma identity_close s p : valid s -> p_identity s = true -> vmag (vsub (local_to_global s p) p) <= 4 / 10 ^ 12 * vmag p.
Proof.
  intros [U F] I. rewrite F in I. unfold identity_flag in I.
  destruct (Req_EM_T (vx (p_position s)) 0) as [X|]; [|discriminate].
  destruct (Req_EM_T (vy (p_position s)) 0) as [Y|]; [|discriminate].
  destruct (Req_EM_T (vz (p_position s)) 0) as [Z|]; [|discriminate].
  destruct (Rlt_dec (Rabs (Rabs (qw (p_quat s)) - 1)) (1 / 10 ^ 12)) as [Hw|]; [|discriminate].
  destruct (Rlt_dec (Rabs (qx (p_quat s))) (1 / 10 ^ 12)) as [Hx|]; [|discriminate].
  destruct (Rlt_dec (Rabs (qy (p_quat s))) (1 / 10 ^ 12)) as [Hy|]; [|discriminate].
  destruct (Rlt_dec (Rabs (qz (p_quat s))) (1 / 10 ^ 12)) as [Hz|]; [|discriminate].
  clear I. assert (E : local_to_global s p = qrotate (p_quat s) p false).
  { unfold local_to_global. apply vec_eq; cbn; rewrite ?X, ?Y, ?Z; ring. }
  rewrite E. pose proof (unit_shift (p_quat s) p U) as S. set (d := vmag (vsub (qrotate (p_quat s) p false) p)) in *.
  assert (D : 0 <= d) by apply vmag_nonneg. pose proof (vmag_nonneg p) as V. rewrite <- vmag_sq in S.
  apply abs_small in Hx. apply abs_small in Hy. apply abs_small in Hz.
  set (e := 1 / 10 ^ 12) in *. assert (e > 0) by (unfold e; lra).
  assert (B : d * d <= (4 * e * vmag p) * (4 * e * vmag p)).
  { eapply Rle_trans; [exact S|]. replace (4 * e * vmag p * (4 * e * vmag p)) with (16 * (e * e) * (vmag p * vmag p)) by ring.
    apply Rmult_le_compat_r; nra. }
  replace (4 / 10 ^ 12) with (4 * e) by (unfold e; lra). apply Rsqr_incr_0; auto. nra.
Qed.

(** ** Detector coordinates *)
Section Frames.
Context {A : Type}.
Implicit Types m n : frame A.

Lemma frame_maps m : nonzero (ds_rotation m) -> exact (ds_rotation m) ->
  mutually_inverse (to_det m) (to_geo m) /\ mutually_inverse (to_det_dir m) (to_geo_dir m) /\
  isometry (to_det m) /\ isometry (to_geo m) /\ rotation (to_det_dir m) /\ rotation (to_geo_dir m).
Proof.
  intros N E. destruct (moved_inverse (ds_rotation m) (ds_origin m) N E) as [[I J] [B C]]. destruct (rotate_is_rotation _ N E) as [F G].
  destruct (rotate_undone _ N E) as [P Q]. split; [split; auto|]. split; [split; auto|]. auto.
Qed.

Lemma frame_near m p : nonzero (ds_rotation m) -> vmag (vsub (to_det m (to_geo m p)) p) <= 3 / 10 ^ 12 * vmag p.
Proof. intros N. unfold to_det, to_geo. rewrite vsub_add. apply rotate_back_near; auto. Qed.

Lemma saved_keeps_identity m : ds_rotation m = qone -> save_and_load m = m.
Proof. intros E. destruct m as [r o q]. cbn in E. subst. auto. Qed.
End Frames.

Lemma qone_rotate p inv : qrotate qone p inv = p.
Proof.
  assert (U : unit qone) by (unfold unit, qnorm2, qone; cbn; ring). rewrite rotate_sw by (apply unit_nonzero; auto).
  rewrite factor_exact by (auto using unit_nonzero, unit_exact). rewrite U. destruct p. destruct inv; apply vec_eq; cbn; field.
Qed.

(** A half turn about z. *)
Definition half_z : quat := mkq 0 0 1 0.
Lemma half_z_rotate p : qrotate half_z p true = mkv (- vx p) (- vy p) (vz p).
Proof.
  assert (U : unit half_z) by (unfold unit, qnorm2, half_z; cbn; ring). rewrite rotate_turn_inv by (auto using unit_nonzero, unit_exact).
  unfold turn. rewrite qnorm2_conj, U. destruct p. apply vec_eq; cbn; field.
Qed.

Lemma saved_loses_rotation : exists (m : frame Datatypes.unit) p, to_det (save_and_load m) p <> to_det m p.
Proof.
  exists (mkframe tt (mkv 0 0 0) half_z), (mkv 1 0 0). unfold to_det, save_and_load. cbn [ds_rotation ds_origin]. rewrite half_z_rotate, qone_rotate.
  intros H. injection H as H. lra.
Qed.

Lemma equal_different : exists (m n : frame Datatypes.unit) p, frame_eqb (fun _ _ => true) m n = true /\ to_det m p <> to_det n p.
Proof.
  exists (mkframe tt (mkv 0 0 0) qone), (mkframe tt (mkv 0 0 0) half_z), (mkv 1 0 0). split.
  - unfold frame_eqb, vector_eqb, reqb. cbn. destruct (Req_EM_T 0 0); [auto|lra].
  - unfold to_det. cbn [ds_rotation ds_origin]. rewrite half_z_rotate, qone_rotate. intros H. injection H as H. lra.
Qed.

Lemma vector_eqb_iff a b : vector_eqb a b = true <-> a = b.
Proof.
  unfold vector_eqb, reqb. destruct a as [[a1 a2 a3] a4 a5 a6], b as [[b1 b2 b3] b4 b5 b6]. cbn.
  split.
  - repeat match goal with |- context [Req_EM_T ?x ?y] => destruct (Req_EM_T x y); cbn; [|intros; discriminate] end. intros _. subst. auto.
  - intros H. injection H as -> -> -> -> -> ->. repeat match goal with |- context [Req_EM_T ?x ?y] => destruct (Req_EM_T x y); cbn; [|tauto] end. auto.
Qed.

Lemma saved_equal {A} (eqa : A -> A -> bool) (m : frame A) : (forall a, eqa a a = true) -> 
  ds_rest (save_and_load m) = ds_rest m /\ ds_origin (save_and_load m) = ds_origin m /\ frame_eqb eqa (save_and_load m) m = true.
Proof. intros R. split; auto. split; auto. unfold frame_eqb. cbn. rewrite R. cbn. apply vector_eqb_iff. auto. Qed.

(** ** Vector equality *)
Section VectorEq.
Variable atan2 : R -> R -> R.
Variable acos_ : R -> R.

(** Vectors obtained from three numbers by a sequence of calls. *)
Inductive made : vector -> Prop :=
| made_new a : made (vector_new a)
| made_op o v : made v -> made (vapply atan2 acos_ o v).

(** ... by calls that leave the spherical coordinates alone. *)
Definition plain (o : vop) : bool :=
  match o with ONormalize | OSetSpherical _ _ _ | OCalcSpherical => false | _ => true end.
Inductive made_plain : vector -> Prop :=
| mp_new a : made_plain (vector_new a)
| mp_op o v : made_plain v -> plain o = true -> made_plain (vapply atan2 acos_ o v).

Lemma made_plain_zero v : made_plain v -> v = vector_new (v_cart v).
Proof.
  induction 1 as [a|o v M IH P]; auto. rewrite IH. destruct o; cbn in P; try discriminate; cbn; auto.
Qed.

Lemma plain_eq a b : made_plain a -> made_plain b -> (vector_eqb a b = true <-> v_cart a = v_cart b).
Proof.
  intros A B. rewrite vector_eqb_iff. split; [intros ->; auto|]. intros E. rewrite (made_plain_zero a A), (made_plain_zero b B), E. auto.
Qed.

Lemma equal_cart a b : vector_eqb a b = true -> v_cart a = v_cart b.
Proof. rewrite vector_eqb_iff. intros ->. auto. Qed.

Lemma normalized_differs : exists a b, made a /\ made b /\ v_cart a = v_cart b /\ vector_eqb a b = false.
Proof.
  exists (vapply atan2 acos_ ONormalize (vector_new (mkv 2 0 0))), (vector_new (mkv 1 0 0)).
  assert (M : vmag (mkv 2 0 0) = 2) by (unfold vmag; cbn; replace (2*2+0*0+0*0) with (2 * 2) by ring; apply sqrt_square; lra).
  assert (C : v_cart (vapply atan2 acos_ ONormalize (vector_new (mkv 2 0 0))) = mkv 1 0 0).
  { cbn [vapply v_cart vector_new]. rewrite M. destruct (Req_EM_T 2 0); [lra|]. cbn. apply vec_eq; cbn; field. }
  split; [constructor; constructor|]. split; [constructor|]. split; [exact C|].
  destruct (vector_eqb _ _) eqn:E; auto. apply vector_eqb_iff in E. exfalso.
  assert (RR : v_radius (vapply atan2 acos_ ONormalize (vector_new (mkv 2 0 0))) = 0) by (rewrite E; auto).
  cbn [vapply v_cart vector_new] in RR. rewrite M in RR. destruct (Req_EM_T 2 0); cbn in RR; lra.
Qed.
End VectorEq.

Lemma near_back : exists a p, nonzero a /\ qrotate a (qrotate a p false) true <> p.
Proof.
  set (a := mkq 0 0 0 (1 + 1 / 10 ^ 13)). assert (NZ : nonzero a) by (intros E; injection E as E; lra).
  exists a, (mkv 1 0 0). split; auto. rewrite !rotate_sw by auto. rewrite sw_vscale, sw_back.
  assert (F : factor a = 1). { unfold factor, qnorm2, a. cbn [qx qy qz qw]. destruct (Rlt_dec _ _) as [L|L]; auto. exfalso. apply L. rewrite Rabs_right; lra. }
  rewrite F. unfold qnorm2, a. cbn. intros H. injection H as H. lra.
Qed.

Lemma frame_near_refuted : exists (m : frame Datatypes.unit) p, nonzero (ds_rotation m) /\ to_det m (to_geo m p) <> p.
Proof.
  destruct near_back as [a [p [N H]]]. exists (mkframe tt (mkv 0 0 0) a), p. split; auto. unfold to_det, to_geo. rewrite vsub_add. auto.
Qed.

Lemma compound_disagrees : (exists a b, qmul_assign a b <> qmul a b) /\ (exists a k, qplus a k <> qplus_assign a k).
Proof.
  split.
  - exists (mkq 1 0 0 0), (mkq 0 1 0 0). unfold qmul_assign, qmul. cbn. intros H. injection H as _ _ H _. lra.
  - exists (mkq 1 0 0 0), 0. unfold qplus, qplus_assign. cbn. intros H. injection H as H. lra.
Qed.

Lemma compound_agrees : (forall a b, qmul_assign a b = qmul b a) /\ (forall a b, qadd_assign a b = qadd a b) /\ (forall a k, qscale_assign a k = qscale a k) /\
  (forall a k, qplus a k = qscale a k) /\ (forall a b, qmul a b = qmul b a -> qmul_assign a b = qmul a b).
Proof.
  split; [intros; auto|]. split; [intros; qring|]. split; [intros; qring|]. split; [intros; auto|]. intros a b H. unfold qmul_assign. auto.
Qed.
