(** Proofs about quaternions. *)
From Coq Require Import Reals Bool Lra Lia.
From Verif Require Import VectorModel QuatModel QuatSpec.
Open Scope R_scope.

Lemma vec_eq a b : vx a = vx b -> vy a = vy b -> vz a = vz b -> a = b.
Proof. destruct a, b; cbn; intros; subst; auto. Qed.
Lemma quat_eq a b : qx a = qx b -> qy a = qy b -> qz a = qz b -> qw a = qw b -> a = b.
Proof. destruct a, b; cbn; intros; subst; auto. Qed.
Ltac vring := apply vec_eq; cbn; unfold vdot, qnorm2; cbn; ring.
Ltac qring := apply quat_eq; cbn; unfold vdot, qnorm2; cbn; ring.

Lemma hamilton_ok a b : qmul a b = hamilton a b.
Proof. qring. Qed.
Lemma qmul_assoc a b c : qmul (qmul a b) c = qmul a (qmul b c).
Proof. qring. Qed.
Lemma qmul_1_l a : qmul qone a = a.
Proof. qring. Qed.
Lemma qmul_1_r a : qmul a qone = a.
Proof. qring. Qed.
Lemma qnorm2_mul a b : qnorm2 (qmul a b) = qnorm2 a * qnorm2 b.
Proof. unfold qnorm2; cbn; ring. Qed.
Lemma qnorm2_nonneg a : 0 <= qnorm2 a.
Proof. unfold qnorm2. nra. Qed.
Lemma sq_sum4 a b c d : a * a + b * b + c * c + d * d = 0 -> a = 0 /\ b = 0 /\ c = 0 /\ d = 0.
Proof. intros H. repeat split; nra. Qed.
Lemma qnorm2_pos a : nonzero a -> 0 < qnorm2 a.
Proof.
  intros N. destruct (qnorm2_nonneg a) as [|E]; auto. exfalso. apply N. symmetry in E. unfold qnorm2 in E. apply sq_sum4 in E.
  destruct E as [A [B [C D]]]. destruct a; cbn in *. subst. auto.
Qed.
Lemma unit_nonzero a : unit a -> nonzero a.
Proof. intros U E. unfold unit in U. subst a. unfold qnorm2 in U. cbn in U. lra. Qed.
Lemma inv_aux a n : n <> 0 -> n = qnorm2 a -> 
  qmul a (mkq (- qx a / n) (- qy a / n) (- qz a / n) (qw a / n)) = qone /\ qmul (mkq (- qx a / n) (- qy a / n) (- qz a / n) (qw a / n)) a = qone.
Proof.
  intros N E. split; apply quat_eq; cbn; try (field; auto); unfold qnorm2 in E;
  match goal with |- ?e = 1 => replace e with ((qw a * qw a + qx a * qx a + qy a * qy a + qz a * qz a) / n) by (field; auto) end; rewrite <- E; field; auto.
Qed.
Lemma qinv_r a : nonzero a -> qmul a (qinv a) = qone.
Proof. intros N. pose proof (qnorm2_pos a N) as P. apply inv_aux; auto. lra. Qed.
Lemma qinv_l a : nonzero a -> qmul (qinv a) a = qone.
Proof. intros N. pose proof (qnorm2_pos a N) as P. apply inv_aux; auto. lra. Qed.

(** ** The action *)
Definition sw (a : quat) (p : vec) : vec := sandwich (qx a) (qy a) (qz a) (qw a) p.

Lemma sw_conj a p : qvec (sw a p) = qmul (qmul a (qvec p)) (qconj a).
Proof. qring. Qed.
Lemma sw_scale k a p : sw (qscale a k) p = vscale (k * k) (sw a p).
Proof. vring. Qed.
Lemma sw_mul a b p : sw (qmul a b) p = sw a (sw b p).
Proof. vring. Qed.
Lemma sw_dot a p q : vdot (sw a p) (sw a q) = qnorm2 a * qnorm2 a * vdot p q.
Proof. unfold vdot, qnorm2; cbn; ring. Qed.
Lemma sw_cross a p q : vscale (qnorm2 a) (sw a (vcross p q)) = vcross (sw a p) (sw a q).
Proof. apply vec_eq; unfold qnorm2; cbn; ring. Qed.
Lemma sw_add a p q : sw a (vadd p q) = vadd (sw a p) (sw a q).
Proof. vring. Qed.
Lemma sw_vscale a k p : sw a (vscale k p) = vscale k (sw a p).
Proof. vring. Qed.
Lemma sw_back a p : sw (qconj a) (sw a p) = vscale (qnorm2 a * qnorm2 a) p.
Proof. apply vec_eq; unfold qnorm2; cbn; ring. Qed.

(** The factor [rotate] applies. *)
Definition factor (a : quat) : R := if Rlt_dec (Rabs (qnorm2 a - 1)) (1 / 10 ^ 12) then 1 else / qnorm2 a.

Lemma qnorm2_conj a : qnorm2 (qconj a) = qnorm2 a.
Proof. unfold qnorm2; cbn; ring. Qed.

Lemma rotate_sw a p inv : nonzero a -> qrotate a p inv = vscale (factor a) (sw (if inv then qconj a else a) p).
Proof.
  intros N. pose proof (qnorm2_pos a N) as P. unfold qrotate, factor. destruct (Rlt_dec (Rabs (qnorm2 a - 1)) (1 / 10 ^ 12)).
  - destruct inv; vring.
  - assert (Q : 1 / sqrt (qnorm2 a) * (1 / sqrt (qnorm2 a)) = / qnorm2 a).
    { pose proof (sqrt_lt_R0 _ P). rewrite <- (sqrt_sqrt (qnorm2 a)) at 3 by lra. field. lra. }
    rewrite <- Q. set (k := 1 / sqrt (qnorm2 a)). destruct inv; vring.
Qed.

Lemma factor_exact a : nonzero a -> exact a -> factor a = / qnorm2 a.
Proof.
  intros N E. unfold factor. destruct (Rlt_dec (Rabs (qnorm2 a - 1)) (1 / 10 ^ 12)); auto. destruct E as [E|E]; [|lra].
  rewrite E. field.
Qed.

Lemma factor_near a : nonzero a -> factor a * qnorm2 a = 1 \/ (factor a = 1 /\ Rabs (qnorm2 a - 1) < 1 / 10 ^ 12).
Proof.
  intros N. pose proof (qnorm2_pos a N). unfold factor. destruct (Rlt_dec (Rabs (qnorm2 a - 1)) (1 / 10 ^ 12)); [right; auto|].
  left. field. lra.
Qed.

Definition turn (a : quat) (p : vec) : vec := vscale (/ qnorm2 a) (sw a p).

Lemma turn_rotation a : nonzero a -> rotation (turn a).
Proof.
  intros N. pose proof (qnorm2_pos a N) as P. unfold turn. split.
  - intros p q. rewrite sw_add. vring.
  - intros k p. rewrite sw_vscale. vring.
  - intros p q. replace (vdot (vscale (/ qnorm2 a) (sw a p)) (vscale (/ qnorm2 a) (sw a q))) with (/ qnorm2 a * / qnorm2 a * vdot (sw a p) (sw a q)) by (unfold vdot; cbn [vscale vx vy vz]; ring).
    rewrite sw_dot. field. lra.
  - intros p q. replace (vcross (vscale (/ qnorm2 a) (sw a p)) (vscale (/ qnorm2 a) (sw a q))) with (vscale (/ qnorm2 a * / qnorm2 a) (vcross (sw a p) (sw a q))) by vring.
    rewrite <- sw_cross. apply vec_eq; cbn [vscale vx vy vz]; field; lra.
Qed.

Lemma rotate_turn a p : nonzero a -> exact a -> qrotate a p false = turn a p.
Proof. intros N E. rewrite rotate_sw by auto. rewrite factor_exact; auto. Qed.
Lemma rotate_turn_inv a p : nonzero a -> exact a -> qrotate a p true = turn (qconj a) p.
Proof. intros N E. rewrite rotate_sw by auto. rewrite factor_exact by auto. unfold turn. rewrite qnorm2_conj. auto. Qed.

Lemma turn_conj_form a p : nonzero a -> qvec (turn a p) = qmul (qmul a (qvec p)) (qinv a).
Proof.
  intros N. pose proof (qnorm2_pos a N). transitivity (qscale (qvec (sw a p)) (/ qnorm2 a)); [qring|]. rewrite sw_conj.
  unfold qinv. set (n := qnorm2 a) in *. apply quat_eq; cbn; field; lra.
Qed.

Lemma conj_nonzero a : nonzero a -> nonzero (qconj a).
Proof. intros N E. apply N. destruct a as [x y z w]. unfold qconj in E. cbn in E. injection E as A B C D. apply quat_eq; cbn; lra. Qed.

Lemma turn_back a p : nonzero a -> turn (qconj a) (turn a p) = p.
Proof.
  intros N. pose proof (qnorm2_pos a N). unfold turn. rewrite qnorm2_conj, sw_vscale, sw_back. apply vec_eq; cbn [vscale vx vy vz]; field; lra.
Qed.
Lemma qconj_conj a : qconj (qconj a) = a.
Proof. qring. Qed.
Lemma turn_forth a p : nonzero a -> turn a (turn (qconj a) p) = p.
Proof. intros N. rewrite <- (qconj_conj a) at 1. apply turn_back. apply conj_nonzero. auto. Qed.

Lemma turn_mul a b p : nonzero a -> nonzero b -> turn (qmul a b) p = turn a (turn b p).
Proof.
  intros A B. pose proof (qnorm2_pos a A). pose proof (qnorm2_pos b B). unfold turn. rewrite sw_mul, qnorm2_mul, sw_vscale.
  apply vec_eq; cbn [vscale vx vy vz]; field; lra.
Qed.
Lemma mul_nonzero a b : nonzero a -> nonzero b -> nonzero (qmul a b).
Proof.
  intros A B E. pose proof (qnorm2_pos a A). pose proof (qnorm2_pos b B). pose proof (qnorm2_mul a b) as M. rewrite E in M.
  assert (0 < qnorm2 a * qnorm2 b) by (apply Rmult_lt_0_compat; auto). unfold qnorm2 at 1 in M. cbn in M. nra.
Qed.
Lemma inv_nonzero a : nonzero a -> nonzero (qinv a).
Proof. intros N E. pose proof (qinv_r a N) as H. rewrite E in H. unfold qone in H. injection H as _ _ _ H. cbn in H. lra. Qed.

(** ** Statements *)
Lemma group_laws : (forall a b c, qmul (qmul a b) c = qmul a (qmul b c)) /\ (forall a, qmul qone a = a /\ qmul a qone = a) /\
  (forall a, nonzero a -> qmul a (qinv a) = qone /\ qmul (qinv a) a = qone) /\ (forall a b, qnorm2 (qmul a b) = qnorm2 a * qnorm2 b).
Proof.
  split; [exact qmul_assoc|]. split; [intros a; split; [apply qmul_1_l|apply qmul_1_r]|].
  split; [|exact qnorm2_mul]. intros a N. split; [apply qinv_r|apply qinv_l]; auto.
Qed.

Lemma rotate_is_rotation a : nonzero a -> exact a -> rotation (fun p => qrotate a p false) /\ rotation (fun p => qrotate a p true).
Proof.
  intros N E. assert (forall f g, (forall p, f p = g p) -> rotation f -> rotation g).
  { intros f g FG [A B C D]. split; intros; rewrite <- !FG; auto. }
  split; [apply (H (turn a)); [intros; symmetry; apply rotate_turn; auto|apply turn_rotation; auto]|].
  apply (H (turn (qconj a))); [intros; symmetry; apply rotate_turn_inv; auto|apply turn_rotation, conj_nonzero; auto].
Qed.

Lemma rotate_conjugates a p : nonzero a -> exact a -> qvec (qrotate a p false) = qmul (qmul a (qvec p)) (qinv a).
Proof. intros N E. rewrite rotate_turn by auto. apply turn_conj_form; auto. Qed.

Lemma qrotate_q_ok a p : nonzero a -> qrotate_q a p false = qmul (qmul a p) (qinv a) /\ qrotate_q a p true = qmul (qmul (qinv a) p) a.
Proof.
  intros N. pose proof (qnorm2_pos a N) as P. unfold qrotate_q, qnorm. set (n := sqrt (qnorm2 a)).
  assert (0 < n) by (apply sqrt_lt_R0; auto). assert (Q : n * n = qnorm2 a) by (apply sqrt_sqrt; lra).
  unfold qinv. rewrite <- Q. split; apply quat_eq; cbn; field; lra.
Qed.

Lemma rotate_undone a : nonzero a -> exact a -> mutually_inverse (fun p => qrotate a p false) (fun p => qrotate a p true).
Proof.
  intros N E. split; intros p; rewrite rotate_turn, rotate_turn_inv by auto; [apply turn_forth|apply turn_back]; auto.
Qed.

Lemma rotate_composes a b p : nonzero a -> nonzero b -> exact a -> exact b -> exact (qmul a b) ->
  qrotate (qmul a b) p false = qrotate a (qrotate b p false) false.
Proof. intros. rewrite !rotate_turn by (auto using mul_nonzero). apply turn_mul; auto. Qed.

Lemma vmag_dot p : vmag p = sqrt (vdot p p).
Proof. auto. Qed.
Lemma vdot_nonneg p : 0 <= vdot p p.
Proof. unfold vdot. nra. Qed.
Lemma vmag_nonneg p : 0 <= vmag p.
Proof. apply sqrt_pos. Qed.
Lemma vmag_sq p : vmag p * vmag p = vdot p p.
Proof. apply sqrt_sqrt. apply vdot_nonneg. Qed.
Lemma vmag_scale k p : vmag (vscale k p) = Rabs k * vmag p.
Proof.
  rewrite !vmag_dot. replace (vdot (vscale k p) (vscale k p)) with (k² * vdot p p) by (unfold vdot, Rsqr; cbn; ring).
  rewrite sqrt_mult; [|apply Rle_0_sqr|apply vdot_nonneg]. rewrite sqrt_Rsqr_abs. auto.
Qed.

Lemma rotation_length f p : rotation f -> vmag (f p) = vmag p.
Proof. intros [_ _ D _]. rewrite !vmag_dot, D. auto. Qed.

Lemma sw_length a p : vmag (sw a p) = qnorm2 a * vmag p.
Proof.
  rewrite !vmag_dot, sw_dot. pose proof (qnorm2_nonneg a). rewrite sqrt_mult; [|nra|apply vdot_nonneg]. f_equal. apply sqrt_square. auto.
Qed.

(** Within the tolerance: lengths to one part in 10^12. *)
Lemma rotate_length_near a p inv : nonzero a -> Rabs (vmag (qrotate a p inv) - vmag p) <= 1 / 10 ^ 12 * vmag p.
Proof.
  intros N. rewrite rotate_sw by auto. rewrite vmag_scale. pose proof (qnorm2_pos a N) as P.
  assert (E : vmag (sw (if inv then qconj a else a) p) = qnorm2 a * vmag p).
  { rewrite sw_length. destruct inv; auto. rewrite qnorm2_conj. auto. }
  rewrite E. pose proof (vmag_nonneg p) as V. destruct (factor_near a N) as [F|[F G]].
  - assert (0 < factor a) by nra. rewrite (Rabs_right (factor a)) by lra. replace (factor a * (qnorm2 a * vmag p) - vmag p) with 0 by (rewrite <- Rmult_assoc, F; ring).
    rewrite Rabs_R0. nra.
  - rewrite F, Rabs_R1. replace (1 * (qnorm2 a * vmag p) - vmag p) with ((qnorm2 a - 1) * vmag p) by ring.
    rewrite Rabs_mult, (Rabs_right (vmag p)) by lra. apply Rmult_le_compat_r; auto. lra.
Qed.

(** ... and rotating back to three parts in 10^12. *)
Lemma rotate_back_near a p : nonzero a -> vmag (vsub (qrotate a (qrotate a p false) true) p) <= 3 / 10 ^ 12 * vmag p.
Proof.
  intros N. rewrite !rotate_sw by auto. rewrite sw_vscale, sw_back. set (k := factor a * qnorm2 a).
  replace (vsub _ p) with (vscale (k * k - 1) p) by (unfold k; vring). rewrite vmag_scale. pose proof (vmag_nonneg p) as V.
  apply Rmult_le_compat_r; auto. unfold k. destruct (factor_near a N) as [F|[F G]]; [rewrite F|rewrite F].
  - replace (1 * 1 - 1) with 0 by ring. rewrite Rabs_R0. lra.
  - apply Rabs_def2 in G. apply Rabs_le. nra.
Qed.

Lemma near_unit_stretches : exists a p, nonzero a /\ vmag (qrotate a p false) <> vmag p.
Proof.
  exists (mkq 0 0 0 (1 + 1 / 10 ^ 13)), (mkv 1 0 0).
  assert (NZ : nonzero (mkq 0 0 0 (1 + 1 / 10 ^ 13))) by (intros E; injection E as E; lra). split; auto.
  rewrite rotate_sw by auto. rewrite vmag_scale, sw_length. unfold factor, qnorm2. cbn [qx qy qz qw].
  assert (M : vmag (mkv 1 0 0) = 1) by (unfold vmag; cbn; replace (1*1+0*0+0*0) with 1 by ring; apply sqrt_1). rewrite M.
  destruct (Rlt_dec _ _) as [L|L].
  - rewrite Rabs_R1. lra.
  - exfalso. apply L. rewrite Rabs_right; lra.
Qed.

(** ** Matrices *)
Lemma unit_exact a : unit a -> exact a.
Proof. left. auto. Qed.

Lemma matrix_acts a p : unit a -> mat_apply (get_matrix a) p = qrotate a p false.
Proof.
  intros U. rewrite rotate_turn by (auto using unit_nonzero, unit_exact). unfold turn. unfold unit in U. rewrite U.
  assert (W : qw a * qw a = 1 - qx a * qx a - qy a * qy a - qz a * qz a) by (unfold qnorm2 in U; lra).
  apply vec_eq; cbn; rewrite W; field.
Qed.

Definition opposite (a : quat) : quat := mkq (- qx a) (- qy a) (- qz a) (- qw a).

Lemma sqrt_4sq x : sqrt (4 * (x * x)) = 2 * Rabs x.
Proof. replace (4 * (x * x)) with ((2 * x)²) by (unfold Rsqr; ring). rewrite sqrt_Rsqr_abs, Rabs_mult, (Rabs_right 2) by lra. auto. Qed.

Lemma rmax4 a b c d : let M := Rmax (Rmax a b) (Rmax c d) in a <= M /\ b <= M /\ c <= M /\ d <= M /\ (M = a \/ M = b \/ M = c \/ M = d).
Proof.
  cbn. unfold Rmax. destruct (Rle_dec a b), (Rle_dec c d); match goal with |- context [Rle_dec ?x ?y] => destruct (Rle_dec x y) end; repeat split; try lra; auto.
Qed.

Lemma matrix_round a : unit a -> set_matrix (get_matrix a) = a \/ set_matrix (get_matrix a) = opposite a.
Proof.
  intros U. unfold unit, qnorm2 in U. destruct a as [x y z w]. cbn in U. unfold set_matrix.
  set (m := get_matrix (mkq x y z w)).
  assert (TR : mxx m + myy m + mzz m = 4 * (w * w) - 1) by (unfold m; cbn; lra). rewrite TR.
  pose proof (rmax4 (mxx m) (myy m) (mzz m) (4 * (w * w) - 1)) as RM. cbv zeta in RM.
  set (M := Rmax (Rmax (mxx m) (myy m)) (Rmax (mzz m) (4 * (w * w) - 1))) in *. cbv zeta.
  destruct RM as [A [B [C [D E]]]].
  assert (X : mxx m = 2 * (x * x) + 2 * (w * w) - 1) by (unfold m; cbn; lra).
  assert (Y : myy m = 2 * (y * y) + 2 * (w * w) - 1) by (unfold m; cbn; lra).
  assert (ZZ : mzz m = 2 * (z * z) + 2 * (w * w) - 1) by (unfold m; cbn; lra).
  assert (FIN : forall t, (0 < t \/ t < 0) -> Rabs t = t \/ Rabs t = - t) by (intros t _; unfold Rabs; destruct (Rcase_abs t); auto).
  assert (GO : forall t, t * t >= 1 / 4 -> t <> 0) by (intros t H H0; subst; lra).
  destruct (Req_EM_T M (mxx m)) as [H|H].
  - assert (N : x <> 0) by (apply GO; nra). replace (1 - (4 * (w * w) - 1) + 2 * M) with (4 * (x * x)) by lra. rewrite sqrt_4sq.
    unfold Rabs. destruct (Rcase_abs x); [right|left]; apply quat_eq; cbn; field; auto.
  - destruct (Req_EM_T M (myy m)) as [H1|H1].
    + assert (N : y <> 0) by (apply GO; nra). replace (1 - (4 * (w * w) - 1) + 2 * M) with (4 * (y * y)) by lra. rewrite sqrt_4sq.
      unfold Rabs. destruct (Rcase_abs y); [right|left]; apply quat_eq; cbn; field; auto.
    + destruct (Req_EM_T M (mzz m)) as [H2|H2].
      * assert (N : z <> 0) by (apply GO; nra). replace (1 - (4 * (w * w) - 1) + 2 * M) with (4 * (z * z)) by lra. rewrite sqrt_4sq.
        unfold Rabs. destruct (Rcase_abs z); [right|left]; apply quat_eq; cbn; field; auto.
      * assert (HD : M = 4 * (w * w) - 1) by tauto. assert (N : w <> 0) by (apply GO; nra).
        replace (1 - (4 * (w * w) - 1) + 2 * M) with (4 * (w * w)) by lra. rewrite sqrt_4sq.
        unfold Rabs. destruct (Rcase_abs w); [right|left]; apply quat_eq; cbn; field; auto.
Qed.

(** ** Axis and angle *)
Lemma normalized_unit v : v <> mkv 0 0 0 -> vdot (vnormalized v) (vnormalized v) = 1 /\ vnormalized v = vscale (/ vmag v) v.
Proof.
  intros N. unfold vnormalized. destruct (Req_EM_T (vmag v) 0) as [E|E].
  - exfalso. apply N. pose proof (vmag_sq v) as S. rewrite E in S. unfold vdot in S. destruct v as [x y z]. cbn in S. f_equal; nra.
  - split; [|apply vec_eq; cbn; field; auto]. pose proof (vmag_sq v) as S. unfold vdot in *. cbn.
    replace (_ + _ + _) with ((vx v * vx v + vy v * vy v + vz v * vz v) / (vmag v * vmag v)) by (field; auto). rewrite S. field. rewrite <- S. nra.
Qed.

Lemma axis_angle_ok axis angle : axis <> mkv 0 0 0 -> unit (set_axis_angle axis angle) /\
  forall p, qrotate (set_axis_angle axis angle) p false = rodrigues (vscale (/ vmag axis) axis) angle p.
Proof.
  intros N. destruct (normalized_unit axis N) as [U E]. unfold set_axis_angle. rewrite <- E. set (d := vnormalized axis) in *.
  assert (SC : sin (angle / 2) * sin (angle / 2) + cos (angle / 2) * cos (angle / 2) = 1) by (pose proof (sin2_cos2 (angle / 2)); unfold Rsqr in *; lra).
  assert (UN : unit (mkq (sin (angle / 2) * vx d) (sin (angle / 2) * vy d) (sin (angle / 2) * vz d) (cos (angle / 2)))).
  { unfold unit, qnorm2. cbn. unfold vdot in U. set (s := sin (angle / 2)) in *. set (k := cos (angle / 2)) in *.
    replace (_ + _ + _ + _) with (k * k + s * s * (vx d * vx d + vy d * vy d + vz d * vz d)) by ring. rewrite U. lra. }
  split; auto. intros p. rewrite rotate_turn by (auto using unit_nonzero, unit_exact). unfold turn. rewrite UN.
  unfold rodrigues. assert (C : cos angle = cos (angle / 2) * cos (angle / 2) - sin (angle / 2) * sin (angle / 2)).
  { replace angle with (2 * (angle / 2)) at 1 by field. apply cos_2a. }
  assert (S : sin angle = 2 * sin (angle / 2) * cos (angle / 2)). { replace angle with (2 * (angle / 2)) at 1 by field. apply sin_2a. }
  rewrite C, S. set (s := sin (angle / 2)) in *. set (k := cos (angle / 2)) in *. clearbody s k.
  destruct d as [a b g]. destruct p as [x y z]. unfold vdot in U. cbn in U.
  apply vec_eq; cbn; unfold vdot; cbn; rewrite Rinv_1, Rmult_1_l; replace (1 - (k * k - s * s)) with (2 * s * s) by lra;
  replace (k * k - s * s) with (k * k - s * s * (a * a + b * b + g * g)) by (rewrite U; ring); ring.
Qed.
