(** Proofs about the kinematics library. *)
From Coq Require Import Reals Bool Lra Lia Psatz.
From Verif Require Import VectorModel RkModel RkSpec.
Open Scope R_scope.

Lemma veq a b : vx a = vx b -> vy a = vy b -> vz a = vz b -> a = b.
Proof. destruct a, b; cbn; intros; subst; auto. Qed.
Ltac vcalc := apply veq; cbn; unfold vdot; cbn; ring.

Lemma lsq v : length_squared v = vdot v v.
Proof. reflexivity. Qed.
Lemma vdot_nonneg v : 0 <= vdot v v.
Proof. unfold vdot. pose proof (Rle_0_sqr (vx v)). pose proof (Rle_0_sqr (vy v)). pose proof (Rle_0_sqr (vz v)). unfold Rsqr in *. lra. Qed.
Lemma vdot_zero v : vdot v v = 0 -> v = mkv 0 0 0.
Proof.
  unfold vdot. intros H. pose proof (Rle_0_sqr (vx v)). pose proof (Rle_0_sqr (vy v)). pose proof (Rle_0_sqr (vz v)). unfold Rsqr in *.
  apply veq; cbn; apply Rsqr_0_uniq; unfold Rsqr; lra.
Qed.
Lemma vlength_sq v : vlength v * vlength v = vdot v v.
Proof. unfold vlength. rewrite lsq. apply sqrt_sqrt, vdot_nonneg. Qed.
Lemma vlength_nonneg v : 0 <= vlength v.
Proof. apply sqrt_pos. Qed.
Lemma vlength_unit v : vdot v v = 1 -> vlength v = 1.
Proof. unfold vlength. rewrite lsq. intros ->. apply sqrt_1. Qed.
Lemma vlength_pos v : v <> mkv 0 0 0 -> 0 < vlength v.
Proof.
  intros N. destruct (vlength_nonneg v) as [|E]; auto. exfalso. apply N, vdot_zero. rewrite <- vlength_sq, <- E. ring.
Qed.

(** Cauchy-Schwarz. *)
Lemma lagrange a b : vdot a a * vdot b b - vdot a b * vdot a b = vdot (vcross a b) (vcross a b).
Proof. unfold vdot; cbn; ring. Qed.
Lemma cauchy a b : vdot a b * vdot a b <= vdot a a * vdot b b.
Proof. pose proof (lagrange a b). pose proof (vdot_nonneg (vcross a b)). lra. Qed.
Lemma cauchy_unit n p : unit_vec n -> Rabs (vdot n p) <= vlength p.
Proof.
  intros U. unfold vlength. rewrite lsq. rewrite <- sqrt_Rsqr_abs. apply sqrt_le_1_alt. unfold Rsqr.
  pose proof (cauchy n p). rewrite U in H. lra.
Qed.
Lemma unit_dot_range a b : unit_vec a -> unit_vec b -> -1 <= vdot a b <= 1.
Proof.
  intros A B. pose proof (cauchy_unit a b A). rewrite (vlength_unit b B) in H. revert H. unfold Rabs. destruct (Rcase_abs _); lra.
Qed.

Lemma dist_sq a b : distance_squared a b = vdot a a + vdot b b - 2 * vdot a b.
Proof. unfold distance_squared, vdot; cbn; ring. Qed.

Lemma direction_unit v : unit_vec (direction v).
Proof.
  unfold direction. destruct (Rlt_dec 0 (vlength v)) as [H|H]; [|unfold unit_vec, vdot; cbn; ring].
  unfold unit_vec. pose proof (vlength_sq v) as E. set (l := vlength v) in *. clearbody l.
  unfold vdot in *. cbn. replace (_ + _ + _) with ((vx v * vx v + vy v * vy v + vz v * vz v) / (l * l)) by (field; lra).
  rewrite <- E. field. lra.
Qed.
Lemma direction_scale v : vscale (vlength v) (direction v) = v.
Proof.
  unfold direction. destruct (Rlt_dec 0 (vlength v)) as [H|H].
  - set (l := vlength v) in *; clearbody l. apply veq; cbn; field; lra.
  - assert (v = mkv 0 0 0).
    { apply vdot_zero. rewrite <- vlength_sq. pose proof (vlength_nonneg v). replace (vlength v) with 0 by lra. ring. }
    subst v. replace (vlength _) with 0; [vcalc|]. unfold vlength, length_squared; cbn. replace (_ + _ + _) with 0 by ring. now rewrite sqrt_0.
Qed.
Lemma direction_dot v : vdot (direction v) v = vlength v.
Proof.
  rewrite <- (direction_scale v) at 2. pose proof (direction_unit v) as U. unfold unit_vec in U.
  transitivity (vlength v * vdot (direction v) (direction v)); [unfold vdot; cbn; ring|rewrite U; ring].
Qed.

(** ** Rotations *)
Definition uq (q : rquat) : Prop := vdot (rv q) (rv q) + rs q * rs q = 1.

Lemma raw_dot q a b : vdot (rot_raw q a) (rot_raw q b) =
  (vdot (rv q) (rv q) + rs q * rs q) * (vdot (rv q) (rv q) + rs q * rs q) * vdot a b.
Proof. unfold rot_raw, rq_mul, rq_bar, vdot. cbn. unfold vdot; cbn. ring. Qed.
Lemma raw_cross q a b : vcross (rot_raw q a) (rot_raw q b) =
  vscale (vdot (rv q) (rv q) + rs q * rs q) (rot_raw q (vcross a b)).
Proof. unfold rot_raw, rq_mul, rq_bar. apply veq; cbn; unfold vdot; cbn; ring. Qed.
Lemma raw_add q a b : rot_raw q (vadd a b) = vadd (rot_raw q a) (rot_raw q b).
Proof. unfold rot_raw, rq_mul, rq_bar. apply veq; cbn; unfold vdot; cbn; ring. Qed.
Lemma raw_scale q k a : rot_raw q (vscale k a) = vscale k (rot_raw q a).
Proof. unfold rot_raw, rq_mul, rq_bar. apply veq; cbn; unfold vdot; cbn; ring. Qed.

Lemma rot_vec_raw q v : uq q -> rot_vec q v = rot_raw q v.
Proof.
  intros U. unfold rot_vec, set_length.
  assert (E : vlength (rot_raw q v) = vlength v).
  { unfold vlength. rewrite !lsq, raw_dot. unfold uq in U. rewrite U. f_equal. ring. }
  rewrite E. destruct (Rlt_dec 0 (vlength v)) as [H|H].
  - apply veq; cbn [vx vy vz]; field; lra.
  - assert (vlength v = 0) by (pose proof (vlength_nonneg v); lra).
    assert (v = mkv 0 0 0) by (apply vdot_zero; rewrite <- vlength_sq, H0; ring).
    rewrite H0. subst v. unfold rot_raw, rq_mul, rq_bar. apply veq; cbn; unfold vdot; cbn; ring.
Qed.
Lemma rot_proper q : uq q -> proper_rotation (rot_vec q).
Proof.
  intros U. split; intros; rewrite ?(rot_vec_raw q _ U).
  - apply raw_add.
  - apply raw_scale.
  - rewrite raw_dot. unfold uq in U. rewrite U. ring.
  - rewrite raw_cross. unfold uq in U. rewrite U. apply veq; cbn [vscale vx vy vz]; ring.
Qed.
Lemma uq_identity : uq rot_identity.
Proof. unfold uq, rot_identity, vdot; cbn; ring. Qed.
Lemma uq_axis n a : unit_vec n -> uq (rot_axis n a).
Proof.
  intros U. unfold uq, rot_axis. cbn [rv rs].
  transitivity (sin (a / 2) * sin (a / 2) * vdot n n + cos (a / 2) * cos (a / 2)); [unfold vdot; cbn; ring|].
  unfold unit_vec in U. rewrite U. pose proof (sin2_cos2 (a / 2)). unfold Rsqr in H. lra.
Qed.
Lemma normalize_eq q : let n := rq_norm q in 0 < vdot (rv q) (rv q) + rs q * rs q ->
  0 < n /\ n * n = vdot (rv q) (rv q) + rs q * rs q /\ rq_normalize q = mkrq (vscale (/ n) (rv q)) (/ n * rs q).
Proof.
  intros n H. assert (0 < n) by (unfold n, rq_norm; rewrite lsq; apply sqrt_lt_R0; auto).
  repeat split; auto.
  - unfold n, rq_norm. rewrite lsq. apply sqrt_sqrt. lra.
  - unfold rq_normalize. fold n. f_equal; [apply veq; cbn; unfold Rdiv; ring|unfold Rdiv; ring].
Qed.
Lemma uq_normalize q : 0 < vdot (rv q) (rv q) + rs q * rs q -> uq (rq_normalize q).
Proof.
  intros H. destruct (normalize_eq q H) as [P [S E]]. set (n := rq_norm q) in *. clearbody n. rewrite E. unfold uq. cbn [rv rs].
  transitivity (/ n * / n * (vdot (rv q) (rv q) + rs q * rs q)); [unfold vdot; cbn; ring|]. rewrite <- S. field. lra.
Qed.
Lemma raw_normalize q v : 0 < vdot (rv q) (rv q) + rs q * rs q ->
  rot_raw (rq_normalize q) v = vscale (/ (vdot (rv q) (rv q) + rs q * rs q)) (rot_raw q v).
Proof.
  intros H. destruct (normalize_eq q H) as [P [S E]]. set (n := rq_norm q) in *. clearbody n. rewrite E.
  transitivity (vscale (/ n * / n) (rot_raw q v)).
  - unfold rot_raw, rq_mul, rq_bar. apply veq; cbn; unfold vdot; cbn; ring.
  - rewrite <- S. apply veq; cbn [vscale vx vy vz]; field; lra.
Qed.
(** A half turn about a unit vector orthogonal to [v] takes [v] to its opposite. *)
Lemma half_turn n v : unit_vec n -> vdot n v = 0 -> rot_raw (mkrq n 0) v = vneg v.
Proof.
  intros U O. unfold unit_vec in U.
  assert (E : rot_raw (mkrq n 0) v = vsub (vscale (2 * vdot n v) n) (vscale (vdot n n) v)).
  { unfold rot_raw, rq_mul, rq_bar. apply veq; cbn; unfold vdot; cbn; ring. }
  rewrite E, O, U. vcalc.
Qed.
(** The general case. *)
Lemma general_turn a b : unit_vec a -> unit_vec b -> 0 < 1 + vdot a b ->
  let q := mkrq (vcross a b) (1 + vdot a b) in
  0 < vdot (rv q) (rv q) + rs q * rs q /\ rot_raw (rq_normalize q) a = b.
Proof.
  intros A B P q.
  assert (N : vdot (rv q) (rv q) + rs q * rs q = 2 * (1 + vdot a b)).
  { unfold q. cbn [rv rs]. pose proof (lagrange a b). unfold unit_vec in *. rewrite A, B in H. rewrite <- H. ring. }
  split; [rewrite N; lra|]. rewrite raw_normalize by (rewrite N; lra). rewrite N.
  assert (R : rot_raw q a = vscale (2 * (1 + vdot a b)) b).
  { assert (E : rot_raw q a = vadd (vadd (vscale ((1 + vdot a b) * (1 + vdot a b) - vdot (vcross a b) (vcross a b)) a)
       (vscale (2 * vdot (vcross a b) a) (vcross a b))) (vscale (2 * (1 + vdot a b)) (vcross (vcross a b) a))).
    { unfold q, rot_raw, rq_mul, rq_bar. apply veq; cbn; unfold vdot; cbn; ring. }
    rewrite E. rewrite <- lagrange. unfold unit_vec in A, B. rewrite A, B.
    assert (T : vcross (vcross a b) a = vsub (vscale (vdot a a) b) (vscale (vdot a b) a)) by vcalc.
    rewrite T, A. assert (Z : vdot (vcross a b) a = 0) by (unfold vdot; cbn; ring). rewrite Z.
    apply veq; cbn [vadd vsub vscale vx vy vz]; ring. }
  rewrite R. apply veq; cbn [vscale vx vy vz]; field; lra.
Qed.

Lemma cross_orth a b : vdot (vcross a b) a = 0.
Proof. unfold vdot; cbn; ring. Qed.
Lemma direction_orth a b : vdot b (vcross a b) = 0 \/ True -> vdot (direction (vcross a b)) a = 0 \/ vcross a b = mkv 0 0 0.
Proof.
  intros _. unfold direction. destruct (Rlt_dec 0 (vlength (vcross a b))) as [H|H].
  - left. pose proof (cross_orth a b) as O. set (l := vlength _) in *. clearbody l. unfold vdot in *. cbn [vdiv vx vy vz].
    transitivity ((vx (vcross a b) * vx a + vy (vcross a b) * vy a + vz (vcross a b) * vz a) / l); [field; lra|rewrite O; field; lra].
  - right. destruct (Req_EM_T (vlength (vcross a b)) 0) as [E|E].
    + apply vdot_zero. rewrite <- vlength_sq, E. ring.
    + pose proof (vlength_nonneg (vcross a b)). lra.
Qed.
(** The axis of the half turn is orthogonal to the vector, even if the helper is parallel. *)
Lemma half_axis v other : unit_vec v ->
  (other = z_axis \/ (other = x_axis /\ Rabs (vx v) < Rabs (vy v))) ->
  vdot (direction (vcross v other)) v = 0.
Proof.
  intros U C. destruct (direction_orth v other (or_intror I)) as [H|H]; auto.
  assert (F : vx (vcross v other) = 0 /\ vy (vcross v other) = 0 /\ vz (vcross v other) = 0) by (rewrite H; auto).
  destruct F as [F1 [F2 F3]]. destruct C as [->|[-> L]].
  - cbn in F1, F2, F3. rewrite H. unfold direction. replace (vlength _) with 0.
    + destruct (Rlt_dec 0 0) as [X|_]; [lra|]. unfold vdot. cbn. lra.
    + unfold vlength, length_squared. cbn. replace (_ + _ + _) with 0 by ring. now rewrite sqrt_0.
  - cbn in F1, F2, F3. exfalso. assert (vy v = 0) by lra. rewrite H0, Rabs_R0 in L. pose proof (Rabs_pos (vx v)). lra.
Qed.

Lemma rot_eps_pos : 0 < rot_eps < 1.
Proof. unfold rot_eps. split; [apply Rinv_0_lt_compat; lra|]. rewrite <- Rinv_1. apply Rinv_lt_contravar; lra. Qed.

Lemma rb_unit o a b : unit_vec a -> unit_vec b -> uq (rotation_between o a b).
Proof.
  intros A B. unfold rotation_between. destruct (Rlt_dec _ _) as [H|H]; [apply uq_identity|].
  destruct (Rlt_dec (c_abs o (1 + _)) _) as [K|K].
  - apply uq_normalize. cbn [rv rs]. rewrite (direction_unit _). lra.
  - pose proof (unit_dot_range a b A B) as [L R]. destruct L as [L|L].
    + apply uq_normalize. exact (proj1 (general_turn a b A B ltac:(lra))).
    + exfalso. apply K. rewrite <- L. pose proof rot_eps_pos. replace (1 + -1) with 0 by ring.
      destruct o; cbn [c_abs]; rewrite Rabs_R0; [lra|]. unfold Int_part. 
      assert (E : up 0 = 1%Z) by (symmetry; apply tech_up; cbn; lra). rewrite E. cbn. lra.
Qed.

Lemma id_raw v : rot_raw rot_identity v = v.
Proof. unfold rot_raw, rq_mul, rq_bar, rot_identity. apply veq; cbn; unfold vdot; cbn; ring. Qed.

Lemma rb_half a other : unit_vec a ->
  (other = z_axis \/ (other = x_axis /\ Rabs (vx a) < Rabs (vy a))) ->
  rot_raw (rq_normalize (mkrq (direction (vcross a other)) 0)) a = vneg a.
Proof.
  intros A C. pose proof (direction_unit (vcross a other)) as U.
  rewrite raw_normalize by (cbn [rv rs]; rewrite U; lra). cbn [rv rs].
  rewrite (half_turn _ _ U (half_axis a other A C)). unfold unit_vec in U. rewrite U.
  apply veq; cbn [vscale vneg vx vy vz]; field.
Qed.

Lemma rb_cases a b : unit_vec a -> unit_vec b ->
  let r := rot_vec (rotation_between AbsDouble a b) a in
  (1 - vdot a b < rot_eps /\ r = a) \/ (1 + vdot a b < rot_eps /\ r = vneg a) \/
  (rot_eps <= 1 - vdot a b /\ rot_eps <= 1 + vdot a b /\ r = b).
Proof.
  intros A B r. unfold r. clear r. rewrite rot_vec_raw by (apply rb_unit; auto).
  pose proof (unit_dot_range a b A B) as [L R]. unfold rotation_between. cbn [c_abs].
  rewrite !Rabs_right by lra. destruct (Rlt_dec (1 - vdot a b) rot_eps) as [H|H].
  - left. split; auto. apply id_raw.
  - destruct (Rlt_dec (1 + vdot a b) rot_eps) as [K|K].
    + right; left. split; auto. apply rb_half; auto.
      destruct (Rlt_dec (Rabs (vx a)) (Rabs (vy a))) as [X|X].
      * destruct (Rlt_dec (Rabs (vx a)) (Rabs (vz a))); auto.
      * left. destruct (Rlt_dec _ _); auto.
    + right; right. repeat split; try lra. exact (proj2 (general_turn a b A B ltac:(pose proof rot_eps_pos; lra))).
Qed.
Lemma rb_exact a b : unit_vec a -> unit_vec b ->
  (a = b \/ a = vneg b \/ (rot_eps <= 1 - vdot a b /\ rot_eps <= 1 + vdot a b)) ->
  rot_vec (rotation_between AbsDouble a b) a = b.
Proof.
  intros A B C. pose proof rot_eps_pos. destruct (rb_cases a b A B) as [[H1 H2]|[[H1 H2]|[_ [_ H2]]]]; auto; rewrite H2.
  - destruct C as [C|[C|C]]; auto; [|lra]. exfalso. subst a. unfold unit_vec in B.
    replace (vdot (vneg b) b) with (- vdot b b) in H1 by (unfold vdot; cbn; ring). lra.
  - destruct C as [C|[C|C]]; [|subst a; vcalc|lra]. exfalso. subst a. unfold unit_vec in B. lra.
Qed.
Lemma rb_near a b : unit_vec a -> unit_vec b ->
  distance_squared (rot_vec (rotation_between AbsDouble a b) a) b < 2 * rot_eps.
Proof.
  intros A B. pose proof rot_eps_pos. rewrite dist_sq. unfold unit_vec in *.
  destruct (rb_cases a b A B) as [[H1 H2]|[[H1 H2]|[_ [_ H2]]]]; rewrite H2.
  - lra.
  - replace (vdot (vneg a) (vneg a)) with (vdot a a) by (unfold vdot; cbn; ring).
    replace (vdot (vneg a) b) with (- vdot a b) by (unfold vdot; cbn; ring). lra.
  - lra.
Qed.

(** ** Boosts *)
Lemma boost_space b n g s a : is_boost b n g s -> pp (p4_boost b a) = lorentz_space n g s (pe a) (pp a).
Proof.
  intros [D [C [S _]]]. unfold p4_boost, lorentz_space. cbn [pp]. rewrite D, S. replace (bc b) with (g - 1) by lra.
  generalize (vdot n (pp a)). intros k. vcalc.
Qed.
(** The time component is positive. *)
Lemma lorentz_time_nonneg b n g s a : is_boost b n g s -> on_shell a -> 0 <= lorentz_time n g s (pe a) (pp a).
Proof.
  intros [_ [_ [_ [U [G S]]]]] [M [P E]]. unfold lorentz_time.
  assert (L : vlength (pp a) <= pe a).
  { apply Rsqr_incr_0_var; auto. unfold Rsqr. rewrite vlength_sq, E. pose proof (Rle_0_sqr (pm a)). unfold Rsqr in H. lra. }
  pose proof (cauchy_unit n (pp a) U) as C. assert (s * vdot n (pp a) <= Rabs s * vlength (pp a)).
  { apply Rle_trans with (Rabs (s * vdot n (pp a))); [apply Rle_abs|]. rewrite Rabs_mult. apply Rmult_le_compat_l; [apply Rabs_pos|auto]. }
  assert (Rabs s <= g).
  { apply Rsqr_incr_0_var; [|lra]. rewrite <- Rsqr_abs. unfold Rsqr. lra. }
  pose proof (vlength_nonneg (pp a)). pose proof (Rabs_pos s).
  assert (Rabs s * vlength (pp a) <= g * pe a) by (apply Rmult_le_compat; auto). lra.
Qed.
(** Products of two transformed four-vectors. *)
Lemma lorentz_dot n g s e p e' p' : unit_vec n -> g * g = 1 + s * s ->
  lorentz_time n g s e p * lorentz_time n g s e' p' - vdot (lorentz_space n g s e p) (lorentz_space n g s e' p') = e * e' - vdot p p'.
Proof.
  intros U S. unfold lorentz_time, lorentz_space. unfold unit_vec in U.
  set (a := vdot n p). set (b := vdot n p').
  assert (X : vdot (vadd (vsub p (vscale a n)) (vscale (g * a - s * e) n)) (vadd (vsub p' (vscale b n)) (vscale (g * b - s * e') n)) =
    vdot p p' + (g * b - s * e' - b) * a + (g * a - s * e - a) * b + (g * a - s * e - a) * (g * b - s * e' - b) * vdot n n).
  { unfold a, b, vdot; cbn; ring. }
  rewrite X, U. replace ((g * e - s * a) * (g * e' - s * b)) with (g * g * (e * e') - g * s * (e * b) - g * s * (a * e') + s * s * (a * b)) by ring.
  replace ((g * a - s * e - a) * (g * b - s * e' - b) * 1) with
    (g * g * (a * b) - g * s * (a * e') - g * (a * b) - g * s * (e * b) + s * s * (e * e') + s * (e * b) - g * (a * b) + s * (a * e') + a * b) by ring.
  rewrite S. ring.
Qed.
Lemma boost_time b n g s a : is_boost b n g s -> on_shell a -> pe (p4_boost b a) = lorentz_time n g s (pe a) (pp a).
Proof.
  intros B S. pose proof (lorentz_time_nonneg b n g s a B S) as T. pose proof (boost_space b n g s a B) as Sp.
  pose proof B as [_ [_ [_ [U [G Q]]]]]. pose proof S as [M [P E]].
  transitivity (sqrt (pm a * pm a + length_squared (pp (p4_boost b a))) * (if Rlt_dec (pe a) 0 then - (1) else 1)); [reflexivity|].
  destruct (Rlt_dec (pe a) 0) as [X|_]; [lra|]. rewrite lsq, Sp, Rmult_1_r.
  apply sqrt_lem_1; auto.
  - pose proof (vdot_nonneg (lorentz_space n g s (pe a) (pp a))). pose proof (Rle_0_sqr (pm a)). unfold Rsqr in H0. lra.
  - pose proof (lorentz_dot n g s (pe a) (pp a) (pe a) (pp a) U Q). lra.
Qed.
Lemma boost_shell b n g s a : is_boost b n g s -> on_shell a -> on_shell (p4_boost b a) /\ pm (p4_boost b a) = pm a.
Proof.
  intros B S. split; [|reflexivity]. pose proof S as [M [P E]]. pose proof B as [_ [_ [_ [U [G Q]]]]].
  split; [exact M|]. split.
  - rewrite (boost_time b n g s a B S). apply (lorentz_time_nonneg b); auto.
  - rewrite (boost_time b n g s a B S), (boost_space b n g s a B). cbn [pm p4_boost].
    pose proof (lorentz_dot n g s (pe a) (pp a) (pe a) (pp a) U Q). lra.
Qed.
Lemma boost_dot b n g s a a' : is_boost b n g s -> on_shell a -> on_shell a' ->
  p4_dot (p4_boost b a) (p4_boost b a') = p4_dot a a'.
Proof.
  intros B S S'. pose proof B as [_ [_ [_ [U [G Q]]]]]. unfold p4_dot.
  rewrite !(boost_time b n g s) by auto. rewrite !(boost_space b n g s) by auto. apply lorentz_dot; auto.
Qed.
Lemma boost_mul_eq b a : boost_mul b a = p4_boost b a.
Proof.
  unfold boost_mul, p4_boost. 
  replace (vadd (vscale (bc b * vdot (bdir b) (pp a) - pe a * bs b) (bdir b)) (pp a))
    with (vadd (pp a) (vscale (bc b * vdot (bdir b) (pp a) - pe a * bs b) (bdir b))) by (apply veq; cbn; ring).
  reflexivity.
Qed.

Lemma ensure_pos a : 0 < pm a -> ensure_mass a = Some (pm a).
Proof. intros H. unfold ensure_mass. destruct (Rle_dec (pm a) 0); auto; lra. Qed.
Lemma shell_factor a : on_shell a -> 0 < pm a -> 1 <= pe a / pm a /\
  (pe a / pm a) * (pe a / pm a) = 1 + (vlength (pp a) / pm a) * (vlength (pp a) / pm a).
Proof.
  intros [M [P E]] H. assert (pm a <= pe a).
  { apply Rsqr_incr_0_var; auto. unfold Rsqr. pose proof (vdot_nonneg (pp a)). lra. }
  split.
  - apply Rmult_le_reg_r with (pm a); auto. replace (pe a / pm a * pm a) with (pe a) by (field; lra). lra.
  - replace (pe a / pm a * (pe a / pm a)) with ((pe a * pe a) / (pm a * pm a)) by (field; lra). rewrite E, <- vlength_sq. field. lra.
Qed.
Lemma rest_is a : on_shell a -> 0 < pm a -> exists b, rest_boost a = Some b /\
  is_boost b (direction (pp a)) (pe a / pm a) (vlength (pp a) / pm a).
Proof.
  intros S H. unfold rest_boost. rewrite (ensure_pos a H). eexists; split; [reflexivity|].
  destruct (shell_factor a S H). unfold boost_of. repeat split; cbn; auto; [ring|apply direction_unit].
Qed.
Lemma lab_is a : on_shell a -> 0 < pm a -> exists b, lab_boost a = Some b /\
  is_boost b (direction (pp a)) (pe a / pm a) (- (vlength (pp a) / pm a)).
Proof.
  intros S H. unfold lab_boost. rewrite (ensure_pos a H). eexists; split; [reflexivity|].
  destruct (shell_factor a S H). unfold boost_of. repeat split; cbn; auto; [ring|unfold Rdiv; ring|apply direction_unit|].
  rewrite H1. ring.
Qed.
Lemma rest_of_self a b : on_shell a -> 0 < pm a -> rest_boost a = Some b ->
  p4_boost b a = mkp4 (pm a) (mkv 0 0 0) (pm a).
Proof.
  intros S H E. destruct (rest_is a S H) as [b' [E' B]]. rewrite E in E'. injection E' as <-.
  pose proof (boost_time b _ _ _ a B S) as T. pose proof (boost_space b _ _ _ a B) as Sp.
  assert (T' : pe (p4_boost b a) = pm a).
  { rewrite T. unfold lorentz_time. rewrite direction_dot. destruct S as [_ [_ S]]. rewrite <- vlength_sq in S.
    replace (pe a / pm a * pe a) with ((pe a * pe a) / pm a) by (field; lra). rewrite S. field. lra. }
  assert (Sp' : pp (p4_boost b a) = mkv 0 0 0).
  { rewrite Sp. unfold lorentz_space. rewrite direction_dot. rewrite direction_scale.
    replace (pe a / pm a * vlength (pp a) - vlength (pp a) / pm a * pe a) with 0 by (field; lra). vcalc. }
  destruct (p4_boost b a) as [e p m] eqn:Q. cbn in T', Sp'. subst. f_equal. change m with (pm (mkp4 (pm a) (mkv 0 0 0) m)). rewrite <- Q. reflexivity.
Qed.
(** A boost and the opposite one. *)
Lemma lorentz_inverse n g s e p : unit_vec n -> g * g = 1 + s * s ->
  lorentz_time n g (- s) (lorentz_time n g s e p) (lorentz_space n g s e p) = e /\
  lorentz_space n g (- s) (lorentz_time n g s e p) (lorentz_space n g s e p) = p.
Proof.
  intros U S. unfold unit_vec in U.
  assert (D : vdot n (lorentz_space n g s e p) = g * vdot n p - s * e).
  { unfold lorentz_space. transitivity (vdot n p - vdot n p * vdot n n + (g * vdot n p - s * e) * vdot n n); [unfold vdot; cbn; ring|rewrite U; ring]. }
  split.
  - unfold lorentz_time at 1. rewrite D. unfold lorentz_time.
    replace (g * (g * e - s * vdot n p) - - s * (g * vdot n p - s * e)) with (g * g * e - s * s * e) by ring. rewrite S. ring.
  - unfold lorentz_space at 1. rewrite D. unfold lorentz_time.
    replace (g * (g * vdot n p - s * e) - - s * (g * e - s * vdot n p)) with (g * g * vdot n p - s * s * vdot n p) by ring. rewrite S.
    unfold lorentz_space. generalize (vdot n p). intros k. vcalc.
Qed.
Lemma boost_cancel b b' n g s a : is_boost b n g s -> is_boost b' n g (- s) -> on_shell a -> p4_boost b' (p4_boost b a) = a.
Proof.
  intros B B' S. pose proof B as [_ [_ [_ [U [G Q]]]]]. destruct (boost_shell b n g s a B S) as [S' M].
  destruct (lorentz_inverse n g s (pe a) (pp a) U Q) as [I1 I2].
  pose proof (boost_time b' n g (- s) _ B' S') as T. pose proof (boost_space b' n g (- s) (p4_boost b a) B') as P.
  rewrite (boost_time b n g s a B S), (boost_space b n g s a B) in T, P. rewrite I1 in T. rewrite I2 in P.
  destruct (boost_shell b' n g (- s) _ B' S') as [_ M']. destruct (p4_boost b' (p4_boost b a)) as [e p m]. cbn in T, P, M'. destruct a; cbn in *. congruence.
Qed.
Lemma p4_of_shell p m : 0 <= m -> on_shell (p4_of p m).
Proof.
  intros H. unfold on_shell, p4_of; cbn [pm pe pp]. split; auto. split; [apply sqrt_pos|]. rewrite lsq. apply sqrt_sqrt.
  pose proof (vdot_nonneg p). pose proof (Rle_0_sqr m). unfold Rsqr in *. lra.
Qed.
Lemma velocity_boost v : vdot v v < 1 -> is_boost (boost_of_velocity v) (direction v) (/ sqrt (1 - vdot v v)) (vlength v * / sqrt (1 - vdot v v)).
Proof.
  intros H. unfold boost_of_velocity. pose proof (vlength_sq v) as L.
  assert (P : 0 < sqrt (1 - vdot v v)) by (apply sqrt_lt_R0; lra).
  assert (Q : sqrt (1 - vdot v v) * sqrt (1 - vdot v v) = 1 - vdot v v) by (apply sqrt_sqrt; lra).
  rewrite L. repeat split; cbn; [unfold Rdiv; ring|unfold Rdiv; ring|apply direction_unit| |].
  - rewrite <- Rinv_1 at 1. apply Rinv_le_contravar; auto.
    apply Rle_trans with (sqrt 1); [apply sqrt_le_1_alt; pose proof (vdot_nonneg v); lra|rewrite sqrt_1; lra].
  - set (r := sqrt (1 - vdot v v)) in *. clearbody r. replace (/ r * / r) with (/ (r * r)) by (field; lra).
    replace (1 + vlength v * / r * (vlength v * / r)) with ((r * r + vlength v * vlength v) / (r * r)) by (field; lra). rewrite L, Q. field. lra.
Qed.
