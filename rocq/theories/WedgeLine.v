(** A line and a range of azimuths. *)
From Coq Require Import Reals ZArith List Bool Lra Lia Permutation Sorted.
From Verif Require Import VectorModel GeometryModel GeometrySpec EulerModel SolidModel SolidSpec SolidProofs WedgeModel WedgeSpec WedgeProofs.
Import ListNotations.
Open Scope R_scope.

(** ** Straight lines and signs *)
Lemma up_sides a b t : a + t * b = 0 -> b <> 0 ->
  sides (fun u => 0 <= a + u * b) t (negb (if Rlt_dec 0 b then true else false)) (if Rlt_dec 0 b then true else false).
Proof.
  intros Z N. exists 1. split; [lra|]. destruct (Rlt_dec 0 b) as [L|L]; cbn; split; intros u U; split; auto; try discriminate; intros; nra.
Qed.
Lemma down_sides a b t : a + t * b = 0 -> b <> 0 ->
  sides (fun u => a + u * b <= 0) t (negb (if Rlt_dec b 0 then true else false)) (if Rlt_dec b 0 then true else false).
Proof.
  intros Z N. exists 1. split; [lra|]. destruct (Rlt_dec b 0) as [L|L]; cbn; split; intros u U; split; auto; try discriminate; intros; nra.
Qed.
Lemma lin_near a b t : a + t * b <> 0 -> exists e, 0 < e /\ forall u, t - e < u < t + e ->
  (0 < a + t * b -> 0 < a + u * b) /\ (a + t * b < 0 -> a + u * b < 0).
Proof.
  intros N. assert (0 < Rabs (a + t * b)) as P by now apply Rabs_pos_lt. pose proof (Rabs_pos b) as B.
  exists (Rabs (a + t * b) / (Rabs b + 1)). split; [apply Rdiv_lt_0_compat; lra|]. intros u U.
  set (e := Rabs (a + t * b) / (Rabs b + 1)) in *.
  assert (e * (Rabs b + 1) = Rabs (a + t * b)) as E by (unfold e; field; lra). clearbody e.
  assert (Rabs ((u - t) * b) < Rabs (a + t * b)) as M.
  { rewrite Rabs_mult. assert (Rabs (u - t) < e) by (apply Rabs_def1; lra). pose proof (Rabs_pos (u - t)).
    apply Rle_lt_trans with (e * Rabs b); [apply Rmult_le_compat_r; lra|]. nra. }
  assert (a + u * b = (a + t * b) + (u - t) * b) as -> by ring. revert M. generalize ((u - t) * b) (a + t * b). clear.
  intros x y M. split; intros H; [rewrite (Rabs_right y) in M by lra|rewrite (Rabs_left y) in M by lra]; apply Rabs_def2 in M; lra.
Qed.
Lemma up_steady a b t : a + t * b <> 0 -> steady (fun u => 0 <= a + u * b) t (if Rlt_dec 0 (a + t * b) then true else false).
Proof.
  intros N. destruct (lin_near a b t N) as (e & E & H). exists e. split; auto. intros u U. destruct (H u U) as [A B].
  destruct (Rlt_dec 0 (a + t * b)) as [L|L]; split; auto; try discriminate; intros X; [specialize (A L); lra|]. specialize (B ltac:(lra)). lra.
Qed.
Lemma down_steady a b t : a + t * b <> 0 -> steady (fun u => a + u * b <= 0) t (if Rlt_dec (a + t * b) 0 then true else false).
Proof.
  intros N. destruct (lin_near a b t N) as (e & E & H). exists e. split; auto. intros u U. destruct (H u U) as [A B].
  destruct (Rlt_dec (a + t * b) 0) as [L|L]; split; auto; try discriminate; intros X; [specialize (B L); lra|]. specialize (A ltac:(lra)). lra.
Qed.

Section Line.
Context (start delta : R) (p d : vec) (D : 0 < delta < two_pi) (K : clear_wedge start delta p d).
Let a0 := across start (vx p) (vy p).
Let b0 := across start (vx d) (vy d).
Let a1 := across (start + delta) (vx p) (vy p).
Let b1 := across (start + delta) (vx d) (vy d).
Let c0 t := along start (vx (on_line p d t)) (vy (on_line p d t)).
Let c1 t := along (start + delta) (vx (on_line p d t)) (vy (on_line p d t)).
Definition wedge_at t := in_wedge start delta (vx (on_line p d t)) (vy (on_line p d t)).

Lemma across_line a t : across a (vx (on_line p d t)) (vy (on_line p d t)) = across a (vx p) (vy p) + t * across a (vx d) (vy d).
Proof. unfold across. cbn. ring. Qed.

Lemma slope0 : b0 <> 0.
Proof. intros E. pose proof (cw_slope _ _ _ _ K start (or_introl eq_refl)) as H. fold b0 in H. rewrite E, Rabs_R0 in H. unfold precision in H. lra. Qed.
Lemma slope1 : b1 <> 0.
Proof. intros E. pose proof (cw_slope _ _ _ _ K (start + delta) (or_intror eq_refl)) as H. fold b1 in H. rewrite E, Rabs_R0 in H. unfold precision in H. lra. Qed.

Lemma axis0 t : a0 + t * b0 = 0 -> 10 ^ 3 * precision < Rabs (c0 t).
Proof. intros H. apply (cw_axis _ _ _ _ K start t (or_introl eq_refl)). rewrite across_line. exact H. Qed.
Lemma axis1 t : a1 + t * b1 = 0 -> 10 ^ 3 * precision < Rabs (c1 t).
Proof. intros H. apply (cw_axis _ _ _ _ K (start + delta) t (or_intror eq_refl)). rewrite across_line. exact H. Qed.
Lemma axis_pos t : 10 ^ 3 * precision < Rabs t -> t <> 0.
Proof. intros H ->. rewrite Rabs_R0 in H. unfold precision in H. lra. Qed.

(** A point on the first line is [c0] along it; its distance from the other follows. *)
Lemma vec_of a x y : x = along a x y * cos a - across a x y * sin a /\ y = along a x y * sin a + across a x y * cos a.
Proof.
  unfold along, across. pose proof (sin2_cos2 a) as S. unfold Rsqr in S. split.
  - replace x with (x * (sin a * sin a + cos a * cos a)) at 1 by (rewrite S; ring). ring.
  - replace y with (y * (sin a * sin a + cos a * cos a)) at 1 by (rewrite S; ring). ring.
Qed.
Lemma other0 t : a0 + t * b0 = 0 -> a1 + t * b1 = - (c0 t * sin delta).
Proof.
  intros Z. unfold a1, b1. rewrite <- (across_line (start + delta) t). unfold c0.
  pose proof (across_line start t) as Z'. fold a0 b0 in Z'. rewrite Z in Z'.
  destruct (vec_of start (vx (on_line p d t)) (vy (on_line p d t))) as [X Y]. rewrite Z' in X, Y.
  set (c := along start (vx (on_line p d t)) (vy (on_line p d t))) in *. unfold across. rewrite X, Y, sin_plus, cos_plus.
  replace (c * sin delta) with (c * sin delta * 1) by ring. rewrite <- (sin2_cos2 start). unfold Rsqr. ring.
Qed.
Lemma other1 t : a1 + t * b1 = 0 -> a0 + t * b0 = c1 t * sin delta.
Proof.
  intros Z. unfold a0, b0. rewrite <- (across_line start t). unfold c1.
  pose proof (across_line (start + delta) t) as Z'. fold a1 b1 in Z'. rewrite Z in Z'.
  destruct (vec_of (start + delta) (vx (on_line p d t)) (vy (on_line p d t))) as [X Y]. rewrite Z' in X, Y.
  set (c := along (start + delta) (vx (on_line p d t)) (vy (on_line p d t))) in *. unfold across. rewrite X, Y.
  assert (sin delta = sin (start + delta) * cos start - cos (start + delta) * sin start) as E by (rewrite <- sin_minus; f_equal; ring).
  rewrite E. ring.
Qed.

Lemma off_axis t : ~ (vx (on_line p d t) = 0 /\ vy (on_line p d t) = 0).
Proof.
  intros [X Y]. assert (a0 + t * b0 = 0) as Z by (unfold a0, b0; rewrite <- across_line, X, Y; unfold across; ring).
  apply axis0 in Z. apply axis_pos in Z. apply Z. unfold c0, along. rewrite X, Y. ring.
Qed.

Lemma wedge_line t : wedge_at t <-> sector delta (a0 + t * b0) (a1 + t * b1).
Proof. unfold wedge_at. rewrite wedge_sector by (auto using off_axis). rewrite !across_line. reflexivity. Qed.

Definition wedge_switch (t : R) (e : bool) : Prop :=
  (a0 + t * b0 = 0 /\ 0 < c0 t /\ e = (if Rlt_dec 0 b0 then true else false)) \/
  (a1 + t * b1 = 0 /\ 0 < c1 t /\ e = (if Rlt_dec b1 0 then true else false)).

Lemma half : delta = PI -> (forall t, a1 + t * b1 = - (a0 + t * b0)) /\ (forall t, c1 t = - c0 t) /\ b1 = - b0.
Proof.
  intros E. unfold a1, b1, a0, b0, c1, c0, across, along. rewrite E, neg_sin, neg_cos. repeat split; intros; ring.
Qed.

Lemma wedge_switched : switched wedge_at wedge_switch.
Proof.
  pose proof slope0 as N0. pose proof slope1 as N1. pose proof PI_RGT_0 as PP.
  destruct (sin_sign delta) as (_ & S2 & _ & S4 & _).
  destruct (Rtotal_order delta PI) as [C|[C|C]].
  - assert (W : forall t, (0 <= a0 + t * b0 /\ a1 + t * b1 <= 0) <-> wedge_at t).
    { intros t. rewrite wedge_line. unfold sector. split; [intros H; split; [auto|split; intros; lra]|intros (H & _); auto]. }
    specialize (S2 ltac:(lra)). split.
    + intros t e [(Z & P & ->)|(Z & P & ->)]; apply (sides_ext _ _ _ _ _ W).
      * pose proof (other0 t Z) as O. assert (a1 + t * b1 < 0) as L by nra.
        pose proof (down_steady a1 b1 t ltac:(lra)) as Q. destruct (Rlt_dec (a1 + t * b1) 0) as [_|]; [|contradiction].
        pose proof (sides_and _ _ _ _ _ _ _ (up_sides a0 b0 t Z N0) (steady_sides _ _ _ Q)) as H. now rewrite !andb_true_r in H.
      * pose proof (other1 t Z) as O. assert (0 < a0 + t * b0) as L by nra.
        pose proof (up_steady a0 b0 t ltac:(lra)) as Q. destruct (Rlt_dec 0 (a0 + t * b0)) as [_|]; [|contradiction].
        exact (sides_and _ _ _ _ _ _ _ (steady_sides _ _ _ Q) (down_sides a1 b1 t Z N1)).
    + intros t N. destruct (Req_EM_T (a0 + t * b0) 0) as [Z|Z]; [|destruct (Req_EM_T (a1 + t * b1) 0) as [Z1|Z1]].
      * exists false. apply (steady_ext _ _ _ _ W). apply steady_none_r. pose proof (axis_pos _ (axis0 t Z)) as A.
        assert (c0 t < 0) as L. { destruct (Rtotal_order (c0 t) 0) as [L|[L|L]]; [assumption|contradiction|]. exfalso. apply (N (if Rlt_dec 0 b0 then true else false)). left. auto. }
        pose proof (other0 t Z) as O. assert (0 < a1 + t * b1) as L' by nra.
        pose proof (down_steady a1 b1 t ltac:(lra)) as Q. destruct (Rlt_dec (a1 + t * b1) 0) as [|_]; [lra|exact Q].
      * exists false. apply (steady_ext _ _ _ _ W). apply steady_none_l. pose proof (axis_pos _ (axis1 t Z1)) as A.
        assert (c1 t < 0) as L. { destruct (Rtotal_order (c1 t) 0) as [L|[L|L]]; [assumption|contradiction|]. exfalso. apply (N (if Rlt_dec b1 0 then true else false)). right. auto. }
        pose proof (other1 t Z1) as O. assert (a0 + t * b0 < 0) as L' by nra.
        pose proof (up_steady a0 b0 t ltac:(lra)) as Q. destruct (Rlt_dec 0 (a0 + t * b0)) as [|_]; [lra|exact Q].
      * eexists. apply (steady_ext _ _ _ _ W). apply steady_and; [now apply up_steady|now apply down_steady].
  - destruct (half C) as (A & B & B').
    assert (W : forall t, 0 <= a0 + t * b0 <-> wedge_at t).
    { intros t. rewrite wedge_line. unfold sector. split; [intros H; split; [intros; lra|split; [auto|intros; lra]]|intros (_ & H & _); auto]. }
    split.
    + intros t e [(Z & P & ->)|(Z & P & ->)]; apply (sides_ext _ _ _ _ _ W); [now apply up_sides|].
      rewrite A in Z. assert (a0 + t * b0 = 0) as Z' by lra. pose proof (up_sides a0 b0 t Z' N0) as H.
      rewrite B'. destruct (Rlt_dec 0 b0), (Rlt_dec (- b0) 0); try lra; exact H.
    + intros t N. destruct (Req_EM_T (a0 + t * b0) 0) as [Z|Z]; [exfalso|eexists; apply (steady_ext _ _ _ _ W); now apply up_steady].
      pose proof (axis_pos _ (axis0 t Z)) as Q. destruct (Rtotal_order (c0 t) 0) as [L|[L|L]]; [|contradiction|].
      * apply (N (if Rlt_dec b1 0 then true else false)). right. rewrite A, B. repeat split; lra.
      * apply (N (if Rlt_dec 0 b0 then true else false)). left. auto.
  - assert (W : forall t, (~ (~ 0 <= a0 + t * b0 /\ ~ a1 + t * b1 <= 0)) <-> wedge_at t).
    { intros t. rewrite wedge_line. unfold sector. split.
      - intros H. split; [intros; lra|split; [intros; lra|]]. intros _. destruct (Rle_dec 0 (a0 + t * b0)); auto. destruct (Rle_dec (a1 + t * b1) 0); auto. tauto.
      - intros (_ & _ & H) [X Y]. destruct (H C); auto. }
    specialize (S4 ltac:(lra)). split.
    + intros t e [(Z & P & ->)|(Z & P & ->)]; apply (sides_ext _ _ _ _ _ W).
      * pose proof (other0 t Z) as O. assert (0 < a1 + t * b1) as L by nra.
        pose proof (down_steady a1 b1 t ltac:(lra)) as Q. destruct (Rlt_dec (a1 + t * b1) 0) as [|_]; [lra|].
        pose proof (sides_not _ _ _ _ (sides_and _ _ _ _ _ _ _ (sides_not _ _ _ _ (up_sides a0 b0 t Z N0)) (steady_sides _ _ _ (steady_not _ _ _ Q)))) as H.
        cbn [negb] in H. now rewrite !andb_true_r, !negb_involutive in H.
      * pose proof (other1 t Z) as O. assert (a0 + t * b0 < 0) as L by nra.
        pose proof (up_steady a0 b0 t ltac:(lra)) as Q. destruct (Rlt_dec 0 (a0 + t * b0)) as [|_]; [lra|].
        pose proof (sides_not _ _ _ _ (sides_and _ _ _ _ _ _ _ (steady_sides _ _ _ (steady_not _ _ _ Q)) (sides_not _ _ _ _ (down_sides a1 b1 t Z N1)))) as H.
        cbn [negb andb] in H. now rewrite !negb_involutive in H.
    + intros t N. destruct (Req_EM_T (a0 + t * b0) 0) as [Z|Z]; [|destruct (Req_EM_T (a1 + t * b1) 0) as [Z1|Z1]].
      * exists (negb false). apply (steady_ext _ _ _ _ W). apply steady_not, steady_none_r. pose proof (axis_pos _ (axis0 t Z)) as A.
        assert (c0 t < 0) as L. { destruct (Rtotal_order (c0 t) 0) as [L|[L|L]]; [assumption|contradiction|]. exfalso. apply (N (if Rlt_dec 0 b0 then true else false)). left. auto. }
        pose proof (other0 t Z) as O. assert (a1 + t * b1 < 0) as L' by nra.
        pose proof (down_steady a1 b1 t ltac:(lra)) as Q. destruct (Rlt_dec (a1 + t * b1) 0) as [_|]; [exact (steady_not _ _ _ Q)|lra].
      * exists (negb false). apply (steady_ext _ _ _ _ W). apply steady_not, steady_none_l. pose proof (axis_pos _ (axis1 t Z1)) as A.
        assert (c1 t < 0) as L. { destruct (Rtotal_order (c1 t) 0) as [L|[L|L]]; [assumption|contradiction|]. exfalso. apply (N (if Rlt_dec b1 0 then true else false)). right. auto. }
        pose proof (other1 t Z1) as O. assert (0 < a0 + t * b0) as L' by nra.
        pose proof (up_steady a0 b0 t ltac:(lra)) as Q. destruct (Rlt_dec 0 (a0 + t * b0)) as [_|]; [exact (steady_not _ _ _ Q)|lra].
      * eexists. apply (steady_ext _ _ _ _ W). apply steady_not, steady_and; apply steady_not; [now apply up_steady|now apply down_steady].
Qed.

(** Far behind, the direction backwards decides. *)
Lemma lin_far a b : b <> 0 -> exists m, forall t, t < m -> (0 < - b -> 0 < a + t * b) /\ (- b < 0 -> a + t * b < 0).
Proof.
  intros N. exists (- (Rabs a / Rabs b)). intros t T. assert (0 < Rabs b) as B by now apply Rabs_pos_lt.
  assert (Rabs a / Rabs b * Rabs b = Rabs a) as E by (field; lra). set (q := Rabs a / Rabs b) in *. clearbody q.
  pose proof (RRle_abs a) as H0. pose proof (Rle_abs (- a)) as H'. rewrite Rabs_Ropp in H'.
  split; intros Q; [rewrite (Rabs_left b) in * by lra|rewrite (Rabs_right b) in * by lra]; nra.
Qed.

Lemma backwards : exists m, forall t, t < m -> (wedge_at t <-> in_wedge start delta (- vx d) (- vy d)).
Proof.
  destruct (lin_far a0 b0 slope0) as [m0 M0]. destruct (lin_far a1 b1 slope1) as [m1 M1]. pose proof slope0 as N0. pose proof slope1 as N1.
  exists (Rmin m0 m1). intros t T. pose proof (Rmin_l m0 m1). pose proof (Rmin_r m0 m1).
  destruct (M0 t ltac:(lra)) as [A A']. destruct (M1 t ltac:(lra)) as [B B'].
  rewrite wedge_line, wedge_sector; auto.
  - replace (across start (- vx d) (- vy d)) with (- b0) by (unfold b0, across; ring).
    replace (across (start + delta) (- vx d) (- vy d)) with (- b1) by (unfold b1, across; ring).
    assert (0 <= a0 + t * b0 <-> 0 <= - b0) as X.
    { destruct (Rtotal_order b0 0) as [Q|[Q|Q]]; [specialize (A ltac:(lra)); split; intros; lra|contradiction|specialize (A' ltac:(lra)); split; intros; lra]. }
    assert (a1 + t * b1 <= 0 <-> - b1 <= 0) as Y.
    { destruct (Rtotal_order b1 0) as [Q|[Q|Q]]; [specialize (B ltac:(lra)); split; intros; lra|contradiction|specialize (B' ltac:(lra)); split; intros; lra]. }
    unfold sector. rewrite X, Y. reflexivity.
  - intros [X Y]. apply N0. unfold b0, across. replace (vx d) with (- (- vx d)) by ring. replace (vy d) with (- (- vy d)) by ring. rewrite X, Y. ring.
Qed.

Lemma initial_ok : vx d * vx d + vy d * vy d <= 1 ->
  (initial_phi_state (vx p) (vy p) (vx d) (vy d) start delta = true <-> in_wedge start delta (- vx d) (- vy d)).
Proof.
  intros U. unfold initial_phi_state. pose proof (cw_slope _ _ _ _ K start (or_introl eq_refl)) as H0.
  pose proof (cw_slope _ _ _ _ K (start + delta) (or_intror eq_refl)) as H1.
  destruct (Rlt_dec (1 / 10 ^ 20) (vx d * vx d + vy d * vy d)) as [L|L].
  - apply range_ok; auto; [nra| |].
    + replace (across start (- vx d) (- vy d)) with (- across start (vx d) (vy d)) by (unfold across; ring). now rewrite Rabs_Ropp.
    + replace (across (start + delta) (- vx d) (- vy d)) with (- across (start + delta) (vx d) (vy d)) by (unfold across; ring). now rewrite Rabs_Ropp.
  - exfalso. apply L. clear L.
    assert (across start (vx d) (vy d) * across start (vx d) (vy d) <= vx d * vx d + vy d * vy d) as Q.
    { replace (vx d * vx d + vy d * vy d) with ((vx d * vx d + vy d * vy d) * (Rsqr (sin start) + Rsqr (cos start))) by (rewrite sin2_cos2; ring).
      unfold across, Rsqr. pose proof (Rle_0_sqr (vx d * cos start + vy d * sin start)) as S. unfold Rsqr in S. nra. }
    assert (precision * precision < across start (vx d) (vy d) * across start (vx d) (vy d)) as Q'.
    { rewrite <- (Rabs_mult_self (across start (vx d) (vy d))) || idtac. unfold precision in *. revert H0. unfold Rabs. destruct (Rcase_abs _); intros; nra. }
    unfold precision in Q'. lra.
Qed.
End Line.
