(** Lemmas on Euler angles. *)
From Coq Require Import NArith Reals List Lra Lia.
From Verif Require Import VectorModel QuatModel QuatSpec QuatProofs EulerModel EulerSpec.
Import ListNotations.
Open Scope R_scope.

(** ** Angles from coordinates *)
Lemma atan_polar t : cos (atan t) = / sqrt (1 + t * t) /\ sin (atan t) = t / sqrt (1 + t * t).
Proof.
  rewrite cos_atan, sin_atan. unfold Rsqr. split; [unfold Rdiv; ring | auto].
Qed.
Lemma sqrt_sum y x : x <> 0 -> sqrt (1 + y / x * (y / x)) = sqrt (x * x + y * y) / Rabs x.
Proof.
  intros N. replace (1 + y / x * (y / x)) with ((x * x + y * y) / (x * x)) by (field; auto).
  rewrite sqrt_div_alt by nra. f_equal. apply sqrt_Rsqr_abs.
Qed.
Lemma polar y x : let r := sqrt (x * x + y * y) in r * cos (atan2 y x) = x /\ r * sin (atan2 y x) = y.
Proof.
  intros r. unfold atan2.
  assert (P : x <> 0 -> 0 < r) by (intros N; apply sqrt_lt_R0; nra).
  destruct (Rlt_dec 0 x) as [X|X].
  - destruct (atan_polar (y / x)) as (C & S). rewrite C, S, sqrt_sum by lra. rewrite Rabs_right by lra. fold r.
    specialize (P ltac:(lra)). split; field; lra.
  - destruct (Rlt_dec x 0) as [Y|Y].
    + destruct (atan_polar (y / x)) as (C & S). specialize (P ltac:(lra)).
      rewrite sqrt_sum, Rabs_left in C, S by lra. fold r in C, S.
      destruct (Rlt_dec y 0).
      * unfold Rminus. rewrite cos_plus, sin_plus, cos_neg, sin_neg, cos_PI, sin_PI, C, S. split; field; lra.
      * rewrite neg_cos, neg_sin, C, S. split; field; lra.
    + assert (x = 0) by lra. subst x.
      assert (RY : r = Rabs y) by (unfold r; rewrite Rmult_0_l, Rplus_0_l; apply sqrt_Rsqr_abs).
      destruct (Rlt_dec 0 y); [| destruct (Rlt_dec y 0)].
      * rewrite cos_PI2, sin_PI2, RY, Rabs_right by lra. lra.
      * rewrite cos_neg, sin_neg, cos_PI2, sin_PI2, RY, Rabs_left by lra. lra.
      * assert (y = 0) by lra. subst. rewrite RY, Rabs_R0. lra.
Qed.
Lemma polar_unit y x r : 0 < r -> r * r = x * x + y * y -> cos (atan2 y x) = x / r /\ sin (atan2 y x) = y / r.
Proof.
  intros P E. destruct (polar y x) as (C & S). rewrite <- E in C, S. rewrite sqrt_square in C, S by lra.
  split; [rewrite <- C at 2 | rewrite <- S at 2]; field; lra.
Qed.

(** ** The nine elements from three angles, in the axes i, j, k *)
Definition nine : Type := R * R * R * (R * R * R) * (R * R * R).
Definition plain_nine (a b g : R) : nine :=
  (cos b * cos g, sin b * (sin a * cos g) - cos a * sin g, sin b * (cos a * cos g) + sin a * sin g,
   (cos b * sin g, sin b * (sin a * sin g) + cos a * cos g, sin b * (cos a * sin g) - sin a * cos g),
   (- sin b, cos b * sin a, cos b * cos a)).
Definition repeat_nine (a b g : R) : nine :=
  (cos b, sin b * sin a, sin b * cos a,
   (sin b * sin g, - cos b * (sin a * sin g) + cos a * cos g, - cos b * (cos a * sin g) - sin a * cos g),
   (- sin b * cos g, cos b * (sin a * cos g) + cos a * sin g, cos b * (cos a * cos g) - sin a * sin g)).

Lemma nine_eq a b c d e f g h i a' b' c' d' e' f' g' h' i' : a = a' -> b = b' -> c = c' -> d = d' -> e = e' -> f = f' -> g = g' -> h = h' -> i = i' ->
  ((a, b, c, (d, e, f), (g, h, i)) : nine) = (a', b', c', (d', e', f'), (g', h', i')).
Proof. intros. subst. auto. Qed.

(** Nine numbers that form a rotation matrix. *)
Record turn9 (ii ij ik ji jj jk ki kj kk : R) : Prop := {
  col_i : ii * ii + ji * ji + ki * ki = 1; col_j : ij * ij + jj * jj + kj * kj = 1; col_ij : ii * ij + ji * jj + ki * kj = 0;
  cx : ik = ji * kj - ki * jj; cy_ : jk = ki * ij - ii * kj; cz : kk = ii * jj - ji * ij }.

Section Rows.
Context (ii ij ik ji jj jk ki kj kk : R).
Hypothesis T : turn9 ii ij ik ji jj jk ki kj kk.
Lemma row_i : ii * ii + ij * ij + ik * ik = 1.
Proof.
  destruct T as [A B C X Y Z]. 
  subst.
  assert (L : (ji * kj - ki * jj) * (ji * kj - ki * jj) = (ji * ji + ki * ki) * (jj * jj + kj * kj) - (ji * jj + ki * kj) * (ji * jj + ki * kj)) by ring.
  rewrite L. replace (ji * ji + ki * ki) with (1 - ii * ii) by lra. replace (jj * jj + kj * kj) with (1 - ij * ij) by lra.
  replace (ji * jj + ki * kj) with (- (ii * ij)) by lra. ring.
Qed.
Lemma row_k : ki * ki + kj * kj + kk * kk = 1.
Proof.
  destruct T as [A B C X Y Z]. subst.
  assert (L : (ii * jj - ji * ij) * (ii * jj - ji * ij) = (ii * ii + ji * ji) * (ij * ij + jj * jj) - (ii * ij + ji * jj) * (ii * ij + ji * jj)) by ring.
  rewrite L. replace (ii * ii + ji * ji) with (1 - ki * ki) by lra. replace (ij * ij + jj * jj) with (1 - kj * kj) by lra.
  replace (ii * ij + ji * jj) with (- (ki * kj)) by lra. ring.
Qed.
Lemma row_j : ji * ji + jj * jj + jk * jk = 1.
Proof.
  destruct T as [A B C X Y Z]. subst.
  assert (L : (ki * ij - ii * kj) * (ki * ij - ii * kj) = (ii * ii + ki * ki) * (ij * ij + kj * kj) - (ii * ij + ki * kj) * (ii * ij + ki * kj)) by ring.
  rewrite L. replace (ii * ii + ki * ki) with (1 - ji * ji) by lra. replace (ij * ij + kj * kj) with (1 - jj * jj) by lra.
  replace (ii * ij + ki * kj) with (- (ji * jj)) by lra. ring.
Qed.
End Rows.

Section Recover.
Context (ii ij ik ji jj jk ki kj kk : R).
Hypothesis T : turn9 ii ij ik ji jj jk ki kj kk.
Let all : nine := (ii, ij, ik, (ji, jj, jk), (ki, kj, kk)).

Lemma pole_pos : 0 < pole.
Proof. unfold pole. apply Rmult_lt_0_compat; [lra |]. apply Rinv_0_lt_compat, pow_lt. lra. Qed.

Lemma sqr_sqrt a : 0 <= a -> sqrt a * sqrt a = a.
Proof. apply sqrt_sqrt. Qed.
Lemma div_eq a b c : b <> 0 -> a = c * b -> a / b = c.
Proof. intros N ->. field. auto. Qed.

Lemma plain_open : 0 < ii * ii + ji * ji ->
  plain_nine (atan2 kj kk) (atan2 (- ki) (sqrt (ii * ii + ji * ji))) (atan2 ji ii) = all.
Proof.
  intros P. set (c := sqrt (ii * ii + ji * ji)).
  assert (PC : 0 < c) by (apply sqrt_lt_R0; auto).
  assert (CC : c * c = ii * ii + ji * ji) by (apply sqrt_sqrt; lra).
  pose proof (row_k _ _ _ _ _ _ _ _ _ T) as RK. destruct T as [A B C X Y Z].
  destruct (polar_unit kj kk c PC) as (Ca & Sa); [lra |].
  destruct (polar_unit (- ki) c 1 ltac:(lra)) as (Cb & Sb); [lra |].
  destruct (polar_unit ji ii c PC) as (Cg & Sg); [lra |].
  unfold plain_nine, all. rewrite Ca, Sa, Cb, Sb, Cg, Sg.
  assert (N : c * c <> 0) by nra.
  assert (E1 : - ki / 1 * (kj / c * (ii / c)) - kk / c * (ji / c) = ij).
  { transitivity ((- ki * kj * ii - kk * ji) / (c * c)); [field; lra | apply div_eq; auto]. rewrite CC.
    replace (- ki * kj * ii) with ((ii * ij + ji * jj) * ii) by (replace (ii * ij + ji * jj) with (- (ki * kj)) by lra; ring). rewrite Z. ring. }
  assert (E2 : - ki / 1 * (kk / c * (ii / c)) + kj / c * (ji / c) = ik).
  { transitivity ((- ki * kk * ii + kj * ji) / (c * c)); [field; lra | apply div_eq; auto]. rewrite X.
    replace ((ji * kj - ki * jj) * (c * c)) with (ji * kj * (ii * ii + ji * ji) - ki * jj * (ii * ii + ji * ji)) by (rewrite CC; ring). rewrite Z.
    assert (kj * ji = kj * ji * (ii * ii + ji * ji + ki * ki)) by (rewrite A; ring).
    assert (kj * ki * ki = - ki * (ii * ij + ji * jj)) by (replace (ii * ij + ji * jj) with (- (ki * kj)) by lra; ring).
    replace (kj * ji * (ii * ii + ji * ji + ki * ki)) with (kj * ji * (ii * ii + ji * ji) + ji * (kj * ki * ki)) in H by ring. rewrite H0 in H. rewrite H. ring. }
  assert (E3 : - ki / 1 * (kj / c * (ji / c)) + kk / c * (ii / c) = jj).
  { transitivity ((- ki * kj * ji + kk * ii) / (c * c)); [field; lra | apply div_eq; auto]. rewrite CC.
    replace (- ki * kj * ji) with ((ii * ij + ji * jj) * ji) by (replace (ii * ij + ji * jj) with (- (ki * kj)) by lra; ring). rewrite Z. ring. }
  assert (E4 : - ki / 1 * (kk / c * (ji / c)) - kj / c * (ii / c) = jk).
  { transitivity ((- ki * kk * ji - kj * ii) / (c * c)); [field; lra | apply div_eq; auto]. rewrite CC, Y, Z.
    assert (H : kj * ii = kj * ii * (ii * ii + ji * ji + ki * ki)) by (rewrite A; ring).
    assert (H0 : kj * ki * ki = - ki * (ii * ij + ji * jj)) by (replace (ii * ij + ji * jj) with (- (ki * kj)) by lra; ring).
    replace (kj * ii * (ii * ii + ji * ji + ki * ki)) with (kj * ii * (ii * ii + ji * ji) + ii * (kj * ki * ki)) in H by ring. rewrite H0 in H. rewrite H. ring. }
  rewrite E1, E2, E3, E4. apply nine_eq; field; lra.
Qed.

Lemma plain_shut : ii * ii + ji * ji = 0 ->
  plain_nine (atan2 (- jk) jj) (atan2 (- ki) (sqrt (ii * ii + ji * ji))) 0 = all.
Proof.
  intros P. rewrite P, sqrt_0. pose proof (row_j _ _ _ _ _ _ _ _ _ T) as RJ. destruct T as [A B C X Y Z].
  assert (ii = 0) by nra. assert (ji = 0) by nra. subst ii ji.
  assert (K : ki * ki = 1) by lra. assert (J : kj = 0) by nra. subst kj.
  destruct (polar_unit (- jk) jj 1 ltac:(lra)) as (Ca & Sa); [lra |].
  destruct (polar_unit (- ki) 0 1 ltac:(lra)) as (Cb & Sb); [lra |].
  unfold plain_nine, all. rewrite Ca, Sa, Cb, Sb, cos_0, sin_0.
  assert (E1 : ij = ki * jk) by (rewrite Y; replace (ki * (ki * ij - 0 * 0)) with (ki * ki * ij) by ring; rewrite K; ring).
  assert (E2 : ik = - ki * jj) by lra. assert (E3 : kk = 0) by lra.
  rewrite E1, E2, E3. apply nine_eq; field.
Qed.

Lemma repeat_open : 0 < ij * ij + ik * ik ->
  repeat_nine (atan2 ij ik) (atan2 (sqrt (ij * ij + ik * ik)) ii) (atan2 ji (- ki)) = all.
Proof.
  intros P. set (c := sqrt (ij * ij + ik * ik)).
  assert (PC : 0 < c) by (apply sqrt_lt_R0; auto).
  assert (CC : c * c = ij * ij + ik * ik) by (apply sqrt_sqrt; lra).
  pose proof (row_i _ _ _ _ _ _ _ _ _ T) as RI. destruct T as [A B C X Y Z].
  destruct (polar_unit ij ik c PC) as (Ca & Sa); [lra |].
  destruct (polar_unit c ii 1 ltac:(lra)) as (Cb & Sb); [lra |].
  destruct (polar_unit ji (- ki) c PC) as (Cg & Sg); [lra |].
  unfold repeat_nine, all. rewrite Ca, Sa, Cb, Sb, Cg, Sg.
  assert (N : c * c <> 0) by nra.
  assert (CC' : c * c = ji * ji + ki * ki) by lra.
  assert (E1 : - (ii / 1) * (ij / c * (ji / c)) + ik / c * (- ki / c) = jj).
  { transitivity ((- ii * ij * ji - ik * ki) / (c * c)); [field; lra | apply div_eq; auto]. rewrite CC', X.
    replace (- ii * ij * ji) with ((ji * jj + ki * kj) * ji) by (replace (ji * jj + ki * kj) with (- (ii * ij)) by lra; ring). ring. }
  assert (E2 : - (ii / 1) * (ik / c * (ji / c)) - ij / c * (- ki / c) = jk).
  { transitivity ((- ii * ik * ji + ij * ki) / (c * c)); [field; lra | apply div_eq; auto]. rewrite CC', X, Y.
    assert (H : ij * ki = ij * ki * (ji * ji + ki * ki) + ki * ii * (ii * ij)) by (transitivity (ij * ki * (ii * ii + ji * ji + ki * ki)); [rewrite A |]; ring).
    replace (ii * ij) with (- (ji * jj + ki * kj)) in H by lra. rewrite H. ring. }
  assert (E3 : ii / 1 * (ij / c * (- ki / c)) + ik / c * (ji / c) = kj).
  { transitivity ((- ii * ij * ki + ik * ji) / (c * c)); [field; lra | apply div_eq; auto]. rewrite CC', X.
    replace (- ii * ij * ki) with ((ji * jj + ki * kj) * ki) by (replace (ji * jj + ki * kj) with (- (ii * ij)) by lra; ring). ring. }
  assert (E4 : ii / 1 * (ik / c * (- ki / c)) - ij / c * (ji / c) = kk).
  { transitivity ((- ii * ik * ki - ij * ji) / (c * c)); [field; lra | apply div_eq; auto]. rewrite CC', X, Z.
    assert (H : ij * ji = ij * ji * (ji * ji + ki * ki) + ji * ii * (ii * ij)) by (transitivity (ij * ji * (ii * ii + ji * ji + ki * ki)); [rewrite A |]; ring).
    replace (ii * ij) with (- (ji * jj + ki * kj)) in H by lra. rewrite H. ring. }
  rewrite E1, E2, E3, E4. apply nine_eq; field; lra.
Qed.

Lemma repeat_shut : ij * ij + ik * ik = 0 ->
  repeat_nine (atan2 (- jk) jj) (atan2 (sqrt (ij * ij + ik * ik)) ii) 0 = all.
Proof.
  intros P. rewrite P, sqrt_0. pose proof (row_j _ _ _ _ _ _ _ _ _ T) as RJ. pose proof (row_i _ _ _ _ _ _ _ _ _ T) as RI.
  destruct T as [A B C X Y Z].
  assert (ij = 0) by nra. assert (ik = 0) by nra. assert (K : ii * ii = 1) by lra. 
  assert (ji = 0) by nra. assert (ki = 0) by nra. subst ij ji ki.
  destruct (polar_unit (- jk) jj 1 ltac:(lra)) as (Ca & Sa); [lra |].
  destruct (polar_unit 0 ii 1 ltac:(lra)) as (Cb & Sb); [lra |].
  unfold repeat_nine, all. rewrite Ca, Sa, Cb, Sb, cos_0, sin_0.
  assert (E1 : kj = - (ii * jk)) by (rewrite Y; replace (- (ii * (0 * 0 - ii * kj))) with (ii * ii * kj) by ring; rewrite K; ring).
  assert (E2 : kk = ii * jj) by lra. 
  rewrite E1, E2, H0. apply nine_eq; field.
Qed.
End Recover.
