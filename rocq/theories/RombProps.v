(** Theorems about the quadratures. *)
From Coq Require Import Reals Lra Lia.
From Coquelicot Require Import Coquelicot.
From Coq Require Import List Arith ZArith.
From Verif Require Import RombModel RombSpec RombProofs RombRun RombSimpson.
Import ListNotations.
Open Scope R_scope.

(** C134: asked for detail [d], a fresh integrator gives the trapezium rule with [2^d] equal
    panels. *)
Theorem C134_trapezium : forall f a b d,
  snd (integrate f a b d trap_new) = trapezium_rule f a b (2 ^ d) /\
  get_detail (integrate f a b d trap_new) = S d.
Proof.
  intros f a b d. unfold integrate. cbn [fst trap_new]. rewrite Nat.sub_0_r, updates_start.
  split; reflexivity.
Qed.

(** C134: whatever was asked before, a finer level gives the same value as a fresh integrator,
    and a coarser one leaves the integrator as it is. *)
Theorem C134_refinement : forall f a b d d',
  (d' <= d)%nat ->
  integrate f a b d (integrate f a b d' trap_new) = integrate f a b d trap_new /\
  integrate f a b d' (integrate f a b d trap_new) = integrate f a b d trap_new.
Proof.
  intros f a b d d' L. unfold integrate. cbn [fst trap_new]. rewrite !Nat.sub_0_r.
  rewrite !updates_start. cbn [fst]. split.
  - replace (S d - S d')%nat with (d - d')%nat by lia. rewrite updates_next.
    replace (d - d' + d')%nat with d by lia. reflexivity.
  - replace (S d' - S d)%nat with 0%nat by lia. reflexivity.
Qed.

(** C134: with the bounds exchanged the value changes sign. *)
Theorem C134_reversed : forall f a b d,
  snd (integrate f b a d trap_new) = - snd (integrate f a b d trap_new).
Proof.
  intros f a b d. rewrite !(proj1 (C134_trapezium _ _ _ _)). apply rule_back.
Qed.

(** C134: the exchange of the bounds in the constructor has no effect: given the bounds in
    descending order the integrator does not give the integral over the ordered interval. *)
Theorem C134_sorted_refuted : exists f a b d,
  b < a /\ snd (integrate f a b d trap_new) <> snd (integrate f b a d trap_new).
Proof.
  exists (fun _ => 1), 1, 0, 0%nat. split. lra.
  cbn. lra.
Qed.

Example C134_case :
  snd (integrate (fun x => x * x) 0 2 2 trap_new) = 11 / 4 /\
  trapezium_rule (fun x => x * x) 0 2 (2 ^ 2) = 11 / 4.
Proof.
  assert (E : trapezium_rule (fun x => x * x) 0 2 (2 ^ 2) = 11 / 4).
  { unfold trapezium_rule. cbn. field. }
  split; [|exact E]. rewrite (proj1 (C134_trapezium _ _ _ _)). exact E.
Qed.

(** C135: a value returned for a polynomial of degree at most nine is its integral, whatever
    the bounds and the tolerance. *)
Theorem C135_exact : forall cs a b tol v, (length cs <= 10)%nat ->
  romberg (poly cs) a b tol = Value v -> is_RInt (poly cs) a b v.
Proof.
  intros cs a b tol v L H. unfold romberg in H.
  destruct (Rlt_dec tol 0); [discriminate|].
  change trap_new with (updates (poly cs) a b 0 trap_new) in H at 1.
  change (@nil R) with (map (level (poly cs) a b) (seq 0 0)) in H.
  destruct (loop_value _ _ _ _ _ _ _ H) as (k & _ & V & _).
  rewrite V, (proj1 (attempt_poly cs a b k L)). apply poly_integral.
Qed.

(** C135: for a polynomial of degree at most seven a value is returned, with any tolerance
    that is not negative. *)
Theorem C135_converges : forall cs a b tol, (length cs <= 8)%nat -> 0 <= tol ->
  exists v, romberg (poly cs) a b tol = Value v /\ is_RInt (poly cs) a b v.
Proof.
  intros cs a b tol L T.
  assert (L' : (length cs <= 10)%nat) by lia.
  assert (E : romberg (poly cs) a b tol = Value (fst (attempt (poly cs) a b 0))).
  { apply romberg_first. exact T.
    rewrite (proj2 (attempt_poly cs a b 0 L')), (low_degree _ _ _ L).
    replace (- ((b - a) ^ 8 / 1209600) * 0 * step_size (1 + 0) * step_size (2 + 0) *
      step_size (3 + 0) * step_size (4 + 0)) with 0 by ring.
    rewrite Rabs_R0. apply Rmult_le_pos. exact T. apply Rabs_pos. }
  eexists. split. exact E. apply (C135_exact cs a b tol); assumption.
Qed.

Lemma loop_tolerance : forall f a b tol n i s es,
  romberg_loop f a b tol n i s es <> Bad_tolerance.
Proof.
  induction n as [|n IH]; intros i s es H; cbn [romberg_loop] in H.
  - discriminate H.
  - cbn zeta in H. destruct (4 <=? i)%nat; [|exact (IH _ _ _ H)].
    destruct (Rle_dec _ _) in H; [discriminate H|exact (IH _ _ _ H)].
Qed.

(** C135: exchanging the bounds changes the sign of the value and nothing else. *)
Theorem C135_reversed : forall f a b tol,
  (forall v, romberg f a b tol = Value v -> romberg f b a tol = Value (- v)) /\
  (romberg f a b tol = Not_converged -> romberg f b a tol = Not_converged) /\
  (tol < 0 <-> romberg f a b tol = Bad_tolerance).
Proof.
  intros f a b tol.
  assert (B : romberg f b a tol = opposite (romberg f a b tol)).
  { unfold romberg. destruct (Rlt_dec tol 0). reflexivity.
    exact (loop_back f a b tol 20 0). }
  split; [|split].
  - intros v H. rewrite B, H. reflexivity.
  - intros H. rewrite B, H. reflexivity.
  - split.
    + intros T. unfold romberg. destruct (Rlt_dec tol 0). reflexivity. lra.
    + unfold romberg. destruct (Rlt_dec tol 0) as [T|T]. intros _. exact T.
      intros H. exfalso. exact (loop_tolerance _ _ _ _ _ _ _ _ H).
Qed.

(** C135: the tolerance is relative to the value: an integral that is exactly zero, of a
    polynomial of degree eight, is never accepted and ends in an exception. *)
Theorem C135_zero_refuted : exists cs a b,
  (length cs <= 9)%nat /\ is_RInt (poly cs) a b 0 /\
  forall tol, 0 <= tol -> romberg (poly cs) a b tol = Not_converged.
Proof.
  pose (cs := [- (1) / 9; 0; 0; 0; 0; 0; 0; 0; 1]).
  exists cs, 0, 1.
  assert (L : (length cs <= 10)%nat) by (cbn; lia).
  assert (Z : em0 cs 0 1 = 0) by (unfold em0, cs; cbn; field).
  assert (S7 : emd 7 cs 0 1 = 40320) by (unfold emd, deriv, cs; cbn; field).
  split; [cbn; lia|]. split.
  - pose proof (poly_integral cs 0 1) as I. rewrite Z in I. exact I.
  - intros tol T. unfold romberg. destruct (Rlt_dec tol 0); [lra|].
    apply (loop_fails (poly cs) 0 1 tol 20 0). intros k _.
    destruct (attempt_poly cs 0 1 k L) as [-> ->]. rewrite Z, S7, Rabs_R0.
    rewrite Rmult_0_r. apply Rabs_pos_lt.
    pose proof (step_pos (1 + k)). pose proof (step_pos (2 + k)).
    pose proof (step_pos (3 + k)). pose proof (step_pos (4 + k)).
    set (s1 := step_size (1 + k)) in *. set (s2 := step_size (2 + k)) in *.
    set (s3 := step_size (3 + k)) in *. set (s4 := step_size (4 + k)) in *.
    assert (Q : 0 < s1 * s2 * s3 * s4)
      by (do 3 (apply Rmult_lt_0_compat; [|assumption]); assumption).
    replace (- ((1 - 0) ^ 8 / 1209600) * 40320 * s1 * s2 * s3 * s4)
      with (- (1) / 30 * (s1 * s2 * s3 * s4)) by field.
    lra.
Qed.

(** C135: a smooth function that vanishes at the seventeen points of the first five levels is
    given the integral zero. *)
Theorem C135_alias_refuted : exists f,
  (forall x, continuous f x) /\ is_RInt f 0 1 (1 / 2) /\ romberg f 0 1 0 = Value 0.
Proof.
  pose (f := fun x => sin (16 * PI * x) * sin (16 * PI * x)).
  exists f.
  assert (C : forall x, continuous f x).
  { assert (G : forall x, continuous (fun x => 16 * PI * x) x).
    { intros x. apply (continuous_mult (K := R_AbsRing)).
      apply continuous_const. apply continuous_id. }
    intros x. apply (continuous_mult (K := R_AbsRing) (fun x => sin (16 * PI * x))
      (fun x => sin (16 * PI * x)));
      apply (continuous_comp (fun x => 16 * PI * x) sin);
      first [apply G | apply continuous_sin]. }
  split; [exact C|]. split.
  - pose proof PI_RGT_0 as P.
    assert (E : 1 / 2 = minus (1 / 2 - sin (32 * PI * 1) / (64 * PI))
                             (0 / 2 - sin (32 * PI * 0) / (64 * PI))).
    { change minus with Rminus.
      replace (32 * PI * 1) with (IZR 32 * PI) by (cbn; ring).
      rewrite (sin_eq_0_1 (IZR 32 * PI)) by (exists 32%Z; reflexivity).
      replace (32 * PI * 0) with 0 by ring. rewrite sin_0. field. lra. }
    rewrite E.
    apply (is_RInt_derive (V := R_CompleteNormedModule)
      (fun x => x / 2 - sin (32 * PI * x) / (64 * PI))).
    + intros x _. unfold f. auto_derive. lra.
      replace (32 * PI * x) with (2 * (16 * PI * x)) by ring. rewrite cos_2a_sin.
      field. lra.
    + intros x _. apply C.
  - assert (V : forall m i j, (m * 2 ^ i = 16)%nat -> f (0 + INR j * (1 / INR (2 ^ i))) = 0).
    { intros m i j M. unfold f. pose proof (pow2_pos i) as P.
      assert (Q : 16 * PI * (0 + INR j * (1 / INR (2 ^ i))) = IZR (Z.of_nat (j * m)) * PI).
      { rewrite <- INR_IZR_INZ, mult_INR.
        replace 16 with (INR m * INR (2 ^ i))
          by (rewrite <- mult_INR, M; cbn; ring).
        field. lra. }
      rewrite Q. rewrite sin_eq_0_1. ring. eexists. reflexivity. }
    assert (T : forall m i n, (m * 2 ^ i = 16)%nat -> trapezia f 0 (1 / INR (2 ^ i)) n = 0).
    { intros m i n M. induction n as [|n IH]. reflexivity.
      cbn [trapezia]. rewrite IH, (V m i n M).
      replace (0 + INR n * (1 / INR (2 ^ i)) + 1 / INR (2 ^ i))
        with (0 + INR (S n) * (1 / INR (2 ^ i))) by (rewrite S_INR; ring).
      rewrite (V m i (S n) M). lra. }
    assert (Lv : forall m i, (m * 2 ^ i = 16)%nat -> level f 0 1 i = 0).
    { intros m i M. unfold level, trapezium_rule. rewrite Rminus_0_r. exact (T m i _ M). }
    assert (A : attempt f 0 1 0 = (0, 0)).
    { unfold attempt. rewrite (extrapolate_ext _ _ (fun _ => 0)).
      - unfold extrapolate, tableau, row, set_at. cbn. f_equal; field.
      - intros j J.
        destruct j as [|j]; [exact (Lv 16%nat 0%nat eq_refl)|].
        destruct j as [|j]; [exact (Lv 8%nat 1%nat eq_refl)|].
        destruct j as [|j]; [exact (Lv 4%nat 2%nat eq_refl)|].
        destruct j as [|j]; [exact (Lv 2%nat 3%nat eq_refl)|].
        destruct j as [|j]; [exact (Lv 1%nat 4%nat eq_refl)|]. lia. }
    rewrite romberg_first.
    + rewrite A. reflexivity.
    + lra.
    + rewrite A. cbn [fst snd]. rewrite Rabs_R0. lra.
Qed.

Example C135_case :
  exists v, romberg (poly [1; 0; 3]) (-1) 2 (/ 1000000) = Value v /\ v = 12.
Proof.
  destruct (C135_converges [1; 0; 3] (-1) 2 (/ 1000000)) as (v & E & I).
  - cbn. lia.
  - lra.
  - exists v. split. exact E.
    pose proof (poly_integral [1; 0; 3] (-1) 2) as J.
    rewrite <- (is_RInt_unique _ _ _ _ I), (is_RInt_unique _ _ _ _ J).
    unfold em0. cbn. field.
Qed.

(** C136: a value returned for a polynomial of degree at most three in each variable is its
    double integral, also with odd numbers of intervals. *)
Theorem C136_exact : forall rows a1 b1 a2 b2 tol n1 n2 k v,
  (length rows <= 4)%nat -> (forall r, In r rows -> (length r <= 4)%nat) ->
  (0 < n1)%nat -> (0 < n2)%nat ->
  simpson2d (poly2 rows) a1 b1 a2 b2 tol n1 n2 k = Value v ->
  double_integral (poly2 rows) a1 b1 a2 b2 v.
Proof.
  intros rows a1 b1 a2 b2 tol n1 n2 k v L Lr N1 N2 H. unfold simpson2d in H.
  destruct (Rlt_dec tol 0); [discriminate|].
  destruct (simpson_value _ _ _ _ _ _ _ _ _ _ _ _ H) as (j & J & ->).
  destruct (level_even j n1 J N1) as (m1 & M1 & ->).
  destruct (level_even j n2 J N2) as (m2 & M2 & ->).
  rewrite estimate_exact by assumption. apply double_exact.
Qed.

(** C136: and a value is returned within three refinements, with any positive tolerance. *)
Theorem C136_converges : forall rows a1 b1 a2 b2 tol n1 n2 k,
  (length rows <= 4)%nat -> (forall r, In r rows -> (length r <= 4)%nat) ->
  (0 < n1)%nat -> (0 < n2)%nat -> 0 < tol -> (3 <= k)%nat ->
  exists v, simpson2d (poly2 rows) a1 b1 a2 b2 tol n1 n2 k = Value v.
Proof.
  intros rows a1 b1 a2 b2 tol n1 n2 k L Lr N1 N2 T K. unfold simpson2d.
  destruct (Rlt_dec tol 0); [lra|].
  replace k with (3 + (k - 3))%nat by lia.
  eexists. apply simpson_two. exact T.
  intros j J. destruct (level_even j n1 J N1) as (m1 & M1 & ->).
  destruct (level_even j n2 J N2) as (m2 & M2 & ->).
  apply estimate_exact; assumption.
Qed.

(** C136: a tolerance of zero passes the check and then never converges, whatever the
    function. *)
Theorem C136_zero_tolerance : forall f a1 b1 a2 b2 n1 n2 k,
  simpson2d f a1 b1 a2 b2 0 n1 n2 k = Not_converged.
Proof.
  intros. unfold simpson2d. destruct (Rlt_dec 0 0); [lra|]. apply simpson_none.
Qed.

(** C136: an integral smaller than the square of the tolerance is accepted at once: the value
    then misses the relative tolerance. *)
Theorem C136_small_refuted : exists f a1 b1 a2 b2 tol v exact,
  simpson2d f a1 b1 a2 b2 tol 2 2 15 = Value v /\
  double_integral f a1 b1 a2 b2 exact /\ 0 < tol /\ tol * Rabs exact < Rabs (v - exact).
Proof.
  pose (f := poly2 [[]; []; []; []; [/ 100000000000]]).
  exists f, 0, 1, 0, 1, (/ 100000).
  assert (E : simpson_estimate f 0 1 0 1 (2 ^ 1 * 2) (2 ^ 1 * 2) = 385 / 1920 / 100000000000).
  { unfold simpson_estimate, f. cbn. field. }
  assert (E0 : simpson_estimate f 0 1 0 1 (2 ^ 0 * 2) (2 ^ 0 * 2) = 5 / 24 / 100000000000).
  { unfold simpson_estimate, f. cbn. field. }
  exists (385 / 1920 / 100000000000), (/ 5 / 100000000000). repeat split.
  - unfold simpson2d. destruct (Rlt_dec (/ 100000) 0); [lra|].
    generalize 13%nat as k. intros k.
    cbn [simpson_loop Nat.ltb Nat.leb]. cbn zeta. rewrite E, E0.
    destruct (Rlt_dec _ _) as [_|C]; [reflexivity|].
    exfalso. apply C. rewrite !Rabs_pos_eq by lra. rewrite Rmax_right by lra. lra.
  - pose proof (double_exact [[]; []; []; []; [/ 100000000000]] 0 1 0 1) as D.
    replace (em0 (inner_coeffs [[]; []; []; []; [/ 100000000000]] 0 1) 0 1)
      with (/ 5 / 100000000000) in D by (unfold em0, inner_coeffs, em0; cbn; field).
    exact D.
  - lra.
  - rewrite !Rabs_pos_eq by lra. lra.
Qed.

Example C136_case :
  exists v, simpson2d (poly2 [[0; 1]; [2]]) 0 1 0 2 (/ 1000) 3 10 15 = Value v /\ v = 4.
Proof.
  destruct (C136_converges [[0; 1]; [2]] 0 1 0 2 (/ 1000) 3 10 15) as (v & E); try (cbn; lia);
    try lra.
  - intros r [<-|[<-|[]]]; cbn; lia.
  - exists v. split. exact E.
    apply C136_exact in E; try (cbn; lia).
    + apply (double_unique _ _ _ _ _ _ _ E).
      pose proof (double_exact [[0; 1]; [2]] 0 1 0 2) as D.
      replace (em0 (inner_coeffs [[0; 1]; [2]] 0 2) 0 1) with 4 in D
        by (unfold em0, inner_coeffs, em0; cbn; field).
      exact D.
    + intros r [<-|[<-|[]]]; cbn; lia.
Qed.

Print Assumptions C134_trapezium.
Print Assumptions C134_refinement.
Print Assumptions C134_reversed.
Print Assumptions C134_sorted_refuted.
Print Assumptions C135_exact.
Print Assumptions C135_converges.
Print Assumptions C135_reversed.
Print Assumptions C135_zero_refuted.
Print Assumptions C135_alias_refuted.
Print Assumptions C136_exact.
Print Assumptions C136_converges.
Print Assumptions C136_zero_tolerance.
Print Assumptions C136_small_refuted.
