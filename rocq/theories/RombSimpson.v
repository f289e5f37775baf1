(** Lemmas on the two-dimensional Simpson rule. *)
From Coq Require Import Reals Lra Lia.
From Coquelicot Require Import Coquelicot.
From Coq Require Import List Arith.
From Verif Require Import RombModel RombSpec RombProofs RombRun.
Import ListNotations.
Open Scope R_scope.

(** The sum of the first [n] values. *)
Fixpoint total (u : nat -> R) (n : nat) : R :=
  match n with
  | O => 0
  | S n' => total u n' + u n'
  end.

Lemma total_none : forall u, total u 0 = 0.
Proof. reflexivity. Qed.

Lemma total_ext : forall u v n, (forall j, (j < n)%nat -> u j = v j) -> total u n = total v n.
Proof.
  induction n as [|n IH]; intros H; cbn [total].
  - reflexivity.
  - rewrite (H n) by lia. rewrite IH. reflexivity. intros. apply H. lia.
Qed.

Lemma total_add : forall u v n, total (fun j => u j + v j) n = total u n + total v n.
Proof. induction n as [|n IH]; cbn [total]. ring. rewrite IH. ring. Qed.

Lemma total_scale : forall t u n, total (fun j => t * u j) n = t * total u n.
Proof. induction n as [|n IH]; cbn [total]. ring. rewrite IH. ring. Qed.

Lemma total_left : forall u k i, total u (S k + i) - total u i =
  u i + (total u (k + S i) - total u (S i)).
Proof.
  intros u k i. replace (k + S i)%nat with (S k + i)%nat by lia. cbn [total]. ring.
Qed.

Lemma inner_total : forall f c1 x a2 h2 n2 k i acc,
  simpson_inner f c1 x a2 h2 n2 k i acc =
  acc + c1 * (total (fun j => simpson_weight n2 j * f x (a2 + INR j * h2)) (k + i) -
              total (fun j => simpson_weight n2 j * f x (a2 + INR j * h2)) i).
Proof.
  induction k as [|k IH]; intros i acc.
  - cbn. ring.
  - cbn [simpson_inner]. rewrite IH, total_left. ring.
Qed.

(** The weighted sum in one dimension. *)
Definition weighted (g : R -> R) (a h : R) (n : nat) : R :=
  total (fun j => simpson_weight n j * g (a + INR j * h)) (S n).

Lemma outer_total : forall f a1 h1 a2 h2 n1 n2 k i acc,
  simpson_outer f a1 h1 a2 h2 n1 n2 k i acc =
  acc + (total (fun j => simpson_weight n1 j * weighted (f (a1 + INR j * h1)) a2 h2 n2) (k + i) -
         total (fun j => simpson_weight n1 j * weighted (f (a1 + INR j * h1)) a2 h2 n2) i).
Proof.
  induction k as [|k IH]; intros i acc.
  - cbn. ring.
  - cbn [simpson_outer]. rewrite IH, total_left, inner_total.
    rewrite Nat.add_0_r, total_none.
    change (total (fun j => simpson_weight n2 j * f (a1 + INR i * h1) (a2 + INR j * h2)) (S n2))
      with (weighted (f (a1 + INR i * h1)) a2 h2 n2). ring.
Qed.

Lemma estimate_weighted : forall f a1 b1 a2 b2 n1 n2,
  simpson_estimate f a1 b1 a2 b2 n1 n2 =
  let h1 := (b1 - a1) / INR n1 in
  let h2 := (b2 - a2) / INR n2 in
  h1 / 3 * weighted (fun x => h2 / 3 * weighted (f x) a2 h2 n2) a1 h1 n1.
Proof.
  intros. unfold simpson_estimate. cbn zeta. rewrite outer_total.
  rewrite Nat.add_0_r, total_none.
  unfold weighted at 2.
  set (h1 := (b1 - a1) / INR n1). set (h2 := (b2 - a2) / INR n2).
  rewrite (total_ext (fun j => simpson_weight n1 j *
     (h2 / 3 * weighted (f (a1 + INR j * h1)) a2 h2 n2))
     (fun j => h2 / 3 * (simpson_weight n1 j * weighted (f (a1 + INR j * h1)) a2 h2 n2)))
    by (intros; ring).
  rewrite total_scale. field.
Qed.

(** The sum over the [m] pairs of intervals. *)
Fixpoint pairs (g : R -> R) (a h : R) (m : nat) : R :=
  match m with
  | O => 0
  | S m' => pairs g a h m' +
      (g (a + 2 * INR m' * h) + 4 * g (a + 2 * INR m' * h + h) + g (a + 2 * INR m' * h + 2 * h))
  end.

Definition open_weight (j : nat) : R :=
  if Nat.eqb j 0 then 1 else if Nat.even j then 2 else 4.

Lemma even_double : forall m, Nat.even (2 * m) = true.
Proof. intros m. rewrite Nat.even_mul. reflexivity. Qed.

Lemma odd_double : forall m, Nat.even (S (2 * m)) = false.
Proof.
  intros m. rewrite Nat.even_succ. unfold Nat.odd. rewrite even_double. reflexivity.
Qed.

Lemma open_pairs : forall g a h m,
  total (fun j => open_weight j * g (a + INR j * h)) (2 * S m) + g (a + INR (2 * S m) * h) =
  pairs g a h (S m).
Proof.
  intros g a h m. induction m as [|m IH].
  - cbn [Nat.mul Nat.add total pairs]. unfold open_weight. cbn [Nat.eqb Nat.even INR].
    replace (a + 2 * 0 * h + h) with (a + 1 * h) by ring.
    replace (a + 2 * 0 * h + 2 * h) with (a + (1 + 1) * h) by ring.
    replace (a + 2 * 0 * h) with (a + 0 * h) by ring. ring.
  - change (pairs g a h (S (S m))) with (pairs g a h (S m) +
      (g (a + 2 * INR (S m) * h) + 4 * g (a + 2 * INR (S m) * h + h) +
       g (a + 2 * INR (S m) * h + 2 * h))).
    rewrite <- IH.
    replace (2 * S (S m))%nat with (S (S (2 * S m))) by lia.
    cbn [total].
    assert (W : open_weight (2 * S m) = 2).
    { unfold open_weight. rewrite even_double. destruct (2 * S m)%nat eqn:D; [lia|reflexivity]. }
    assert (W' : open_weight (S (2 * S m)) = 4).
    { unfold open_weight. rewrite odd_double. reflexivity. }
    rewrite W, W', !S_INR, mult_INR. change (INR 2) with (1 + 1). rewrite S_INR.
    replace (a + (1 + 1) * (INR m + 1) * h) with (a + 2 * (INR m + 1) * h) by ring.
    replace (a + ((1 + 1) * (INR m + 1) + 1) * h) with (a + 2 * (INR m + 1) * h + h) by ring.
    replace (a + ((1 + 1) * (INR m + 1) + 1 + 1) * h)
      with (a + 2 * (INR m + 1) * h + 2 * h) by ring.
    ring.
Qed.

Lemma weighted_pairs : forall g a h m, (0 < m)%nat ->
  weighted g a h (2 * m) = pairs g a h m.
Proof.
  intros g a h [|m] L. lia. unfold weighted.
  rewrite <- open_pairs. cbn [total].
  assert (W : simpson_weight (2 * S m) (2 * S m) = 1).
  { unfold simpson_weight. rewrite Nat.eqb_refl, Bool.orb_true_r. reflexivity. }
  rewrite W. rewrite Rmult_1_l. f_equal. apply total_ext. intros j Hj.
  f_equal. unfold simpson_weight, open_weight.
  rewrite (proj2 (Nat.eqb_neq j (2 * S m))) by lia. rewrite Bool.orb_false_r. reflexivity.
Qed.

Lemma pairs_poly : forall cs a h m, (length cs <= 4)%nat ->
  h / 3 * pairs (poly cs) a h m =
  psum (fun k => (a + 2 * INR m * h) ^ S k / INR (S k) - a ^ S k / INR (S k)) cs 0.
Proof.
  intros cs a h m L. induction m as [|m IH].
  - cbn [pairs INR]. rewrite (psum_all _ (fun i => 0 * 0)), psum_scale.
    ring. intros i. replace (a + 2 * 0 * h) with a by ring. ring.
  - cbn [pairs]. rewrite Rmult_plus_distr_l, IH, !poly_sum.
    rewrite <- (psum_scale 4), <- !psum_add, <- psum_scale, <- psum_add.
    rewrite S_INR. replace (a + 2 * (INR m + 1) * h) with (a + 2 * INR m * h + 2 * h) by ring.
    set (x := a + 2 * INR m * h). clearbody x.
    apply psum_ext with 4%nat. lia. intros i Hi.
    do 4 (destruct i as [|i]; [cbn; field|]). lia.
Qed.

Lemma weighted_poly : forall cs a b m, (0 < m)%nat -> (length cs <= 4)%nat ->
  (b - a) / INR (2 * m) / 3 * weighted (poly cs) a ((b - a) / INR (2 * m)) (2 * m) =
  em0 cs a b.
Proof.
  intros cs a b m M L. rewrite weighted_pairs, pairs_poly by assumption.
  assert (P : 0 < INR m) by (apply lt_0_INR; exact M).
  unfold em0. apply psum_all. intros i. do 3 f_equal.
  rewrite mult_INR. change (INR 2) with (1 + 1). field. lra.
Qed.

Lemma weighted_ext : forall g g' a h n, (forall x, g x = g' x) ->
  weighted g a h n = weighted g' a h n.
Proof. intros. unfold weighted. apply total_ext. intros. rewrite H. reflexivity. Qed.

Lemma weighted_lin : forall g g' t a h n,
  weighted (fun x => g x + t * g' x) a h n = weighted g a h n + t * weighted g' a h n.
Proof.
  intros. unfold weighted. rewrite <- total_scale, <- total_add.
  apply total_ext. intros. ring.
Qed.

(** The coefficients of the inner integral. *)
Definition inner_coeffs (rows : list (list R)) (a2 b2 : R) : list R :=
  map (fun r => em0 r a2 b2) rows.

Lemma inner_exact : forall rows a2 b2 m x, (0 < m)%nat ->
  (forall r, In r rows -> (length r <= 4)%nat) ->
  (b2 - a2) / INR (2 * m) / 3 * weighted (poly2 rows x) a2 ((b2 - a2) / INR (2 * m)) (2 * m) =
  poly (inner_coeffs rows a2 b2) x.
Proof.
  intros rows a2 b2 m x M. induction rows as [|r rows IH]; intros L.
  - cbn [poly2 inner_coeffs map poly]. unfold weighted.
    rewrite (total_ext _ (fun j => 0 * 0)), total_scale. ring. intros. ring.
  - cbn [inner_coeffs map poly].
    rewrite (weighted_ext (poly2 (r :: rows) x) (fun y => poly r y + x * poly2 rows x y))
      by reflexivity.
    rewrite weighted_lin, Rmult_plus_distr_l.
    rewrite weighted_poly by (try assumption; apply L; left; reflexivity).
    f_equal. change (map _ rows) with (inner_coeffs rows a2 b2).
    rewrite <- IH by (intros; apply L; right; assumption). ring.
Qed.

Lemma poly2_integral : forall rows a2 b2 x,
  is_RInt (poly2 rows x) a2 b2 (poly (inner_coeffs rows a2 b2) x).
Proof.
  intros rows a2 b2 x. induction rows as [|r rows IH]; cbn [inner_coeffs map poly].
  - replace 0 with (scal (b2 - a2) 0) by (unfold scal; cbn; unfold mult; cbn; ring).
    apply (is_RInt_const (V := R_NormedModule)).
  - apply (is_RInt_plus (V := R_NormedModule)). apply poly_integral.
    apply (is_RInt_scal (V := R_NormedModule)). exact IH.
Qed.

Lemma estimate_exact : forall rows a1 b1 a2 b2 m1 m2, (0 < m1)%nat -> (0 < m2)%nat ->
  (length rows <= 4)%nat -> (forall r, In r rows -> (length r <= 4)%nat) ->
  simpson_estimate (poly2 rows) a1 b1 a2 b2 (2 * m1) (2 * m2) =
  em0 (inner_coeffs rows a2 b2) a1 b1.
Proof.
  intros rows a1 b1 a2 b2 m1 m2 M1 M2 L Lr. rewrite estimate_weighted. cbn zeta.
  rewrite (weighted_ext _ (poly (inner_coeffs rows a2 b2)))
    by (intros x; apply inner_exact; assumption).
  apply weighted_poly. assumption. unfold inner_coeffs. rewrite map_length. assumption.
Qed.

Lemma double_exact : forall rows a1 b1 a2 b2,
  double_integral (poly2 rows) a1 b1 a2 b2 (em0 (inner_coeffs rows a2 b2) a1 b1).
Proof.
  intros. exists (poly (inner_coeffs rows a2 b2)). split.
  - intros x. apply poly2_integral.
  - apply poly_integral.
Qed.

Lemma double_unique : forall f a1 b1 a2 b2 v w,
  double_integral f a1 b1 a2 b2 v -> double_integral f a1 b1 a2 b2 w -> v = w.
Proof.
  intros f a1 b1 a2 b2 v w (g & G & V) (k & K & W).
  rewrite <- (is_RInt_unique _ _ _ _ V), <- (is_RInt_unique _ _ _ _ W).
  apply RInt_ext. intros x _.
  rewrite <- (is_RInt_unique _ _ _ _ (G x)), <- (is_RInt_unique _ _ _ _ (K x)). reflexivity.
Qed.

(** A returned value is the estimate of a turn after the first. *)
Lemma simpson_value : forall f a1 b1 a2 b2 tol n1 n2 k i prev v,
  simpson_loop f a1 b1 a2 b2 tol n1 n2 k i prev = Value v ->
  exists j, (0 < j)%nat /\ v = simpson_estimate f a1 b1 a2 b2 (2 ^ j * n1) (2 ^ j * n2).
Proof.
  induction k as [|k IH]; intros i prev v H.
  - discriminate H.
  - cbn [simpson_loop] in H. destruct (0 <? i)%nat eqn:I.
    + apply Nat.ltb_lt in I. cbn zeta in H.
      destruct (Rlt_dec _ _) in H.
      * injection H as <-. exists i. split. exact I. reflexivity.
      * destruct (Rlt_dec _ _) in H.
        -- injection H as <-. exists i. split. exact I. reflexivity.
        -- apply IH in H. exact H.
    + apply IH in H. exact H.
Qed.

Lemma level_even : forall j n, (0 < j)%nat -> (0 < n)%nat ->
  exists m, (0 < m)%nat /\ (2 ^ j * n = 2 * m)%nat.
Proof.
  intros [|j] n J N. lia. exists (2 ^ j * n)%nat. split.
  - assert (0 < 2 ^ j)%nat by (clear; induction j; cbn; lia). nia.
  - cbn [Nat.pow]. lia.
Qed.

Lemma simpson_none : forall f a1 b1 a2 b2 n1 n2 k i prev,
  simpson_loop f a1 b1 a2 b2 0 n1 n2 k i prev = Not_converged.
Proof.
  induction k as [|k IH]; intros i prev.
  - reflexivity.
  - cbn [simpson_loop]. cbn zeta. rewrite IH. destruct (0 <? i)%nat; [|reflexivity].
    destruct (Rlt_dec _ _) as [C|_].
    + pose proof (Rmax_l (Rabs (simpson_estimate f a1 b1 a2 b2 (2 ^ i * n1) (2 ^ i * n2)))
        (Rabs prev)) as M.
      pose proof (Rabs_pos (simpson_estimate f a1 b1 a2 b2 (2 ^ i * n1) (2 ^ i * n2))). lra.
    + destruct (Rlt_dec _ _) as [C|_]; [|reflexivity].
      pose proof (Rabs_pos (simpson_estimate f a1 b1 a2 b2 (2 ^ i * n1) (2 ^ i * n2) - prev)).
      lra.
Qed.

Lemma simpson_two : forall f a1 b1 a2 b2 tol n1 n2 k v, 0 < tol ->
  (forall j, (0 < j)%nat -> simpson_estimate f a1 b1 a2 b2 (2 ^ j * n1) (2 ^ j * n2) = v) ->
  simpson_loop f a1 b1 a2 b2 tol n1 n2 (3 + k) 0 0 = Value v.
Proof.
  intros f a1 b1 a2 b2 tol n1 n2 k v T E.
  cbn [Nat.add simpson_loop Nat.ltb Nat.leb]. cbn zeta.
  set (e0 := simpson_estimate f a1 b1 a2 b2 (2 ^ 0 * n1) (2 ^ 0 * n2)).
  rewrite (E 1%nat), (E 2%nat) by lia.
  destruct (Rlt_dec _ _) as [_|_]; [reflexivity|].
  destruct (Rlt_dec _ _) as [_|_]; [reflexivity|].
  destruct (Rlt_dec _ _) as [_|C]; [reflexivity|].
  destruct (Rlt_dec _ _) as [_|D]; [reflexivity|].
  exfalso. rewrite Rmax_left in C, D by lra. rewrite Rminus_eq_0, Rabs_R0 in D.
  assert (0 < tol * tol) by (apply Rmult_lt_0_compat; lra).
  apply D. apply Rmult_lt_0_compat; lra.
Qed.

(** Reversing the bounds. *)
Lemma trapezia_left : forall f a h n,
  trapezia f a h (S n) = h * (f a + f (a + h)) / 2 + trapezia f (a + h) h n.
Proof.
  intros f a h n. induction n as [|n IH].
  - cbn [trapezia INR]. replace (a + 0 * h) with a by ring. ring.
  - change (trapezia f a h (S (S n))) with (trapezia f a h (S n) +
      h * (f (a + INR (S n) * h) + f (a + INR (S n) * h + h)) / 2).
    rewrite IH. cbn [trapezia]. rewrite S_INR.
    replace (a + (INR n + 1) * h) with (a + h + INR n * h) by ring. ring.
Qed.

Lemma trapezia_back : forall f h n a,
  trapezia f (a + INR n * h) (- h) n = - trapezia f a h n.
Proof.
  induction n as [|n IH]; intros a.
  - cbn. ring.
  - rewrite (trapezia_left f a). cbn [trapezia].
    rewrite S_INR. replace (a + (INR n + 1) * h) with (a + h + INR n * h) by ring.
    rewrite IH.
    replace (a + h + INR n * h + INR n * - h) with (a + h) by ring.
    replace (a + h + - h) with a by ring. field.
Qed.

Lemma rule_back : forall f a b i, level f b a i = - level f a b i.
Proof.
  intros f a b i. unfold level, trapezium_rule. pose proof (pow2_pos i) as P.
  rewrite <- trapezia_back.
  replace (a + INR (2 ^ i) * ((b - a) / INR (2 ^ i))) with b by (field; lra).
  f_equal. field. lra.
Qed.

Lemma extrapolate_opp : forall h e,
  (forall j m, (j + m < 5)%nat -> (0 < m)%nat -> h j <> h (j + m)%nat) ->
  extrapolate h (fun j => - e j) = (- fst (extrapolate h e), - snd (extrapolate h e)).
Proof.
  intros h e D.
  pose proof (D 0 1 ltac:(lia) ltac:(lia))%nat. pose proof (D 1 1 ltac:(lia) ltac:(lia))%nat.
  pose proof (D 2 1 ltac:(lia) ltac:(lia))%nat. pose proof (D 3 1 ltac:(lia) ltac:(lia))%nat.
  pose proof (D 0 2 ltac:(lia) ltac:(lia))%nat. pose proof (D 1 2 ltac:(lia) ltac:(lia))%nat.
  pose proof (D 2 2 ltac:(lia) ltac:(lia))%nat. pose proof (D 0 3 ltac:(lia) ltac:(lia))%nat.
  pose proof (D 1 3 ltac:(lia) ltac:(lia))%nat. pose proof (D 0 4 ltac:(lia) ltac:(lia))%nat.
  cbn [Nat.add] in *. clear D.
  unfold extrapolate, tableau, row, set_at. cbn -[Rdiv Rmult Rplus Rminus Ropp].
  f_equal; field; repeat split; lra.
Qed.

Lemma attempt_back : forall f a b k,
  attempt f b a k = (- fst (attempt f a b k), - snd (attempt f a b k)).
Proof.
  intros f a b k. unfold attempt.
  rewrite <- extrapolate_opp.
  - apply extrapolate_ext. intros j _. apply rule_back.
  - intros j m _ M. rewrite (Nat.add_comm (j + m)), (Nat.add_comm j).
    replace (k + (j + m))%nat with (m + (k + j))%nat by lia. rewrite (step_add m).
    pose proof (step_pos (k + j)).
    assert ((/ 4) ^ m < 1).
    { destruct m as [|m]. lia. cbn [pow].
      assert (0 < (/ 4) ^ m <= 1).
      { clear. induction m as [|m IH]; cbn [pow]; lra. }
      lra. }
    nra.
Qed.

(** The outcome for the opposite integrand. *)
Definition opposite (q : quadrature) : quadrature :=
  match q with
  | Value v => Value (- v)
  | q => q
  end.

Lemma loop_back : forall f a b tol n i,
  romberg_loop f b a tol n i (updates f b a i trap_new) (map (level f b a) (seq 0 i)) =
  opposite (romberg_loop f a b tol n i (updates f a b i trap_new) (map (level f a b) (seq 0 i))).
Proof.
  induction n as [|n IH]; intros i.
  - reflexivity.
  - rewrite !turn. cbn zeta. rewrite attempt_back. cbn [fst snd]. rewrite !Rabs_Ropp, IH.
    destruct (4 <=? i)%nat; [|reflexivity].
    destruct (Rle_dec _ _); reflexivity.
Qed.
