(** The Euler-Maclaurin expansion of the trapezium rule on polynomials and the Romberg loop. *)
From Coq Require Import Reals Lra Lia.
From Coquelicot Require Import Coquelicot.
From Coq Require Import List Arith.
From Verif Require Import RombModel RombSpec RombProofs.
Import ListNotations.
Open Scope R_scope.

(** The sum of the coefficients times [g] of their index, the first having index [k]. *)
Fixpoint psum (g : nat -> R) (cs : list R) (k : nat) : R :=
  match cs with
  | [] => 0
  | c :: r => c * g k + psum g r (S k)
  end.

Lemma poly_psum : forall cs x k, x ^ k * poly cs x = psum (pow x) cs k.
Proof.
  induction cs as [|c r IH]; intros x k; cbn [poly psum].
  - ring.
  - rewrite <- IH. cbn [pow]. ring.
Qed.

Lemma poly_sum : forall cs x, poly cs x = psum (pow x) cs 0.
Proof. intros cs x. rewrite <- poly_psum. cbn. ring. Qed.

Lemma psum_ext : forall g g' cs k n,
  (k + length cs <= n)%nat -> (forall i, (i < n)%nat -> g i = g' i) ->
  psum g cs k = psum g' cs k.
Proof.
  induction cs as [|c r IH]; intros k n L H; cbn [psum].
  - reflexivity.
  - cbn [length] in L. rewrite (H k) by lia. f_equal. apply IH with n. lia. exact H.
Qed.

Lemma psum_all : forall g g' cs k, (forall i, g i = g' i) -> psum g cs k = psum g' cs k.
Proof. intros. apply psum_ext with (k + length cs)%nat; auto. Qed.

Lemma psum_add : forall g g' cs k,
  psum (fun i => g i + g' i) cs k = psum g cs k + psum g' cs k.
Proof. induction cs as [|c r IH]; intros k; cbn [psum]. ring. rewrite IH. ring. Qed.

Lemma psum_scale : forall t g cs k, psum (fun i => t * g i) cs k = t * psum g cs k.
Proof. induction cs as [|c r IH]; intros k; cbn [psum]. ring. rewrite IH. ring. Qed.

(** Falling factorials. *)
Fixpoint fall (k r : nat) : R :=
  match r with
  | O => 1
  | S r' => INR k * fall (pred k) r'
  end.

(** The derivative of order [r] of the power [k]. *)
Definition deriv (k r : nat) (x : R) : R := fall k r * x ^ (k - r).

(** The first terms of the expansion. *)
Definition em (k : nat) (h x : R) : R :=
  x ^ S k / INR (S k) + h ^ 2 / 12 * deriv k 1 x - h ^ 4 / 720 * deriv k 3 x +
  h ^ 6 / 30240 * deriv k 5 x - h ^ 8 / 1209600 * deriv k 7 x.

Lemma panel : forall k h x, (k < 10)%nat ->
  h * (x ^ k + (x + h) ^ k) / 2 = em k h (x + h) - em k h x.
Proof.
  intros k h x L.
  do 10 (destruct k as [|k]; [unfold em, deriv; cbn; field | ]). lia.
Qed.

Lemma trapezia_poly : forall cs a h n, (length cs <= 10)%nat ->
  trapezia (poly cs) a h n = psum (fun k => em k h (a + INR n * h) - em k h a) cs 0.
Proof.
  intros cs a h n L. induction n as [|n IH].
  - cbn [trapezia INR]. rewrite (psum_all _ (fun i => 0 * 0)), psum_scale.
    ring. intros i. replace (a + 0 * h) with a by ring. ring.
  - cbn [trapezia]. rewrite IH, !poly_sum.
    replace (h * (psum (pow (a + INR n * h)) cs 0 + psum (pow (a + INR n * h + h)) cs 0) / 2)
      with (h / 2 * (psum (pow (a + INR n * h)) cs 0 + psum (pow (a + INR n * h + h)) cs 0))
      by field.
    rewrite <- psum_add, <- psum_scale, <- psum_add.
    apply psum_ext with 10%nat. lia.
    intros i Hi. rewrite S_INR.
    replace (a + (INR n + 1) * h) with (a + INR n * h + h) by ring.
    pose proof (panel i h (a + INR n * h) Hi) as E. lra.
Qed.

(** The coefficients of the expansion in powers of the squared step. *)
Definition em0 (cs : list R) (a b : R) : R :=
  psum (fun k => b ^ S k / INR (S k) - a ^ S k / INR (S k)) cs 0.
Definition emd (r : nat) (cs : list R) (a b : R) : R :=
  psum (fun k => deriv k r b - deriv k r a) cs 0.

Lemma rule_poly : forall cs a b i, (length cs <= 10)%nat ->
  let h := step_size i in
  level (poly cs) a b i =
  em0 cs a b + h * ((b - a) ^ 2 / 12 * emd 1 cs a b + h * (- ((b - a) ^ 4 / 720) * emd 3 cs a b +
    h * ((b - a) ^ 6 / 30240 * emd 5 cs a b + h * (- ((b - a) ^ 8 / 1209600) * emd 7 cs a b)))).
Proof.
  intros cs a b i L h. unfold level, trapezium_rule.
  rewrite trapezia_poly by exact L.
  pose proof (pow2_pos i) as P. unfold h. rewrite step_pow.
  set (N := INR (2 ^ i)) in *. clearbody N.
  unfold em0, emd.
  replace (a + N * ((b - a) / N)) with b by (field; lra).
  rewrite (psum_all _ (fun k => (b ^ S k / INR (S k) - a ^ S k / INR (S k)) +
    ((((b - a) / N) ^ 2 / 12) * (deriv k 1 b - deriv k 1 a) +
     ((- (((b - a) / N) ^ 4 / 720)) * (deriv k 3 b - deriv k 3 a) +
      ((((b - a) / N) ^ 6 / 30240) * (deriv k 5 b - deriv k 5 a) +
       (- (((b - a) / N) ^ 8 / 1209600)) * (deriv k 7 b - deriv k 7 a)))))).
  2:{ intros k. unfold em. ring. }
  rewrite !psum_add, !psum_scale. field. lra.
Qed.

Lemma poly_anti : forall cs x,
  is_derive (fun x => psum (fun k => x ^ S k / INR (S k)) cs 0) x (poly cs x).
Proof.
  intros cs x. rewrite poly_sum. generalize 0%nat as k.
  induction cs as [|c r IH]; intros k; cbn [psum].
  - apply (@is_derive_const R_AbsRing R_NormedModule).
  - apply (@is_derive_plus R_AbsRing R_NormedModule).
    + pose proof (not_0_INR (S k) ltac:(lia)) as N.
      auto_derive. exact Logic.I.
      change (match k with 0%nat => 1 | S _ => INR k + 1 end) with (INR (S k)).
      field. exact N.
    + apply IH.
Qed.

Lemma poly_continuous : forall cs x, continuous (poly cs) x.
Proof.
  induction cs as [|c r IH]; intros x.
  - apply continuous_const.
  - apply (continuous_plus (V := R_NormedModule)). apply continuous_const.
    apply (continuous_mult (K := R_AbsRing)). apply continuous_id. apply IH.
Qed.

Lemma poly_integral : forall cs a b, is_RInt (poly cs) a b (em0 cs a b).
Proof.
  intros cs a b.
  assert (E : em0 cs a b =
    minus (psum (fun k => b ^ S k / INR (S k)) cs 0) (psum (fun k => a ^ S k / INR (S k)) cs 0)).
  { unfold em0. change minus with Rminus.
    rewrite (psum_all _ (fun i => b ^ S i / INR (S i) + (- (1)) * (a ^ S i / INR (S i))))
      by (intros i; unfold Rminus; ring).
    rewrite psum_add, psum_scale. ring. }
  rewrite E. apply (is_RInt_derive (V := R_CompleteNormedModule)
    (fun x => psum (fun k => x ^ S k / INR (S k)) cs 0)).
  - intros x _. apply poly_anti.
  - intros x _. apply poly_continuous.
Qed.

Lemma low_degree : forall cs a b, (length cs <= 8)%nat -> emd 7 cs a b = 0.
Proof.
  intros cs a b L. unfold emd.
  rewrite (psum_ext _ (fun _ => 0 * 0) cs 0 8).
  - rewrite psum_scale. ring.
  - lia.
  - intros i Hi. do 8 (destruct i as [|i]; [unfold deriv; cbn; ring|]). lia.
Qed.

(** One turn of the loop. *)
Lemma extrapolate_ext : forall h e e', (forall j, (j < 5)%nat -> e j = e' j) ->
  extrapolate h e = extrapolate h e'.
Proof.
  intros h e e' H. unfold extrapolate, tableau, row, set_at.
  cbn -[Rdiv Rmult Rplus Rminus].
  rewrite (H 0%nat), (H 1%nat), (H 2%nat), (H 3%nat), (H 4%nat) by lia. reflexivity.
Qed.

(** The extrapolated value and its error estimate from the levels [i - 4] to [i]. *)
Definition attempt (f : R -> R) (a b : R) (i : nat) : R * R :=
  extrapolate (fun j => step_size (j + i)) (fun j => level f a b (i + j)).

Lemma turn : forall f a b tol n i,
  romberg_loop f a b tol (S n) i (updates f a b i trap_new) (map (level f a b) (seq 0 i)) =
  (let next := romberg_loop f a b tol n (S i) (updates f a b (S i) trap_new)
                 (map (level f a b) (seq 0 (S i))) in
   if (4 <=? i)%nat then
     let r := attempt f a b (i - 4) in
     if Rle_dec (Rabs (snd r)) (tol * Rabs (fst r)) then Value (fst r) else next
   else next).
Proof.
  intros f a b tol n i. cbn [romberg_loop]. rewrite integrate_next.
  assert (E : map (level f a b) (seq 0 i) ++ [snd (updates f a b (S i) trap_new)] =
              map (level f a b) (seq 0 (S i))).
  { rewrite seq_S, map_app, updates_start. reflexivity. }
  rewrite E. cbn zeta. destruct (4 <=? i)%nat eqn:Hi; [|reflexivity].
  apply Nat.leb_le in Hi.
  assert (X : extrapolate (fun j => step_size (j + (i - 4)))
      (fun j => nth (i - 4 + j) (map (level f a b) (seq 0 (S i))) 0) =
      attempt f a b (i - 4)).
  { unfold attempt. apply extrapolate_ext. intros j Hj.
    rewrite nth_indep with (d' := level f a b 0).
    - rewrite map_nth. rewrite seq_nth by lia. reflexivity.
    - rewrite map_length, seq_length. lia. }
  rewrite X. reflexivity.
Qed.

Lemma loop_value : forall f a b tol n i v,
  romberg_loop f a b tol n i (updates f a b i trap_new) (map (level f a b) (seq 0 i)) = Value v ->
  exists k, (k + 4 < i + n)%nat /\ v = fst (attempt f a b k) /\
    Rabs (snd (attempt f a b k)) <= tol * Rabs v.
Proof.
  induction n as [|n IH]; intros i v H.
  - discriminate H.
  - rewrite turn in H. cbn zeta in H. destruct (4 <=? i)%nat eqn:Hi.
    + apply Nat.leb_le in Hi.
      destruct (Rle_dec _ _) as [C|C] in H.
      * injection H as <-. exists (i - 4)%nat. repeat split. lia. exact C.
      * destruct (IH _ _ H) as (k & A & B). exists k. split. lia. exact B.
    + destruct (IH _ _ H) as (k & A & B). exists k. split. lia. exact B.
Qed.

Lemma loop_fails : forall f a b tol n i,
  (forall k, (k + 4 < i + n)%nat ->
     tol * Rabs (fst (attempt f a b k)) < Rabs (snd (attempt f a b k))) ->
  romberg_loop f a b tol n i (updates f a b i trap_new) (map (level f a b) (seq 0 i)) =
  Not_converged.
Proof.
  induction n as [|n IH]; intros i H.
  - reflexivity.
  - rewrite turn. cbn zeta.
    assert (N : romberg_loop f a b tol n (S i) (updates f a b (S i) trap_new)
                  (map (level f a b) (seq 0 (S i))) = Not_converged).
    { apply IH. intros k Hk. apply H. lia. }
    rewrite N. destruct (4 <=? i)%nat eqn:Hi; [|reflexivity].
    apply Nat.leb_le in Hi.
    destruct (Rle_dec _ _) as [C|C]; [|reflexivity].
    specialize (H (i - 4)%nat ltac:(lia)). lra.
Qed.

Lemma romberg_first : forall f a b tol, 0 <= tol ->
  Rabs (snd (attempt f a b 0)) <= tol * Rabs (fst (attempt f a b 0)) ->
  romberg f a b tol = Value (fst (attempt f a b 0)).
Proof.
  intros f a b tol T H. unfold romberg.
  destruct (Rlt_dec tol 0) as [C|_]; [lra|].
  change trap_new with (updates f a b 0 trap_new) at 1.
  change (@nil R) with (map (level f a b) (seq 0 0)).
  do 4 (rewrite turn; cbn zeta; cbn [Nat.leb]).
  rewrite turn. cbn zeta. cbn [Nat.leb Nat.sub].
  destruct (Rle_dec _ _) as [_|C]; [reflexivity|]. contradiction.
Qed.

Lemma attempt_poly : forall cs a b k, (length cs <= 10)%nat ->
  fst (attempt (poly cs) a b k) = em0 cs a b /\
  snd (attempt (poly cs) a b k) =
    - ((b - a) ^ 8 / 1209600) * emd 7 cs a b *
    step_size (1 + k) * step_size (2 + k) * step_size (3 + k) * step_size (4 + k).
Proof.
  intros cs a b k L. unfold attempt.
  apply (extrapolate_quartic _ k _ ((b - a) ^ 2 / 12 * emd 1 cs a b)
    (- ((b - a) ^ 4 / 720) * emd 3 cs a b) ((b - a) ^ 6 / 30240 * emd 5 cs a b)).
  intros j Hj. cbn zeta. rewrite (Nat.add_comm k j). apply (rule_poly cs a b (j + k) L).
Qed.
