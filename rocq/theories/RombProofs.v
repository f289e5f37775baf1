(** Lemmas on the trapezium rule and its extrapolation. *)
From Coq Require Import Reals Lra Lia.
From Coquelicot Require Import Coquelicot.
From Coq Require Import List Arith.
From Verif Require Import RombModel RombSpec.
Import ListNotations.
Open Scope R_scope.

(** The sum of [n] values of [f], [dx] apart from [x] on. *)
Fixpoint spaced (f : R -> R) (x dx : R) (n : nat) : R :=
  match n with
  | O => 0
  | S n' => spaced f x dx n' + f (x + INR n' * dx)
  end.

Lemma spaced_left : forall f dx n x, spaced f x dx (S n) = f x + spaced f (x + dx) dx n.
Proof.
  induction n as [|n IH]; intros x.
  - cbn [spaced INR]. replace (x + 0 * dx) with x by ring. ring.
  - change (spaced f x dx (S (S n)))
      with (spaced f x dx (S n) + f (x + INR (S n) * dx)).
    rewrite IH. cbn [spaced]. rewrite S_INR.
    replace (x + dx + INR n * dx) with (x + (INR n + 1) * dx) by ring. ring.
Qed.

Lemma midpoints_sum : forall f dx n x acc, midpoints f dx n x acc = acc + spaced f x dx n.
Proof.
  induction n as [|n IH]; intros x acc.
  - cbn. ring.
  - cbn [midpoints]. rewrite IH, spaced_left. ring.
Qed.

Lemma halving : forall f a h n,
  trapezia f a (h / 2) (2 * n) = (trapezia f a h n + h * spaced f (a + h / 2) h n) / 2.
Proof.
  intros f a h n. induction n as [|n IH].
  - cbn. lra.
  - replace (2 * S n)%nat with (S (S (2 * n))) by lia.
    cbn [trapezia spaced]. rewrite IH. rewrite S_INR, mult_INR.
    replace (INR 2) with 2 by (cbn; ring).
    replace (a + 2 * INR n * (h / 2)) with (a + INR n * h) by field.
    replace (a + (2 * INR n + 1) * (h / 2)) with (a + INR n * h + h / 2) by field.
    replace (a + h / 2 + INR n * h) with (a + INR n * h + h / 2) by ring.
    replace (a + INR n * h + h / 2 + h / 2) with (a + INR n * h + h) by field.
    field.
Qed.

Lemma pow2_pos : forall k, 0 < INR (2 ^ k).
Proof. intros k. apply lt_0_INR. induction k; cbn; lia. Qed.

Lemma pow2_pow : forall k, INR (2 ^ k) = 2 ^ k.
Proof. intros k. rewrite pow_INR. reflexivity. Qed.

Lemma rule_double : forall f a b k,
  trapezium_rule f a b (2 ^ S k) =
  (trapezium_rule f a b (2 ^ k) +
   (b - a) * spaced f (a + (b - a) / INR (2 ^ k) / 2) ((b - a) / INR (2 ^ k)) (2 ^ k)
     / INR (2 ^ k)) / 2.
Proof.
  intros f a b k. unfold trapezium_rule. pose proof (pow2_pos k) as P.
  change (2 ^ S k)%nat with (2 * 2 ^ k)%nat.
  replace ((b - a) / INR (2 * 2 ^ k)) with ((b - a) / INR (2 ^ k) / 2)
    by (rewrite mult_INR; replace (INR 2) with 2 by (cbn; ring); field; lra).
  rewrite halving. field. lra.
Qed.

Lemma update_start : forall f a b,
  update f a b trap_new = (1%nat, trapezium_rule f a b (2 ^ 0)).
Proof.
  intros f a b. unfold update, trap_new, trapezium_rule. cbn [fst]. f_equal.
  cbn [Nat.pow trapezia INR]. replace (a + 0 * ((b - a) / 1)) with a by field.
  replace (a + (b - a) / 1) with b by field. field.
Qed.

Lemma update_next : forall f a b k,
  update f a b (S k, trapezium_rule f a b (2 ^ k)) =
  (S (S k), trapezium_rule f a b (2 ^ S k)).
Proof.
  intros f a b k. unfold update. cbn [fst snd]. f_equal.
  rewrite midpoints_sum, rule_double, Rplus_0_l. reflexivity.
Qed.

Lemma updates_next : forall f a b n k,
  updates f a b n (S k, trapezium_rule f a b (2 ^ k)) =
  (S (n + k), trapezium_rule f a b (2 ^ (n + k))).
Proof.
  induction n as [|n IH]; intros k.
  - reflexivity.
  - cbn [updates]. rewrite update_next, IH. replace (n + S k)%nat with (S n + k)%nat by lia.
    reflexivity.
Qed.

Lemma updates_start : forall f a b n,
  updates f a b (S n) trap_new = (S n, trapezium_rule f a b (2 ^ n)).
Proof.
  intros f a b n. cbn [updates]. rewrite update_start, updates_next.
  replace (n + 0)%nat with n by lia. reflexivity.
Qed.

(** The entries of the table of estimates. *)
Definition level (f : R -> R) (a b : R) (i : nat) : R := trapezium_rule f a b (2 ^ i).

Lemma integrate_next : forall f a b i,
  integrate f a b (get_detail (updates f a b i trap_new)) (updates f a b i trap_new) =
  updates f a b (S i) trap_new.
Proof.
  intros f a b [|i].
  - reflexivity.
  - rewrite !updates_start. unfold integrate, get_detail. cbn [fst].
    replace (S (S i) - S i)%nat with 1%nat by lia. cbn [updates].
    apply update_next.
Qed.

Lemma step_pos : forall i, 0 < step_size i.
Proof. induction i; cbn; lra. Qed.

Lemma step_add : forall j i, step_size (j + i) = step_size i * (/ 4) ^ j.
Proof. induction j as [|j IH]; intros i; cbn. ring. rewrite IH. field. Qed.

Lemma step_pow : forall i, step_size i = / (INR (2 ^ i) * INR (2 ^ i)).
Proof.
  induction i as [|i IH]; cbn [step_size].
  - cbn. field.
  - rewrite IH. change (2 ^ S i)%nat with (2 * 2 ^ i)%nat.
    rewrite mult_INR. replace (INR 2) with 2 by (cbn; ring).
    pose proof (pow2_pos i). field. lra.
Qed.

(** Extrapolating a polynomial of degree four in the step size. *)
Lemma extrapolate_quartic : forall (e : nat -> R) i p0 p1 p2 p3 p4,
  (forall j, (j < 5)%nat -> let h := step_size (j + i) in
     e j = p0 + h * (p1 + h * (p2 + h * (p3 + h * p4)))) ->
  fst (extrapolate (fun j => step_size (j + i)) e) = p0 /\
  snd (extrapolate (fun j => step_size (j + i)) e) =
    p4 * step_size (1 + i) * step_size (2 + i) * step_size (3 + i) * step_size (4 + i).
Proof.
  intros e i p0 p1 p2 p3 p4 H.
  pose proof (step_pos i) as P.
  pose proof (H 0%nat ltac:(lia)) as E0. pose proof (H 1%nat ltac:(lia)) as E1.
  pose proof (H 2%nat ltac:(lia)) as E2. pose proof (H 3%nat ltac:(lia)) as E3.
  pose proof (H 4%nat ltac:(lia)) as E4. cbn zeta in *. clear H.
  unfold extrapolate, tableau, row, set_at. cbn -[step_size Rdiv Rmult Rplus Rminus].
  cbn [Nat.add] in E0, E1, E2, E3, E4.
  rewrite E0, E1, E2, E3, E4. clear E0 E1 E2 E3 E4 e.
  cbn [step_size].
  set (h := step_size i) in *. clearbody h.
  split; field; lra.
Qed.
