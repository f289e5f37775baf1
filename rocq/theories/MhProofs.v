(** Proofs about the Metropolis-Hastings sampler. *)
From Coq Require Import Reals List Lra Lia Psatz.
From Verif Require Import MhModel MhSpec.
Import ListNotations.
Open Scope R_scope.

Lemma weight_pos {A} (llh : A -> R) x q : 0 < weight llh x q <-> 0 < q /\ 0 < llh x.
Proof.
  unfold weight. destruct (Rlt_dec 0 q) as [Q|Q].
  - split; intros H.
    + split; auto. apply Rmult_lt_reg_r with (/ q); [apply Rinv_0_lt_compat; auto|]. rewrite Rmult_0_l. exact H.
    + apply Rdiv_lt_0_compat; tauto.
  - split; [lra|tauto].
Qed.

Definition acceptance (w tw : R) : R := if Rle_dec w 0 then 1 else Rmax 0 (Rmin 1 (tw / w)).
Lemma acceptance_prob w tw : probability_is (fun u => accepts w tw u = true) (acceptance w tw).
Proof.
  unfold probability_is, acceptance, accepts. destruct (Rle_dec w 0) as [W|W].
  - split; [lra|]. intros u U. split; [lra|auto].
  - assert (P : 0 < w) by lra. split.
    + unfold Rmax, Rmin. destruct (Rle_dec 1 (tw / w)); destruct (Rle_dec 0 _); lra.
    + intros u U. destruct (Rge_dec tw w) as [G|G].
      * split; auto. intros _. assert (1 <= tw / w). { apply Rmult_le_reg_r with w; auto. unfold Rdiv. rewrite Rmult_assoc, Rinv_l; lra. }
        rewrite Rmin_left by auto. rewrite Rmax_right; lra.
      * assert (L : tw / w < 1). { apply Rmult_lt_reg_r with w; auto. unfold Rdiv. rewrite Rmult_assoc, Rinv_l; lra. }
        rewrite Rmin_right by lra. destruct (Rlt_dec u (tw / w)) as [H|H].
        -- split; auto. intros _. rewrite Rmax_right; lra.
        -- split; [discriminate|]. unfold Rmax. destruct (Rle_dec 0 (tw / w)); lra.
Qed.
Lemma acceptance_unique P s t : probability_is P s -> probability_is P t -> s = t.
Proof.
  intros [S1 S2] [T1 T2]. destruct (Rtotal_order s t) as [H|[H|H]]; auto; exfalso.
  - assert (0 <= s < 1) by lra. pose proof (proj1 (S2 s H0)). pose proof (proj2 (T2 s H0) H). specialize (H1 H2). lra.
  - assert (0 <= t < 1) by lra. pose proof (proj1 (T2 t H0)). pose proof (proj2 (S2 t H0) H). specialize (H1 H2). lra.
Qed.

Section Run.
Context {A : Type}.
Variable llh : A -> R.
Lemma run_in rounds : forall s, In (fst (fold_left (mh_round llh) rounds s)) (fst s :: map (fun r => fst (fst r)) rounds).
Proof.
  induction rounds as [|[[x q] u] rounds IH]; intros s; cbn [fold_left map]; [left; auto|].
  specialize (IH (mh_round llh s ((x, q), u))). cbn [fst]. unfold mh_round in *. destruct (accepts _ _ _); cbn [fst] in IH.
  - right. exact IH.
  - destruct IH as [E|I]; [left; auto|right; right; auto].
Qed.
(** The state always carries the weight of its point. *)
Definition carries (initial : A * R) (rounds : list ((A * R) * R)) (s : A * R) : Prop :=
  exists q, In (fst s, q) (initial :: map fst rounds) /\ snd s = weight llh (fst s) q.
Lemma run_carries initial rounds : carries initial rounds (mh_run llh initial rounds).
Proof.
  unfold mh_run. assert (G : forall rs s, (exists q, In (fst s, q) (initial :: map fst rounds) /\ snd s = weight llh (fst s) q) ->
    incl rs rounds -> exists q, In (fst (fold_left (mh_round llh) rs s), q) (initial :: map fst rounds) /\
    snd (fold_left (mh_round llh) rs s) = weight llh (fst (fold_left (mh_round llh) rs s)) q).
  { induction rs as [|[[x q] u] rs IH]; intros s H I; cbn [fold_left]; auto. apply IH; [|intros a B; apply I; right; auto].
    unfold mh_round. destruct (accepts _ _ _); auto. exists q. split; auto. right. apply in_map_iff. exists ((x, q), u). split; auto. apply I. left; auto. }
  apply G; [|intros a B; auto]. exists (snd initial). split; [left; destruct initial; auto|auto].
Qed.
Lemma round_pos s r : 0 <= snd r -> 0 < snd s -> 0 < snd (mh_round llh s r).
Proof.
  destruct r as [[x q] u]. cbn [snd]. intros U S. unfold mh_round, accepts. destruct (Rle_dec (snd s) 0); [lra|].
  set (tw := weight llh x q). destruct (Rge_dec tw (snd s)); cbn [snd]; [lra|]. destruct (Rlt_dec u (tw / snd s)) as [H|H]; cbn [snd]; auto.
  assert (K : 0 < tw / snd s) by lra. apply Rmult_lt_reg_r with (/ snd s); [apply Rinv_0_lt_compat; auto|]. rewrite Rmult_0_l. exact K.
Qed.
Lemma round_gets s r : 0 <= snd r -> 0 < weight llh (fst (fst r)) (snd (fst r)) -> 0 < snd (mh_round llh s r).
Proof.
  intros U W. destruct (Rle_dec (snd s) 0) as [Z|Z]; [|apply round_pos; auto; lra].
  destruct r as [[x q] u]. cbn [fst snd] in *. unfold mh_round, accepts. destruct (Rle_dec (snd s) 0); [|lra]. exact W.
Qed.
Lemma run_pos rounds : forall s, Forall (fun r => 0 <= snd r) rounds ->
  0 < snd s \/ Exists (fun r => 0 < weight llh (fst (fst r)) (snd (fst r))) rounds ->
  0 < snd (fold_left (mh_round llh) rounds s).
Proof.
  induction rounds as [|r rounds IH]; intros s F H; cbn [fold_left].
  - destruct H as [H|H]; auto. inversion H.
  - inversion F; subst. apply IH; auto. destruct H as [H|H]; [left; apply round_pos; auto|].
    inversion H; subst; [left; apply round_gets; auto|right; auto].
Qed.
End Run.

Lemma total_ext {A} (f g : A -> R) l : (forall x, In x l -> f x = g x) -> total f l = total g l.
Proof. induction l; cbn; intros H; auto. rewrite H, IHl; auto. Qed.
Lemma total_plus {A} (f g : A -> R) l : total (fun x => f x + g x) l = total f l + total g l.
Proof. induction l; cbn; [ring|]. rewrite IHl. ring. Qed.
Lemma total_scale {A} k (f : A -> R) l : total (fun x => k * f x) l = k * total f l.
Proof. induction l; cbn; [ring|]. rewrite IHl. ring. Qed.
Lemma total_pick {A} (dec : forall x y : A, {x = y} + {x <> y}) (f : A -> R) l y : NoDup l -> In y l ->
  total (fun x => if dec x y then f x else 0) l = f y.
Proof.
  induction l as [|a l IH]; intros N I; [inversion I|]. inversion N; subst. cbn. destruct (dec a y) as [->|D].
  - rewrite (total_ext _ (fun _ => 0 * 0)). { rewrite total_scale. ring. } intros x X. destruct (dec x y); [subst; contradiction|ring].
  - destruct I as [I|I]; [congruence|]. rewrite IH by auto. ring.
Qed.
Lemma balance_stationary {A} (dec : forall x y : A, {x = y} + {x <> y}) states q acc p : NoDup states ->
  (forall x y, In x states -> In y states -> p x * (q y * acc x y) = p y * (q x * acc y x)) ->
  stationary states (step dec states q acc) p.
Proof.
  intros N B y Y. unfold step.
  rewrite (total_ext _ (fun x => p y * (q x * acc y x) + (if dec x y then p x * (1 - total (fun z => q z * acc x z) states) else 0))).
  - rewrite total_plus, total_scale, (total_pick dec (fun x => p x * (1 - total (fun z => q z * acc x z) states))) by auto. ring.
  - intros x X. rewrite Rmult_plus_distr_l, B by auto. destruct (dec x y); ring.
Qed.

(** Balance, also if the proposals follow another law [g] than the reported [q]. *)
Lemma mh_balance {A} (llh q g : A -> R) x y : (forall z, 0 <= llh z) -> (forall z, 0 < q z) ->
  (llh x / q x * g x) * (g y * acceptance (weight llh x (q x)) (weight llh y (q y))) =
  (llh y / q y * g y) * (g x * acceptance (weight llh y (q y)) (weight llh x (q x))).
Proof.
  intros L Q. unfold weight. destruct (Rlt_dec 0 (q x)) as [_|N]; [|specialize (Q x); lra]. destruct (Rlt_dec 0 (q y)) as [_|N]; [|specialize (Q y); lra].
  assert (W : forall z, 0 <= llh z / q z). { intros z. apply Rmult_le_pos; auto. apply Rlt_le, Rinv_0_lt_compat; auto. }
  pose proof (W x) as X. pose proof (W y) as Y. set (a := llh x / q x) in *. set (b := llh y / q y) in *. clearbody a b.
  unfold acceptance. destruct (Rle_dec a 0) as [Za|Pa]; destruct (Rle_dec b 0) as [Zb|Pb].
  - replace a with 0 by lra. replace b with 0 by lra. ring.
  - replace a with 0 by lra. unfold Rdiv. rewrite Rmult_0_l. rewrite Rmin_right by lra. rewrite Rmax_left by lra. ring.
  - replace b with 0 by lra. unfold Rdiv. rewrite Rmult_0_l. rewrite Rmin_right by lra. rewrite Rmax_left by lra. ring.
  - assert (PA : 0 < a) by lra. assert (PB : 0 < b) by lra.
    assert (D : forall u v, 0 < u -> 0 < v -> u <= v -> Rmax 0 (Rmin 1 (v / u)) = 1 /\ Rmax 0 (Rmin 1 (u / v)) = u / v).
    { intros u v U V H. assert (1 <= v / u). { apply Rmult_le_reg_r with u; auto. unfold Rdiv. rewrite Rmult_assoc, Rinv_l; lra. }
      assert (u / v <= 1). { apply Rmult_le_reg_r with v; auto. unfold Rdiv. rewrite Rmult_assoc, Rinv_l; lra. }
      assert (0 <= u / v) by (apply Rlt_le, Rdiv_lt_0_compat; auto). rewrite (Rmin_left 1) by auto. rewrite (Rmin_right 1) by auto. rewrite !Rmax_right by lra. auto. }
    destruct (Rle_lt_dec a b) as [H|H].
    + destruct (D a b PA PB H) as [-> ->]. field. lra.
    + destruct (D b a PB PA (Rlt_le _ _ H)) as [-> ->]. field. lra.
Qed.
