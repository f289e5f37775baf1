(** Property C89. *)
From Coq Require Import Reals List Bool Lra Lia Psatz.
From Verif Require Import MhModel MhSpec MhProofs.
Import ListNotations.
Open Scope R_scope.

Theorem C89_member : forall {A} (llh : A -> R) initial draw burnin,
  let x := mh_sample llh initial draw burnin in
  x = fst initial \/ exists j, (j <= burnin)%nat /\ x = fst (fst (draw j)).
Proof.
  intros A llh initial draw burnin x. unfold x, mh_sample, mh_run.
  pose proof (run_in llh (map draw (seq 0 (S burnin))) (fst initial, weight llh (fst initial) (snd initial))) as H.
  destruct H as [E|I]; [left; auto|right]. apply in_map_iff in I as [r [E I]]. apply in_map_iff in I as [j [J I]]. apply in_seq in I.
  exists j. split; [lia|]. rewrite J. auto.
Qed.
Print Assumptions C89_member.

(** If one proposal has positive likelihood and reported density, the result has. *)
Theorem C89_support : forall {A} (llh : A -> R) initial draw burnin,
  (forall j, (j <= burnin)%nat -> 0 <= snd (draw j)) ->
  (exists p, (p = initial \/ exists j, (j <= burnin)%nat /\ p = fst (draw j)) /\ 0 < snd p /\ 0 < llh (fst p)) ->
  0 < llh (mh_sample llh initial draw burnin).
Proof.
  intros A llh initial draw burnin U H. unfold mh_sample. set (rounds := map draw (seq 0 (S burnin))).
  assert (P : 0 < snd (mh_run llh initial rounds)).
  { unfold mh_run. apply run_pos.
    - apply Forall_forall. intros r I. apply in_map_iff in I as [j [<- I]]. apply in_seq in I. apply U. lia.
    - destruct H as [p [[->|[j [J ->]]] [Q L]]]; [left|right].
      + cbn [snd]. apply weight_pos. auto.
      + apply Exists_exists. exists (draw j). split; [apply in_map, in_seq; lia|]. apply weight_pos. auto. }
  destruct (run_carries llh initial rounds) as [q [_ E]]. rewrite E in P. apply weight_pos in P. tauto.
Qed.
Print Assumptions C89_support.

(** One round from [x] takes the proposal [y] or keeps [x]; the probability to take it makes
    the likelihood stationary if the reported density is that of the proposals up to a constant. *)
Theorem C89_stationary : forall {A} (dec : forall x y : A, {x = y} + {x <> y}) states (llh q g : A -> R) k,
  NoDup states -> 0 < k -> (forall z, 0 <= llh z) -> (forall z, 0 < q z) -> (forall z, q z = k * g z) ->
  exists acc,
  (forall x y, x <> y -> probability_is (fun u => mh_round llh (x, weight llh x (q x)) ((y, q y), u) = (y, llh y / q y)) (acc x y)) /\
  (forall x y u, In (mh_round llh (x, weight llh x (q x)) ((y, q y), u)) [(x, llh x / q x); (y, llh y / q y)]) /\
  stationary states (step dec states g acc) llh.
Proof.
  intros A dec states llh q g k N K L Q G. exists (fun x y => acceptance (weight llh x (q x)) (weight llh y (q y))).
  assert (W : forall z, weight llh z (q z) = llh z / q z). { intros z. unfold weight. destruct (Rlt_dec 0 (q z)); auto. specialize (Q z). lra. }
  split; [|split].
  - intros x y D. pose proof (acceptance_prob (weight llh x (q x)) (weight llh y (q y))) as [R H]. split; auto. intros u U. rewrite <- (H u U).
    unfold mh_round. cbn [snd]. destruct (accepts _ _ u); rewrite !W; split; auto; congruence.
  - intros x y u. unfold mh_round. cbn [snd]. destruct (accepts _ _ u); rewrite !W; cbn; auto.
  - apply balance_stationary; auto. intros x y _ _. assert (Gp : forall z, 0 < g z).
    { intros z. specialize (Q z). rewrite G in Q. apply Rmult_lt_reg_l with k; auto. lra. }
    pose proof (mh_balance llh q g x y L Q) as B. rewrite !G in B. rewrite !G.
    replace (llh x / (k * g x) * g x) with (llh x / k) in B by (field; split; [specialize (Gp x)|]; lra).
    replace (llh y / (k * g y) * g y) with (llh y / k) in B by (field; split; [specialize (Gp y)|]; lra).
    apply Rmult_eq_reg_l with (/ k); [|apply Rinv_neq_0_compat; lra]. unfold Rdiv in B. rewrite <- !Rmult_assoc in *. rewrite !(Rmult_comm (/ k)). exact B.
Qed.
Print Assumptions C89_stationary.

(** If the reported density is not that of the proposals, the chain settles on another law. *)
Theorem C89_other_law : forall {A} (dec : forall x y : A, {x = y} + {x <> y}) states (llh q g : A -> R),
  NoDup states -> (forall z, 0 <= llh z) -> (forall z, 0 < q z) ->
  exists acc,
  (forall x y, x <> y -> probability_is (fun u => mh_round llh (x, weight llh x (q x)) ((y, q y), u) = (y, llh y / q y)) (acc x y)) /\
  stationary states (step dec states g acc) (fun x => llh x * g x / q x).
Proof.
  intros A dec states llh q g N L Q. exists (fun x y => acceptance (weight llh x (q x)) (weight llh y (q y))).
  assert (W : forall z, weight llh z (q z) = llh z / q z). { intros z. unfold weight. destruct (Rlt_dec 0 (q z)); auto. specialize (Q z). lra. }
  split.
  - intros x y D. pose proof (acceptance_prob (weight llh x (q x)) (weight llh y (q y))) as [R H]. split; auto. intros u U. rewrite <- (H u U).
    unfold mh_round. cbn [snd]. destruct (accepts _ _ u); rewrite !W; split; auto; congruence.
  - apply balance_stationary; auto. intros x y _ _. pose proof (mh_balance llh q g x y L Q) as B.
    replace (llh x * g x / q x) with (llh x / q x * g x) by (field; specialize (Q x); lra).
    replace (llh y * g y / q y) with (llh y / q y * g y) by (field; specialize (Q y); lra). exact B.
Qed.
Print Assumptions C89_other_law.

(** A sampler told that its proposals are flat when they are not does not sample the likelihood. *)
Theorem C89_reported_density_refuted : exists (states : list bool) llh (q g : bool -> R),
  NoDup states /\ (forall z, In z states) /\ (forall z, 0 < llh z) /\ (forall z, q z = 1) /\ (forall z, 0 < g z) /\ total g states = 1 /\
  forall acc, (forall x y, x <> y -> probability_is (fun u => mh_round llh (x, weight llh x (q x)) ((y, q y), u) = (y, llh y / q y)) (acc x y)) ->
  ~ stationary states (step bool_dec states g acc) llh.
Proof.
  exists [true; false], (fun _ : bool => 1), (fun _ : bool => 1), (fun b : bool => if b then 3 / 4 else 1 / 4).
  split; [repeat constructor; cbn; intuition discriminate|]. split; [intros []; cbn; auto|]. split; [intros; lra|]. split; [auto|].
  split; [intros []; lra|]. split; [cbn; lra|]. intros acc H S.
  assert (O : forall x y, x <> y -> acc x y = 1).
  { intros x y D. eapply acceptance_unique; [apply (H x y D)|]. split; [lra|]. intros u U. split; [lra|]. intros _. unfold mh_round, accepts, weight. cbn [snd].
    destruct (Rlt_dec 0 1); [|lra]. destruct (Rle_dec (1 / 1) 0); auto. destruct (Rge_dec (1 / 1) (1 / 1)); auto. lra. }
  specialize (S true (or_introl eq_refl)). unfold step in S. cbn in S. rewrite (O true false), (O false true) in S by discriminate. lra.
Qed.
Print Assumptions C89_reported_density_refuted.

(** Two rounds: the first proposal is outside the support, the second is taken, the third refused. *)
Example C89_case : let llh := fun x : R => if Rlt_dec x 0 then 0 else if Rlt_dec x 2 then 3 else 1 in
  mh_sample llh (-1, 1) (fun j => match j with O => ((1, 1), 1 / 2) | _ => ((5, 1), 1 / 2) end) 1 = 1.
Proof.
  intros llh. unfold mh_sample, mh_run. cbn [seq map fold_left fst snd]. unfold mh_round, weight, accepts. cbn [fst snd].
  destruct (Rlt_dec 0 1); [|lra].
  assert (A : llh (-1) = 0) by (unfold llh; destruct (Rlt_dec (-1) 0); lra).
  assert (B : llh 1 = 3) by (unfold llh; destruct (Rlt_dec 1 0); [lra|]; destruct (Rlt_dec 1 2); lra).
  assert (C : llh 5 = 1) by (unfold llh; destruct (Rlt_dec 5 0); [lra|]; destruct (Rlt_dec 5 2); lra).
  rewrite A, B, C. destruct (Rle_dec (0 / 1) 0); [|lra]. cbn [fst snd]. destruct (Rle_dec (3 / 1) 0); [lra|]. destruct (Rge_dec (1 / 1) (3 / 1)); [lra|].
  destruct (Rlt_dec (1 / 2) (1 / 1 / (3 / 1))); [lra|]. reflexivity.
Qed.
