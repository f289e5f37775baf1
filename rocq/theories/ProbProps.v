(** Property C167: the interaction and survival probabilities of the data of an event. *)
From Coq Require Import Reals List Bool ZArith Lra Lia.
From Verif Require Import TraversalModel VertexModel VertexSpec VertexBounds VertexProofs VertexProps WeightModel WeightSpec WeightProofs WeightProps ProbModel.
Import ListNotations.
Open Scope R_scope.

Section Probabilities.
Context {Rec Inter Bounds : Type}.
Variable rtype : Rec -> Z.
Variable norm : nat -> option R.
Variable total_depth : Inter -> Bounds -> Rec -> R.
Variable no_bounds : Bounds.
Variable before : Bounds -> Rec -> Bounds.
Notation injector := (injector Rec Inter Bounds).
Notation concern := (concerns rtype no_bounds).
Notation loop := (datum_loop rtype no_bounds).
Notation probs := (probabilities rtype norm no_bounds).

Lemma in_range (injs : list injector) i inj : nth_error injs i = Some inj ->
  (Z.of_nat i <? 0)%Z || (Z.of_nat (length injs) <=? Z.of_nat i)%Z = false.
Proof.
  intros E. assert (i < length injs)%nat by (apply nth_error_Some; rewrite E; discriminate).
  apply orb_false_iff. split; [apply Z.ltb_ge|apply Z.leb_gt]; lia.
Qed.

Lemma entry_at {A B} (P : A -> B -> Prop) l k i a : Forall2 P l k -> nth_error l i = Some a -> exists b, nth_error k i = Some b /\ P a b.
Proof.
  intros F. revert i. induction F as [|x y l k H F IH]; intros [|i] E; cbn in *; try discriminate; eauto. injection E as <-. eauto.
Qed.

Lemma loop_ok value primary secondary (inj : injector) ws ms m i tree l : same_types secondary inj -> NoDup (map p_type secondary) ->
  nth_error ws i = Some (make_weighter norm primary (i_primary inj)) -> nth_error ms i = Some m -> entry_ok norm secondary inj m ->
  Forall2 (fun d x => exists pp ip b, concern primary secondary inj d pp ip b /\ x = value (make_weighter norm pp ip) b (snd d)) tree l ->
  forall acc, loop value i inj ws ms tree acc = Ok (Some (acc ++ l)).
Proof.
  intros (N1 & N2 & _) N Ew Em Ent F. induction F as [|[[] r] x tree l (pp & ip & b & C & ->) F IH]; intros acc; cbn [datum_loop].
  - now rewrite app_nil_r.
  - apply concern_unique in C; auto. cbn [snd] in C. destruct C as (-> & -> & ->). rewrite Ew, IH, <- app_assoc. reflexivity.
  - inversion C; subst. unfold secondary_bounds. rewrite (at_key_unique _ _ f N2) by auto. rewrite (at_key_unique _ _ ip N1) by auto. rewrite Em.
    match goal with H : p_type pp = rtype r |- _ =>
      assert (Ei : at_key (i_secondary inj) (p_type pp) = Some ip) by (rewrite H; now apply at_key_unique);
      pose proof (init_secondary_value norm _ _ _ _ _ _ Ent N ltac:(eassumption) Ei) as V; rewrite H in V end.
    rewrite V, IH, <- app_assoc. reflexivity.
Qed.

Lemma probs_ok value primary secondary (injs : list injector) inj tree i l :
  Forall (same_types secondary) injs -> NoDup (map p_type secondary) -> nth_error injs i = Some inj ->
  Forall2 (fun d x => exists pp ip b, concern primary secondary inj d pp ip b /\ x = value (make_weighter norm pp ip) b (snd d)) tree l ->
  probs value primary secondary injs tree (Z.of_nat i) = Ok l.
Proof.
  intros T N E F. unfold probabilities. rewrite (in_range injs i inj E).
  destruct (initialize_complete norm primary secondary injs T) as (ms & -> & G). rewrite Nat2Z.id, E.
  destruct (entry_at _ _ _ _ _ G E) as (m & Em & Ent).
  rewrite (loop_ok value primary secondary inj _ ms m i tree l); auto.
  - rewrite Forall_forall in T. apply T. eapply nth_error_In; eauto.
  - rewrite nth_error_map, E. reflexivity.
Qed.

Lemma make_pp pp ip : w_pp (make_weighter (Inter := Inter) norm pp ip) = pp.
Proof. now destruct (make_fields norm pp ip) as (_ & _ & _ & X & _). Qed.

(** C167: one interaction probability for each datum, in the order of the tree, from the depth that the physical process of its particle sees between the bounds of the injection. *)
Theorem C167_interaction primary secondary (injs : list injector) inj tree i l :
  Forall (same_types secondary) injs -> NoDup (map p_type secondary) -> nth_error injs i = Some inj ->
  Forall2 (fun d x => exists pp ip b, concern primary secondary inj d pp ip b /\ x = interaction_probability (total_depth (p_inter pp) b (snd d))) tree l ->
  interaction_probabilities rtype norm total_depth no_bounds primary secondary injs tree (Z.of_nat i) = Ok l.
Proof.
  intros T N E F. apply probs_ok with (inj := inj); auto. clear -F. induction F as [|d x tree l (pp & ip & b & C & ->) F IH]; constructor; auto.
  exists pp, ip, b. split; auto. unfold interacts. now rewrite make_pp.
Qed.

(** C167: likewise the probabilities to get from the initial position to the first of the bounds. *)
Theorem C167_survival primary secondary (injs : list injector) inj tree i l :
  Forall (same_types secondary) injs -> NoDup (map p_type secondary) -> nth_error injs i = Some inj ->
  Forall2 (fun d x => exists pp ip b, concern primary secondary inj d pp ip b /\ x = survival_probability (total_depth (p_inter pp) (before b (snd d)) (snd d))) tree l ->
  survival_probabilities rtype norm total_depth no_bounds before primary secondary injs tree (Z.of_nat i) = Ok l /\
  forall x, In x l -> 0 <= x <= 1.
Proof.
  intros T N E F. split.
  - apply probs_ok with (inj := inj); auto. clear -F. induction F as [|d x tree l (pp & ip & b & C & ->) F IH]; constructor; auto.
    exists pp, ip, b. split; auto. unfold survives. now rewrite make_pp.
  - clear -F. induction F as [|d x tree l (pp & ip & b & C & ->) F IH]; [intros y []|]. intros y [<- |I]; [|auto]. unfold survival_probability. cbv zeta.
    repeat destruct (Rlt_dec _ _); lra.
Qed.

(** C167: numbers that name no injector are refused. *)
Theorem C167_index value primary secondary (injs : list injector) tree i :
  probs value primary secondary injs tree i = Throw <-> (i < 0 \/ Z.of_nat (length injs) <= i)%Z.
Proof.
  unfold probabilities. destruct ((i <? 0)%Z || (Z.of_nat (length injs) <=? i)%Z) eqn:Q.
  - apply orb_true_iff in Q. rewrite Z.ltb_lt, Z.leb_le in Q. tauto.
  - apply orb_false_iff in Q. rewrite Z.ltb_ge, Z.leb_gt in Q. split; [|lia].
    destruct (initialize norm primary secondary injs) as [ws ms]. destruct (nth_error injs (Z.to_nat i)) as [inj|]; [|discriminate].
    assert (L : forall acc, loop value (Z.to_nat i) inj ws ms tree acc <> Throw).
    { induction tree as [|[[] r] tree IH]; intros acc; cbn [datum_loop]; [discriminate| |].
      - destruct (nth_error ws _); [apply IH|discriminate].
      - destruct (secondary_bounds rtype inj r); [|discriminate]. destruct (nth_error ms _) as [m|]; [|discriminate]. destruct (at_key m _); [apply IH|discriminate]. }
    specialize (L []). destruct (loop value (Z.to_nat i) inj ws ms tree []) as [[l|]| |]; try discriminate. congruence.
Qed.

(** C167: a secondary for which the injector has no process or no position leaves nothing of the answer. *)
Theorem C167_missing value primary secondary (injs : list injector) inj tree i r :
  Forall (same_types secondary) injs -> nth_error injs i = Some inj -> In (false, r) tree ->
  ~ In (rtype r) (map fst (i_secondary inj)) \/ ~ In (rtype r) (map fst (i_sec_position inj)) ->
  probs value primary secondary injs tree (Z.of_nat i) = Ok [].
Proof.
  intros T E I H. unfold probabilities. rewrite (in_range injs i inj E).
  destruct (initialize_complete norm primary secondary injs T) as (ms & -> & G). rewrite Nat2Z.id, E.
  destruct (entry_at _ _ _ _ _ G E) as (m & Em & _).
  assert (B : secondary_bounds rtype inj r = None).
  { unfold secondary_bounds. rewrite <- !at_key_none in H. destruct H as [-> | ->]; [destruct (at_key (i_sec_position inj) (rtype r))|]; reflexivity. }
  assert (L : forall acc, loop value i inj (map (fun inj : injector => make_weighter norm primary (i_primary inj)) injs) ms tree acc = Ok None).
  { clear T. induction tree as [|[s q] tree IH]; [destruct I|]. intros acc. destruct I as [I|I].
    - injection I as -> ->. cbn [datum_loop]. now rewrite B.
    - specialize (IH I). destruct s; cbn [datum_loop].
      + rewrite nth_error_map, E. cbn. apply IH.
      + destruct (secondary_bounds rtype inj q); auto. rewrite Em. destruct (at_key m (rtype q)); auto. }
  now rewrite L.
Qed.
End Probabilities.
Print Assumptions C167_interaction.
Print Assumptions C167_survival.
Print Assumptions C167_index.
Print Assumptions C167_missing.

(** Finding (C167): an injector without a process for a secondary of the weighter ends the initialization, and the probabilities for a later injector are read beyond the end of a vector, even for events without secondaries. *)
Theorem C167_incomplete_refuted : exists (inj : injector Z R unit) (tree : list (bool * Z)),
  (forall d, In d tree -> fst d = true) /\
  interaction_probabilities (fun r => r) ex_norm ex_total tt ex_primary ex_secondary [inj; ex_injector 50] tree 1 = UB /\
  interaction_probabilities (fun r => r) ex_norm ex_total tt ex_primary ex_secondary [ex_injector 50; inj] tree 1 = Ok [interaction_probability 1].
Proof.
  exists (mkinj 100%Z (mkpp 14%Z 1 [1%nat; 0%nat]) None [] []), [(true, 14%Z)]. split; [intros d [<-|[]]; auto|]. split; reflexivity.
Qed.
Print Assumptions C167_incomplete_refuted.

(** An event with a secondary. *)
Example C167_case : Forall2 (fun d x => exists pp ip b, concerns (fun r => r) tt ex_primary ex_secondary (ex_injector 50) d pp ip b /\ x = interaction_probability (ex_total (p_inter pp) b (snd d)))
    [(true, 14%Z); (false, 13%Z)] [interaction_probability 1; interaction_probability 1] /\
  interaction_probabilities (fun r => r) ex_norm ex_total tt ex_primary ex_secondary [ex_injector 100; ex_injector 50] [(true, 14%Z); (false, 13%Z)] 1 =
    Ok [interaction_probability 1; interaction_probability 1].
Proof.
  assert (F : Forall2 (fun d x => exists pp ip b, concerns (fun r => r) tt ex_primary ex_secondary (ex_injector 50) d pp ip b /\ x = interaction_probability (ex_total (p_inter pp) b (snd d)))
    [(true, 14%Z); (false, 13%Z)] [interaction_probability 1; interaction_probability 1]).
  { constructor; [|constructor; [|constructor]].
    - exists ex_primary, (i_primary (ex_injector 50)), tt. split; [|reflexivity]. apply c_primary_free. reflexivity.
    - exists (mkpp 13%Z 1 [2%nat]), (mkpp 13%Z 1 [1%nat]), tt. split; [|reflexivity].
      apply (c_secondary _ _ _ _ _ 13%Z (mkpp 13%Z 1 [2%nat]) (mkpp 13%Z 1 [1%nat]) (fun _ _ => tt)); cbn; auto. }
  split; [exact F|]. apply (C167_interaction (fun r => r) ex_norm ex_total tt ex_primary ex_secondary _ (ex_injector 50) _ 1); auto.
  - constructor; [apply ex_types|constructor; [apply ex_types|constructor]].
  - cbn. constructor; [intros []|constructor].
Qed.
