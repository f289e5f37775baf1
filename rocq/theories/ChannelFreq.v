(** How often each channel is chosen by a uniform draw. *)
From Coquelicot Require Import Coquelicot.
From Coq Require Import List Bool ZArith Reals Lra Lia.
From Verif Require Import TraversalModel OrderModel InjectorModel ChannelModel ChannelSpec ChannelProofs.
Import ListNotations.
Open Scope R_scope.

(** Sum of rate times [g] over the channels before position [k]. *)
Definition weighted (l : list channel) (g : channel -> R) (k : nat) : R :=
  sum_over (firstn k l) (fun c => ch_rate c * g c).

Lemma weighted_step l g k c : nth_error l k = Some c -> weighted l g (S k) = weighted l g k + ch_rate c * g c.
Proof.
  revert k. induction l as [|d l IH]; intros [|k] H; try discriminate; cbn in H.
  - injection H as ->. unfold weighted. cbn. lra.
  - specialize (IH _ H). unfold weighted in *. change (firstn (S (S k)) (d :: l)) with (d :: firstn (S k) l).
    change (firstn (S k) (d :: l)) with (d :: firstn k l).
    change (sum_over (d :: firstn (S k) l) (fun c0 => ch_rate c0 * g c0))
      with (ch_rate d * g d + sum_over (firstn (S k) l) (fun c0 => ch_rate c0 * g c0)).
    rewrite IH. unfold sum_over. cbn. lra.
Qed.

(** A function constant on each channel's interval integrates to the weighted share. *)
Lemma integral_of_choice (l : list channel) (g : channel -> R) (f : R -> R) :
  nonneg l -> 0 < total l ->
  (forall k c u, nth_error l k = Some c -> before_ l k < u * total l <= before_ l (S k) -> f u = g c) ->
  is_RInt f 0 1 (sum_over l (fun c => ch_rate c * g c) / total l).
Proof.
  intros NN T F.
  assert (P : forall k, (k <= length l)%nat -> is_RInt f 0 (before_ l k / total l) (weighted l g k / total l)).
  { induction k as [|k IH]; intros L.
    - rewrite before_0. change (weighted l g 0) with 0. unfold Rdiv. rewrite Rmult_0_l. apply (is_RInt_point f 0).
    - destruct (nth_error l k) as [c|] eqn:E; [|apply nth_error_None in E; lia].
      specialize (IH ltac:(lia)). rewrite (weighted_step l g k c E).
      replace ((weighted l g k + ch_rate c * g c) / total l)
        with (plus (weighted l g k / total l) (scal (before_ l (S k) / total l - before_ l k / total l) (g c))).
      2:{ rewrite (before_step l k c E). unfold plus, scal; cbn. unfold mult; cbn. field. lra. }
      apply (is_RInt_Chasles f _ (before_ l k / total l)); auto.
      apply (is_RInt_ext (fun _ => g c)); [|apply (is_RInt_const (V := R_NormedModule))].
      intros u [A B]. symmetry. apply (F k c u E).
      pose proof (before_mono l NN k (S k) ltac:(lia)) as M.
      assert (M2 : before_ l k / total l <= before_ l (S k) / total l).
      { apply Rmult_le_compat_r; auto. left. apply Rinv_0_lt_compat. auto. }
      rewrite Rmin_left in A by auto. rewrite Rmax_right in B by auto.
      apply (Rmult_lt_compat_r (total l)) in A; auto. apply (Rmult_lt_compat_r (total l)) in B; auto.
      unfold Rdiv in A, B. rewrite Rmult_assoc, Rinv_l, Rmult_1_r in A by lra.
      rewrite Rmult_assoc, Rinv_l, Rmult_1_r in B by lra. lra. }
  specialize (P (length l) (Nat.le_refl _)). rewrite before_all in P.
  unfold weighted in P. rewrite firstn_all in P. unfold Rdiv in P at 1. rewrite Rinv_r in P by lra. exact P.
Qed.

Lemma sum_sig_as_sum l s f : sum_sig l s f = sum_over l (fun c => if sig_eqb (ch_sig c) s then f c else 0).
Proof. induction l as [|c l IH]; [reflexivity|]. cbn [sum_sig]. rewrite IH. reflexivity. Qed.

(** For a draw [u]: the final-state probability that the chosen channel assigns to
    the observed record [r], if the chosen signature is the observed one. *)
Definition outcome_probability (o : outcome choice) (r : record) : R :=
  match o with
  | Ok (ChoseXs x r1) => if sig_eqb (r_signature r1) (r_signature r) then xs_final_state x r else 0
  | Ok (ChoseDecay d r1) => if sig_eqb (r_signature r1) (r_signature r) then dc_final_state d r else 0
  | _ => 0
  end.

(** Total rates only look at what the two records share. *)
Definition same_rates (xss : list cross_section) (ds : list decay) (r r0 : record) : Prop :=
  primary_type (r_signature r) = primary_type (r_signature r0) /\
  (forall x s m, In x xss -> xs_total x (with_target_mass (with_signature r s) m) = xs_total x (with_target_mass (with_signature r0 s) m)) /\
  (forall d s, In d ds -> dc_length d (with_signature r s) = dc_length d (with_signature r0 s)).

Lemma declaring_in xss t x : In x (declaring xss t) -> In x xss.
Proof.
  unfold declaring. rewrite in_flat_map. intros [y [I H]]. apply in_map_iff in H. destruct H as [z [<- _]]. auto.
Qed.

Lemma flat_map_ext_in {A B} (f g : A -> list B) l : (forall x, In x l -> f x = g x) -> flat_map f l = flat_map g l.
Proof. induction l as [|x l IH]; cbn; intros H; auto. rewrite H, IH; auto. Qed.

Lemma same_channels xss ds available density target_mass r r0 : same_rates xss ds r r0 ->
  channels xss ds available density target_mass r = channels xss ds available density target_mass r0.
Proof.
  intros [P [X D]]. unfold channels. f_equal.
  - unfold xs_channels. rewrite P. apply flat_map_ext. intros t. apply flat_map_ext_in. intros x I.
    apply map_ext. intros s. rewrite X; auto. eapply declaring_in; eauto.
  - unfold decay_channels. rewrite P. apply flat_map_ext_in. intros d I. apply map_ext. intros s. rewrite D; auto.
Qed.

Theorem probability_is_frequency available density target_mass decay_target primary xss ds r0 r :
  Forall ignores_target ds -> same_rates xss ds r r0 ->
  let l := channels xss ds available density target_mass r0 in
  nonneg l -> 0 < total l ->
  is_RInt (fun u => outcome_probability
             (sample_channel available density target_mass decay_target (make_collection primary xss ds) r0 u) r) 0 1
    (cross_section_probability available density target_mass (make_collection primary xss ds) r).
Proof.
  intros I S l NN T. rewrite probability_is_share by auto. cbv zeta. rewrite (same_channels _ _ _ _ _ _ _ S). fold l.
  destruct (Req_EM_T (total l) 0) as [Z|Z]; [lra|]. rewrite sum_sig_as_sum.
  replace (sum_over l (fun c => if sig_eqb (ch_sig c) (r_signature r) then ch_rate c * final_state c r else 0))
    with (sum_over l (fun c => ch_rate c * (if sig_eqb (ch_sig c) (r_signature r) then final_state c r else 0))).
  2:{ clear. induction l as [|c l IH]; [reflexivity|]. unfold sum_over in *. cbn. rewrite IH.
      destruct (sig_eqb (ch_sig c) (r_signature r)); lra. }
  apply (integral_of_choice l (fun c => if sig_eqb (ch_sig c) (r_signature r) then final_state c r else 0)); auto.
  intros k c u NK INT. rewrite (sample_picks available density target_mass decay_target primary xss ds r0 u k c I NN NK INT).
  unfold outcome_probability, chosen, final_state. destruct (ch_source c); cbn; reflexivity.
Qed.

Theorem probabilities_sum_to_one available density target_mass primary xss ds r (ss : list signature) :
  Forall ignores_target ds ->
  let l := channels xss ds available density target_mass r in
  0 < total l -> NoDup ss -> (forall c, In c l -> In (ch_sig c) ss) ->
  (forall s, In s ss -> primary_type s = primary_type (r_signature r)) ->
  (forall c s, In c l -> final_state c (with_signature r s) = 1) ->
  sum_over ss (fun s => cross_section_probability available density target_mass (make_collection primary xss ds) (with_signature r s)) = 1.
Proof.
  intros I l T ND COV PT FS.
  assert (E : forall s, In s ss -> cross_section_probability available density target_mass (make_collection primary xss ds) (with_signature r s)
             = sum_sig l s ch_rate * / total l).
  { intros s Hs. rewrite probability_is_share by auto. cbv zeta.
    assert (SC : channels xss ds available density target_mass (with_signature r s) = l).
    { apply same_channels. split; [|split]; [|reflexivity..]. cbn. apply PT; auto. }
    rewrite SC. destruct (Req_EM_T (total l) 0); [lra|]. unfold Rdiv. f_equal. cbn [r_signature with_signature].
    rewrite !sum_sig_as_sum.
    assert (X : forall l', (forall c, In c l' -> In c l) ->
      sum_over l' (fun c => if sig_eqb (ch_sig c) s then ch_rate c * final_state c (with_signature r s) else 0) =
      sum_over l' (fun c => if sig_eqb (ch_sig c) s then ch_rate c else 0)).
    { clear -FS. induction l' as [|c l' IH]; intros H; [reflexivity|]. unfold sum_over in *. cbn.
      rewrite IH by (intros; apply H; right; auto). rewrite FS by (apply H; left; auto).
      destruct (sig_eqb (ch_sig c) s); lra. }
    apply (X l). auto. }
  assert (G : forall ss', (forall s, In s ss' -> In s ss) ->
    sum_over ss' (fun s => cross_section_probability available density target_mass (make_collection primary xss ds) (with_signature r s))
    = sum_over ss' (fun s => sum_sig l s ch_rate) * / total l).
  { clear -E. induction ss' as [|s ss' IH]; intros H; [unfold sum_over; cbn; lra|]. unfold sum_over in *. cbn [fold_right].
    rewrite IH by (intros; apply H; right; auto). rewrite E by (apply H; left; auto). lra. }
  rewrite G by auto. rewrite sum_over_sigs by auto. rewrite sum_over_rate. apply Rinv_r. lra.
Qed.
