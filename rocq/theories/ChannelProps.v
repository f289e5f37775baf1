(** Property theorems about collections and the choice of an interaction
    (C12, C17, C20, C21). *)
From Coquelicot Require Import Coquelicot.
From Coq Require Import List Bool ZArith Reals Lra Lia Permutation.
From Verif Require Import TraversalModel OrderModel InjectorModel ChannelModel ChannelSpec ChannelProofs ChannelFreq.
Import ListNotations.
Open Scope R_scope.

(** ** A concrete collection, used by the examples below *)
Definition ex_xs : cross_section :=
  mkxs 0 [2; 1; 2]%Z (fun p t => [mksig p t [11]; mksig p t [12]]%Z)
       (fun r => if Z.eqb (hd 0%Z (secondary_types (r_signature r))) 11 then 2 else 1)
       (fun _ => 3) (fun _ => 1).
Definition ex_decay : decay :=
  mkdecay 0 (fun p => [mksig p 9 [13]]%Z) (fun _ => Fin (/ 100)) (fun _ => Fin (/ 100)) (fun _ => 1) (fun _ => 1).
Definition ex_stable : decay :=
  mkdecay 1 (fun p => [mksig p 9 [14]]%Z) (fun _ => Inf) (fun _ => Inf) (fun _ => 0) (fun _ => 1).
Definition ex_record : record :=
  mkrec (mksig 14 0 []) (mkid false 0 0) [] 0 0 [] 0 (mkid false 0 0) 0 0 [] 0 [] [] [] [] [] [].
Definition ex_coll := make_collection 14 [ex_xs] [ex_stable; ex_decay].
Definition ex_channels := channels [ex_xs] [ex_stable; ex_decay] [1; 3]%Z IZR (fun _ => 0) ex_record.

Lemma ex_ignores : Forall ignores_target [ex_stable; ex_decay].
Proof. repeat constructor. Qed.

Lemma ex_total : total ex_channels = 4.
Proof. cbn. unfold Rdiv. lra. Qed.

Lemma ex_nonneg : nonneg ex_channels.
Proof. repeat constructor; cbn; lra. Qed.

(** C12: every draw in (0,1] lies in the interval of exactly one channel; that
    interval has length rate / total, the channel's rate is positive, and that
    channel is what the injector chooses. *)
Theorem C12_selection : forall available density target_mass decay_target primary xss ds r u,
  Forall ignores_target ds ->
  let l := channels xss ds available density target_mass r in
  nonneg l -> 0 < total l -> 0 < u <= 1 ->
  exists k c, nth_error l k = Some c /\ 0 < ch_rate c /\
    before_ l k < u * total l <= before_ l (S k) /\
    (forall j, before_ l j < u * total l <= before_ l (S j) -> j = k) /\
    before_ l (S k) / total l - before_ l k / total l = ch_rate c / total l /\
    sample_channel available density target_mass decay_target (make_collection primary xss ds) r u
      = Ok (chosen target_mass r c).
Proof.
  intros available density target_mass decay_target primary xss ds r u I l NN T U.
  destruct (sample_total available density target_mass decay_target primary xss ds r u I NN T U) as [k [c [NK [CP [INT E]]]]].
  exists k, c. repeat split; try tauto.
  - intros j J. eapply interval_unique; eauto.
  - fold l in NK. rewrite (before_step l k c NK). field. lra.
Qed.
Print Assumptions C12_selection.

(** C12: the converse: a draw in the interval of a channel chooses that channel. *)
Theorem C12_interval_selects : forall available density target_mass decay_target primary xss ds r u k c,
  Forall ignores_target ds ->
  let l := channels xss ds available density target_mass r in
  nonneg l -> nth_error l k = Some c -> before_ l k < u * total l <= before_ l (S k) ->
  sample_channel available density target_mass decay_target (make_collection primary xss ds) r u
    = Ok (chosen target_mass r c).
Proof. exact sample_picks. Qed.
Print Assumptions C12_interval_selects.

(** C12: cross sections are chosen exactly for the draws up to their share. *)
Theorem C12_kind : forall available density target_mass decay_target primary xss ds r u,
  Forall ignores_target ds ->
  let l := channels xss ds available density target_mass r in
  nonneg l -> 0 < total l -> 0 < u <= 1 ->
  (u <= total (xs_channels xss available density target_mass r) / total l <->
   exists x r1, sample_channel available density target_mass decay_target (make_collection primary xss ds) r u
                = Ok (ChoseXs x r1)).
Proof. exact sample_kind. Qed.
Print Assumptions C12_kind.

(** C12: without any rate the choice fails with an exception. *)
Theorem C12_no_rate_throws : forall available density target_mass decay_target primary xss ds r u,
  Forall ignores_target ds ->
  total (channels xss ds available density target_mass r) = 0 ->
  sample_channel available density target_mass decay_target (make_collection primary xss ds) r u = Throw.
Proof. exact sample_fails. Qed.
Print Assumptions C12_no_rate_throws.

(** The hypotheses hold for a collection with two cross-section channels (rates 2
    and 1), a stable particle and a decay (rate 1); the draw 1 chooses the decay,
    the draw 1/4 the first cross section channel. *)
Example C12_case :
  Forall ignores_target [ex_stable; ex_decay] /\ nonneg ex_channels /\ total ex_channels = 4 /\
  map ch_rate ex_channels = [1 * 2; 1 * 1; 0; / (100 * / 100)] /\
  before_ ex_channels 3 < 1 * total ex_channels <= before_ ex_channels 4 /\
  before_ ex_channels 0 < / 4 * total ex_channels <= before_ ex_channels 1 /\
  map ch_sig ex_channels = [mksig 14 1 [11]; mksig 14 1 [12]; mksig 14 9 [14]; mksig 14 9 [13]]%Z.
Proof.
  split; [exact ex_ignores|]. split; [exact ex_nonneg|]. split; [exact ex_total|].
  rewrite ex_total. unfold before_, ex_channels. cbn. repeat split; lra.
Qed.

(** C12 does not extend to the draw 0, which the generator can produce: a
    collection with decays only then indexes an empty vector. *)
Theorem C12_zero_draw_refuted : exists ds r,
  Forall ignores_target ds /\ nonneg (channels [] ds [] (fun _ => 0) (fun _ => 0) r) /\
  0 < total (channels [] ds [] (fun _ => 0) (fun _ => 0) r) /\
  sample_channel [] (fun _ => 0) (fun _ => 0) 9 (make_collection 14 [] ds) r 0 = UB.
Proof.
  exists [ex_decay], ex_record. split; [repeat constructor|]. split; [repeat constructor; cbn; lra|].
  split; [cbn; lra|].
  unfold sample_channel. pose proof (find_channels_finds [] (fun _ => 0) (fun _ => 0) 9 ex_record 14 [] [ex_decay] ltac:(repeat constructor)) as F.
  set (f := find_channels _ _ _ _ _ _) in *. clearbody f. cbv zeta. destruct F as [F1 F2 F3 F4 F5 F6 _].
  cbn in F1, F2, F3, F4, F5. rewrite F1, F2, F3, F4.
  destruct (Req_EM_T _ 0); [lra|]. cbn [find_index nth_error selected_prob].
  assert (E : sig_eqb (mksig 14 9 [13])%Z (mksig 14 9 [13])%Z = true) by reflexivity. rewrite E.
  destruct (Req_EM_T _ 0); [lra|].
  unfold uniform. destruct (Rlt_dec _ 0); [lra|]. destruct (Rle_dec _ 0); [|lra].
  destruct (fo_xs f); [reflexivity|discriminate].
Qed.
Print Assumptions C12_zero_draw_refuted.

(** C17: CrossSectionProbability is the share of the record's signature. *)
Theorem C17_share : forall available density target_mass primary xss ds r,
  Forall ignores_target ds ->
  let l := channels xss ds available density target_mass r in
  cross_section_probability available density target_mass (make_collection primary xss ds) r =
  if Req_EM_T (total l) 0 then 0 else sum_sig l (r_signature r) (fun c => ch_rate c * final_state c r) / total l.
Proof. exact probability_is_share. Qed.
Print Assumptions C17_share.

(** C17: it lies in [0,1]. *)
Theorem C17_unit : forall available density target_mass primary xss ds r,
  Forall ignores_target ds ->
  let l := channels xss ds available density target_mass r in
  nonneg l -> (forall c, In c l -> 0 <= final_state c r <= 1) ->
  0 <= cross_section_probability available density target_mass (make_collection primary xss ds) r <= 1.
Proof. exact probability_in_unit. Qed.
Print Assumptions C17_unit.

(** C17: it sums to one over the distinct signatures. *)
Theorem C17_normalised : forall available density target_mass primary xss ds r ss,
  Forall ignores_target ds ->
  let l := channels xss ds available density target_mass r in
  0 < total l -> NoDup ss -> (forall c, In c l -> In (ch_sig c) ss) ->
  (forall s, In s ss -> primary_type s = primary_type (r_signature r)) ->
  (forall c s, In c l -> final_state c (with_signature r s) = 1) ->
  sum_over ss (fun s => cross_section_probability available density target_mass (make_collection primary xss ds) (with_signature r s)) = 1.
Proof. exact probabilities_sum_to_one. Qed.
Print Assumptions C17_normalised.

(** C17: it equals the average over the injector's uniform draw of the final-state
    probability of the chosen channel, counted when the signature is the record's;
    [r0] is the record before, [r] after the final state is known. *)
Theorem C17_equals_generator_frequency : forall available density target_mass decay_target primary xss ds r0 r,
  Forall ignores_target ds -> same_rates xss ds r r0 ->
  let l := channels xss ds available density target_mass r0 in
  nonneg l -> 0 < total l ->
  is_RInt (fun u => outcome_probability
             (sample_channel available density target_mass decay_target (make_collection primary xss ds) r0 u) r) 0 1
    (cross_section_probability available density target_mass (make_collection primary xss ds) r).
Proof. exact probability_is_frequency. Qed.
Print Assumptions C17_equals_generator_frequency.

Example C17_case :
  same_rates [ex_xs] [ex_stable; ex_decay] (with_signature ex_record (mksig 14 1 [11]%Z)) ex_record /\
  cross_section_probability [1; 3]%Z IZR (fun _ => 0) ex_coll (with_signature ex_record (mksig 14 1 [11]%Z)) = / 2.
Proof.
  split; [repeat split|]. unfold ex_coll. rewrite C17_share by exact ex_ignores.
  assert (E : channels [ex_xs] [ex_stable; ex_decay] [1; 3]%Z IZR (fun _ => 0) (with_signature ex_record (mksig 14 1 [11]%Z)) = ex_channels)
    by (apply same_channels; repeat split).
  rewrite E. cbv zeta. rewrite ex_total. destruct (Req_EM_T 4 0); [lra|]. cbn. lra.
Qed.

(** C20: the target types are, in increasing order, exactly the declared targets;
    each target lists its declaring cross sections in order, once per declaration. *)
Theorem C20_index : forall primary xss ds t,
  let c := make_collection primary xss ds in
  co_xs c = xss /\ co_decays c = ds /\ co_primary c = primary /\
  (In t (co_targets c) <-> exists x, In x xss /\ In t (xs_targets x)) /\
  for_target c t = declaring xss t.
Proof. exact collection_index. Qed.
Print Assumptions C20_index.

Theorem C20_targets_sorted : forall primary xss ds, increasing (co_targets (make_collection primary xss ds)).
Proof. exact collection_targets_increasing. Qed.
Print Assumptions C20_targets_sorted.

Theorem C20_unknown_target : forall primary xss ds t,
  (forall x, In x xss -> ~ In t (xs_targets x)) -> for_target (make_collection primary xss ds) t = [].
Proof.
  intros primary xss ds t H. destruct (collection_index primary xss ds t) as [_ [_ [_ [_ ->]]]].
  apply declaring_none. intros [x [I J]]. exact (H x I J).
Qed.
Print Assumptions C20_unknown_target.

(** C20: the by-target totals never throw and are the sums over the declaring
    cross sections, with the record's target replaced. *)
Theorem C20_totals : forall primary xss ds r,
  let c := make_collection primary xss ds in
  total_by_target c r = Ok (map (fun t => (t, sum_over (declaring xss t) (fun x => xs_total x (with_target r t)))) (co_targets c)) /\
  total_by_target_all c r = Ok (map (fun t => (t, sum_over (declaring xss t) (fun x => xs_total_all x (with_target r t)))) (co_targets c)).
Proof. intros. split; apply totals_by_target. Qed.
Print Assumptions C20_totals.

(** C20: the generic constructor splits in order, and throws exactly for an
    interaction that is neither. *)
Theorem C20_generic : forall primary l,
  make_from_interactions primary l =
  if existsb (fun i => match i with IsNeither => true | _ => false end) l then Throw
  else Ok (make_collection primary (flat_map (fun i => match i with IsXs x => [x] | _ => [] end) l)
             (flat_map (fun i => match i with IsDecay d => [d] | _ => [] end) l)).
Proof. exact generic_constructor. Qed.
Print Assumptions C20_generic.

Example C20_case : co_targets ex_coll = [1; 2]%Z /\ for_target ex_coll 2 = [ex_xs; ex_xs] /\ for_target ex_coll 5 = [].
Proof. repeat split. Qed.

(** C21: the inverse of the total length is the sum of the inverses; the total is
    positive, no longer than any single length, and infinite iff all are. *)
Theorem C21_harmonic : forall c r,
  Forall (fun d => pos_length (dc_length_all d r)) (co_decays c) ->
  inverse (total_decay_length c r) = sum_over (co_decays c) (fun d => inverse (dc_length_all d r)) /\
  pos_length (total_decay_length c r) /\
  (forall d, In d (co_decays c) -> shorter (total_decay_length c r) (dc_length_all d r)) /\
  (total_decay_length c r = Inf <-> forall d, In d (co_decays c) -> dc_length_all d r = Inf).
Proof. exact decay_length_harmonic. Qed.
Print Assumptions C21_harmonic.

(** C21: the order of the decays does not matter. *)
Theorem C21_order : forall p1 p2 xs1 xs2 ds1 ds2 r, Permutation ds1 ds2 ->
  total_decay_length (make_collection p1 xs1 ds1) r = total_decay_length (make_collection p2 xs2 ds2) r.
Proof. exact decay_length_order. Qed.
Print Assumptions C21_order.

(** C21: widths add. *)
Theorem C21_width : forall c r, total_width c r = sum_over (co_decays c) (fun d => dc_width_all d r).
Proof. intros c r. unfold total_width. rewrite fold_sum. lra. Qed.
Print Assumptions C21_width.

Example C21_case : Forall (fun d => pos_length (dc_length_all d ex_record)) (co_decays ex_coll) /\
  total_decay_length ex_coll ex_record = Fin (/ 100).
Proof.
  split; [repeat constructor; cbn; lra|]. rewrite total_decay_length_eq. cbn.
  destruct (Req_EM_T _ 0); [lra|]. f_equal. field.
Qed.
