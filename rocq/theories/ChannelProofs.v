(** Proofs about collections and the choice of an interaction. *)
From Coq Require Import List Bool ZArith Reals Lra Lia Permutation.
From Verif Require Import TraversalModel OrderModel InjectorModel ChannelModel ChannelSpec.
Import ListNotations.
Open Scope R_scope.

Ltac inv H := inversion H; subst; clear H.

(** ** Collections *)
Lemma set_insert_in x y l : In y (set_insert x l) <-> y = x \/ In y l.
Proof.
  induction l as [|z l IH]; cbn; [intuition|].
  destruct (Z.ltb_spec x z); cbn; [intuition|].
  destruct (Z.eqb_spec x z); cbn; [subst; intuition|]. rewrite IH. intuition.
Qed.

Inductive increasing : list Z -> Prop :=
| inc_nil : increasing []
| inc_cons x l : (forall y, In y l -> (x < y)%Z) -> increasing l -> increasing (x :: l).

Lemma set_insert_increasing x l : increasing l -> increasing (set_insert x l).
Proof.
  induction 1 as [|z l H I IH]; cbn; [repeat constructor; intros y []|].
  destruct (Z.ltb_spec x z).
  - constructor; [|constructor; auto]. intros y [<-|Hy]; auto. specialize (H y Hy). lia.
  - destruct (Z.eqb_spec x z); [constructor; auto|]. constructor; auto.
    intros y Hy. apply set_insert_in in Hy. destruct Hy as [->|Hy]; auto. lia.
Qed.

Lemma map_find_push {A} (m : list (Z * list A)) t x k :
  map_find (push_target m t x) k =
  if (t =? k)%Z then Some (match map_find m k with Some l => l ++ [x] | None => [x] end) else map_find m k.
Proof.
  unfold map_find. induction m as [|[j l] m IH]; cbn.
  - destruct (Z.eqb_spec t k); auto.
  - destruct (Z.eqb_spec j t) as [->|N]; cbn.
    + destruct (Z.eqb_spec t k); cbn; auto.
    + destruct (Z.eqb_spec j k) as [->|N2]; cbn.
      * destruct (Z.eqb_spec t k); [congruence|]. auto.
      * exact IH.
Qed.

Definition found_list {A} (m : list (Z * list A)) (t : Z) : list A :=
  match map_find m t with Some l => l | None => [] end.

Lemma push_all (x : cross_section) ts : forall m t,
  found_list (fold_left (fun m t => push_target m t x) ts m) t =
  found_list m t ++ map (fun _ => x) (filter (Z.eqb t) ts).
Proof.
  induction ts as [|u ts IH]; intros m t; cbn.
  - rewrite app_nil_r. auto.
  - rewrite IH. unfold found_list. rewrite map_find_push.
    destruct (Z.eqb_spec u t) as [->|N].
    + rewrite Z.eqb_refl. cbn. destruct (map_find m t); rewrite <- ?app_assoc; auto.
    + destruct (Z.eqb_spec t u); [congruence|]. auto.
Qed.

Lemma insert_all ts : forall s t, In t (fold_left (fun s t => set_insert t s) ts s) <-> In t s \/ In t ts.
Proof.
  induction ts as [|u ts IH]; intros s t; cbn; [intuition|]. rewrite IH, set_insert_in. intuition.
Qed.

Lemma insert_all_increasing ts : forall s, increasing s -> increasing (fold_left (fun s t => set_insert t s) ts s).
Proof. induction ts; cbn; auto. intros. apply IHts, set_insert_increasing. auto. Qed.

Lemma initialize_gen xss : forall s m,
  let r := fold_left (fun acc x =>
    (fold_left (fun s t => set_insert t s) (xs_targets x) (fst acc),
     fold_left (fun m t => push_target m t x) (xs_targets x) (snd acc))) xss (s, m) in
  (forall t, In t (fst r) <-> In t s \/ exists x, In x xss /\ In t (xs_targets x)) /\
  (increasing s -> increasing (fst r)) /\
  forall t, found_list (snd r) t = found_list m t ++ declaring xss t.
Proof.
  induction xss as [|x xss IH]; intros s m; cbn.
  - split; [|split]; auto.
    + intros t. split; auto. intros [H|[x [[] _]]]; auto.
    + intros t. rewrite app_nil_r. auto.
  - specialize (IH (fold_left (fun s t => set_insert t s) (xs_targets x) s)
                   (fold_left (fun m t => push_target m t x) (xs_targets x) m)).
    cbn in IH. destruct IH as [H1 [H2 H3]]. split; [|split].
    + intros t. rewrite H1, insert_all. split.
      * intros [[H|H]|[y [Hy Ht]]]; auto; right; eexists; split; eauto.
      * intros [H|[y [[<-|Hy] Ht]]]; auto. right. eauto.
    + intros I. apply H2, insert_all_increasing. auto.
    + intros t. rewrite H3, push_all, <- app_assoc. auto.
Qed.

Lemma map_find_nonempty_push {A} (m : list (Z * list A)) t (x : A) k l :
  (forall k l, map_find m k = Some l -> l <> []) -> map_find (push_target m t x) k = Some l -> l <> [].
Proof.
  intros H. rewrite map_find_push. destruct (t =? k)%Z; [|apply H].
  intros E. inv E. destruct (map_find m k); [destruct l|]; discriminate.
Qed.

(** Keys of the map are exactly the targets. *)
Lemma initialize_keys xss : forall s m,
  (forall t, In t s <-> map_find m t <> None) ->
  let r := fold_left (fun acc x =>
    (fold_left (fun s t => set_insert t s) (xs_targets x) (fst acc),
     fold_left (fun m t => push_target m t x) (xs_targets x) (snd acc))) xss (s, m) in
  forall t, In t (fst r) <-> map_find (snd r) t <> None.
Proof.
  assert (INNER : forall (x : cross_section) ts s m, (forall t, In t s <-> map_find m t <> None) ->
    forall t, In t (fold_left (fun s t => set_insert t s) ts s) <->
      map_find (fold_left (fun m t => push_target m t x) ts m) t <> None).
  { intros x ts. induction ts as [|u ts IH]; intros s m H t; cbn; auto. apply IH.
    intros v. rewrite set_insert_in, map_find_push. destruct (Z.eqb_spec u v) as [->|N].
    - split; [discriminate|auto].
    - rewrite H. intuition. }
  induction xss as [|x xss IH]; intros s m H; cbn; auto.
Qed.

Theorem collection_index primary xss ds t :
  let c := make_collection primary xss ds in
  co_xs c = xss /\ co_decays c = ds /\ co_primary c = primary /\
  (In t (co_targets c) <-> exists x, In x xss /\ In t (xs_targets x)) /\
  for_target c t = declaring xss t.
Proof.
  unfold make_collection. destruct (initialize xss) as [ts m] eqn:E. cbn.
  destruct (initialize_gen xss [] []) as [H1 [H2 H3]]. unfold initialize in E. cbn in *. rewrite E in *. cbn in *.
  repeat split; auto.
  - intros H. apply H1 in H. destruct H as [[]|H]; auto.
  - intros H. apply H1. auto.
  - apply (H3 t).
Qed.

Lemma collection_targets_increasing primary xss ds : increasing (co_targets (make_collection primary xss ds)).
Proof.
  unfold make_collection. destruct (initialize xss) as [ts m] eqn:E. cbn.
  destruct (initialize_gen xss [] []) as [_ [H2 _]]. unfold initialize in E. rewrite E in H2. apply H2. constructor.
Qed.

Lemma increasing_nodup l : increasing l -> NoDup l.
Proof. induction 1 as [|x l H I IH]; constructor; auto. intros J. apply H in J. lia. Qed.

Lemma fold_sum {A} (f : A -> R) l : forall a, fold_left (fun acc x => acc + f x) l a = a + sum_over l f.
Proof.
  induction l as [|x l IH]; intros a; cbn; [lra|]. rewrite IH. unfold sum_over. cbn. lra.
Qed.

Lemma by_target_ok total c r ts :
  (forall t, In t ts -> map_find (co_by_target c) t <> None) ->
  by_target total c r ts =
  Ok (map (fun t => (t, sum_over (for_target c t) (fun x => total x (with_target r t)))) ts).
Proof.
  induction ts as [|t ts IH]; intros H; cbn; auto.
  destruct (map_find (co_by_target c) t) as [l|] eqn:E; [|exfalso; eapply H; [left; eauto|auto]].
  rewrite IH by (intros; apply H; right; auto). do 3 f_equal. unfold for_target. rewrite E. rewrite fold_sum. lra.
Qed.

Theorem totals_by_target (f : cross_section -> record -> R) primary xss ds r :
  let c := make_collection primary xss ds in
  by_target f c r (co_targets c) =
  Ok (map (fun t => (t, sum_over (declaring xss t) (fun x => f x (with_target r t)))) (co_targets c)).
Proof.
  intros c. rewrite by_target_ok.
  - f_equal. apply map_ext. intros t. f_equal. destruct (collection_index primary xss ds t) as [_ [_ [_ [_ H]]]].
    fold c in H. rewrite H. auto.
  - intros t. unfold c, make_collection. destruct (initialize xss) as [ts m] eqn:E. cbn.
    assert (K : forall t, In t (fst (initialize xss)) <-> map_find (snd (initialize xss)) t <> None).
    { apply initialize_keys. intros u. cbn. intuition. }
    rewrite E in K. cbn in K. apply K.
Qed.

Lemma split_ok l : forall xss ds,
  split_interactions l xss ds =
  if existsb (fun i => match i with IsNeither => true | _ => false end) l then Throw
  else Ok (xss ++ flat_map (fun i => match i with IsXs x => [x] | _ => [] end) l,
           ds ++ flat_map (fun i => match i with IsDecay d => [d] | _ => [] end) l).
Proof.
  induction l as [|[x|d|] l IH]; intros xss ds; cbn.
  - rewrite !app_nil_r. auto.
  - rewrite IH. destruct (existsb _ l); auto. rewrite <- app_assoc. auto.
  - rewrite IH. destruct (existsb _ l); auto. rewrite <- app_assoc. auto.
  - auto.
Qed.

Theorem generic_constructor primary l :
  make_from_interactions primary l =
  if existsb (fun i => match i with IsNeither => true | _ => false end) l then Throw
  else Ok (make_collection primary (flat_map (fun i => match i with IsXs x => [x] | _ => [] end) l)
             (flat_map (fun i => match i with IsDecay d => [d] | _ => [] end) l)).
Proof. unfold make_from_interactions. rewrite split_ok. destruct (existsb _ l); auto. Qed.

(** ** Decay lengths *)
Definition pos_length (x : length_) : Prop := match x with Fin x => 0 < x | Inf => True end.
Definition shorter (a b : length_) : Prop :=
  match a, b with Fin x, Fin y => x <= y | _, Inf => True | Inf, Fin _ => False end.

Lemma sum_inv_nonneg {A} (f : A -> length_) l : Forall (fun d => pos_length (f d)) l ->
  0 <= sum_over l (fun d => inverse (f d)).
Proof.
  induction 1 as [|d l H F IH]; cbn; [lra|].
  assert (0 <= inverse (f d)); [|unfold sum_over in *; lra].
  destruct (f d); cbn in *; [|lra]. left. apply Rinv_0_lt_compat. auto.
Qed.

Lemma sum_inv_ge {A} (f : A -> length_) l d : Forall (fun d => pos_length (f d)) l -> In d l ->
  inverse (f d) <= sum_over l (fun d => inverse (f d)).
Proof.
  intros F. induction F as [|e l H F IH]; cbn; [intros []|].
  assert (0 <= inverse (f e)) by (destruct (f e); cbn in *; [left; apply Rinv_0_lt_compat; auto|lra]).
  pose proof (sum_inv_nonneg f l F). unfold sum_over in *.
  intros [->|I]; [lra|]. specialize (IH I). lra.
Qed.

Lemma sum_over_perm {A} (f : A -> R) l l' : Permutation l l' -> sum_over l f = sum_over l' f.
Proof. induction 1; cbn in *; unfold sum_over in *; cbn in *; lra. Qed.

Definition decay_lengths (c : collection) (r : record) : list length_ := map (fun d => dc_length_all d r) (co_decays c).

Lemma total_decay_length_eq c r :
  total_decay_length c r =
  let i := sum_over (co_decays c) (fun d => inverse (dc_length_all d r)) in
  if Req_EM_T i 0 then Inf else Fin (/ i).
Proof.
  unfold total_decay_length. destruct (co_decays c) as [|d l].
  - cbn. destruct (Req_EM_T 0 0); auto. congruence.
  - rewrite fold_sum, Rplus_0_l. reflexivity.
Qed.

Theorem decay_length_harmonic c r :
  Forall (fun d => pos_length (dc_length_all d r)) (co_decays c) ->
  inverse (total_decay_length c r) = sum_over (co_decays c) (fun d => inverse (dc_length_all d r)) /\
  pos_length (total_decay_length c r) /\
  (forall d, In d (co_decays c) -> shorter (total_decay_length c r) (dc_length_all d r)) /\
  (total_decay_length c r = Inf <-> forall d, In d (co_decays c) -> dc_length_all d r = Inf).
Proof.
  intros F. rewrite total_decay_length_eq. cbn zeta.
  pose proof (sum_inv_nonneg (fun d => dc_length_all d r) _ F) as NN.
  set (i := sum_over (co_decays c) (fun d => inverse (dc_length_all d r))) in *.
  assert (GE : forall d, In d (co_decays c) -> inverse (dc_length_all d r) <= i).
  { intros d I. apply (sum_inv_ge (fun d => dc_length_all d r) _ d F I). }
  destruct (Req_EM_T i 0) as [Z|Z].
  - split; [cbn; lra|]. split; [exact I|].
    assert (AL : forall d, In d (co_decays c) -> dc_length_all d r = Inf).
    { intros d I. specialize (GE d I). rewrite Forall_forall in F. specialize (F d I). cbn in F.
      destruct (dc_length_all d r) as [x|]; auto. cbn in *. apply Rinv_0_lt_compat in F. lra. }
    split; [|split; auto]. intros d I. rewrite AL by auto. exact Logic.I.
  - assert (0 < i) by lra. split; [cbn; apply Rinv_inv|]. split; [cbn; apply Rinv_0_lt_compat; auto|]. split.
    + intros d I. specialize (GE d I). rewrite Forall_forall in F. specialize (F d I). cbn in F.
      destruct (dc_length_all d r) as [x|]; cbn in *; auto.
      rewrite <- (Rinv_inv x). apply Rinv_le_contravar; auto. apply Rinv_0_lt_compat; auto.
    + split; [discriminate|]. intros AL. exfalso. apply Z. unfold i. clear -AL.
      induction (co_decays c) as [|d l IH]; cbn; auto. rewrite (AL d) by (left; auto). cbn.
      unfold sum_over in IH. rewrite IH; [lra|]. intros; apply AL; right; auto.
Qed.

Theorem decay_length_order p1 p2 xs1 xs2 ds1 ds2 r : Permutation ds1 ds2 ->
  total_decay_length (make_collection p1 xs1 ds1) r = total_decay_length (make_collection p2 xs2 ds2) r.
Proof.
  intros P. rewrite !total_decay_length_eq.
  destruct (collection_index p1 xs1 ds1 0) as [_ [-> _]]. destruct (collection_index p2 xs2 ds2 0) as [_ [-> _]].
  rewrite (sum_over_perm _ _ _ P). reflexivity.
Qed.

(** ** Channels *)
Section Sample.
Variable available : list Z.
Variable density : Z -> R.
Variable target_mass : Z -> R.
Variable decay_target : Z.

(** Running sums. *)
Fixpoint running (a : R) (l : list channel) : list R :=
  match l with [] => [] | c :: r => (a + ch_rate c) :: running (a + ch_rate c) r end.

Lemma total_app l1 l2 : total (l1 ++ l2) = total l1 + total l2.
Proof. induction l1; cbn; lra. Qed.

Lemma running_app l1 : forall a l2, running a (l1 ++ l2) = running a l1 ++ running (a + total l1) l2.
Proof.
  induction l1 as [|c l1 IH]; intros a l2; cbn.
  - rewrite Rplus_0_r. auto.
  - rewrite IH. do 3 f_equal. lra.
Qed.

Definition xs_of (l : list channel) : list cross_section :=
  flat_map (fun c => match ch_source c with inl x => [x] | inr _ => [] end) l.
Definition decays_of (l : list channel) : list decay :=
  flat_map (fun c => match ch_source c with inr d => [d] | inl _ => [] end) l.

(** [f] has found the channels [lx] (cross sections) and [ld] (decays). *)
Record finds (r : record) (f : found) (lx ld : list channel) : Prop := {
  fi_total : fo_total f = total (lx ++ ld);
  fi_xsec : fo_xsec f = total lx;
  fi_probs : fo_probs f = running 0 (lx ++ ld);
  fi_sigs : fo_sigs f = map ch_sig (lx ++ ld);
  fi_xs : map inl (fo_xs f) = map ch_source lx;
  fi_decays : map inr (fo_decays f) = map ch_source ld;
  fi_fake : exists s m, fo_fake f = with_target_mass (with_signature r s) m
}.

Definition xs_chan (r : record) (t : Z) (x : cross_section) (s : signature) : channel :=
  mkch s (inl x) (density t * xs_total x (with_target_mass (with_signature r s) (target_mass t))).

Lemma xs_sig_finds r t x sigs : forall f lx, finds r f lx [] ->
  finds r (xs_signature_loop target_mass t (density t) x sigs f) (lx ++ map (xs_chan r t x) sigs) [].
Proof.
  induction sigs as [|s sigs IH]; intros f lx F; cbn.
  - rewrite app_nil_r. auto.
  - replace (lx ++ xs_chan r t x s :: map (xs_chan r t x) sigs) with ((lx ++ [xs_chan r t x s]) ++ map (xs_chan r t x) sigs)
      by (rewrite <- app_assoc; auto).
    apply IH. destruct F as [F1 F2 F3 F4 F5 F6 [s0 [m0 F7]]]. rewrite app_nil_r in F1, F3, F4.
    set (fake := with_target_mass (with_signature (fo_fake f) s) (target_mass t)).
    assert (EF : fake = with_target_mass (with_signature r s) (target_mass t)).
    { unfold fake. rewrite F7. reflexivity. }
    split; cbn; rewrite ?app_nil_r.
    + rewrite total_app, F1. cbn. rewrite EF. lra.
    + rewrite total_app, F2. cbn. rewrite EF. lra.
    + rewrite running_app, F3, F1. cbn. rewrite EF. rewrite Rplus_0_l. auto.
    + rewrite map_app, F4. auto.
    + rewrite !map_app, F5. auto.
    + auto.
    + exists s, (target_mass t). rewrite EF. auto.
Qed.

Lemma xs_loop_finds r t l : forall f lx, finds r f lx [] ->
  finds r (xs_loop target_mass (primary_type (r_signature r)) t (density t) l f)
    (lx ++ flat_map (fun x => map (xs_chan r t x) (xs_signatures x (primary_type (r_signature r)) t)) l) [].
Proof.
  induction l as [|x l IH]; intros f lx F; cbn.
  - rewrite app_nil_r. auto.
  - rewrite app_assoc. apply IH. apply xs_sig_finds. auto.
Qed.

Lemma existsb_Zeqb t l : existsb (Z.eqb t) l = true <-> In t l.
Proof.
  rewrite existsb_exists. split.
  - intros [x [I E]]. apply Z.eqb_eq in E. subst. auto.
  - intros I. exists t. split; auto. apply Z.eqb_refl.
Qed.

Lemma declaring_none xss t : ~ (exists x, In x xss /\ In t (xs_targets x)) -> declaring xss t = [].
Proof.
  intros H. unfold declaring. induction xss as [|x xss IH]; cbn; auto.
  rewrite IH by (intros [y [I J]]; apply H; exists y; split; [right|]; auto).
  rewrite app_nil_r. destruct (filter (Z.eqb t) (xs_targets x)) as [|y l] eqn:E; auto. exfalso. apply H.
  exists x. split; [left; auto|]. assert (I : In y (filter (Z.eqb t) (xs_targets x))) by (rewrite E; left; auto).
  apply filter_In in I. destruct I as [I Y]. apply Z.eqb_eq in Y. subst. auto.
Qed.

Lemma target_loop_finds r primary xss ds ts : forall f lx, finds r f lx [] ->
  finds r (target_loop density target_mass (make_collection primary xss ds) (primary_type (r_signature r)) ts f)
    (lx ++ xs_channels xss ts density target_mass r) [].
Proof.
  induction ts as [|t ts IH]; intros f lx F; cbn [target_loop xs_channels flat_map].
  - rewrite app_nil_r. auto.
  - rewrite app_assoc. apply IH. destruct (collection_index primary xss ds t) as [_ [_ [_ [HT HF]]]]. cbn in HT, HF.
    destruct (existsb (Z.eqb t) (co_targets (make_collection primary xss ds))) eqn:E.
    + rewrite HF. apply (xs_loop_finds r t). auto.
    + assert (N : ~ In t (co_targets (make_collection primary xss ds))).
      { intros I. apply existsb_Zeqb in I. congruence. }
      rewrite (declaring_none xss t) by (rewrite <- HT; auto). cbn. rewrite app_nil_r. auto.
Qed.

Definition dc_chan (r : record) (d : decay) (s : signature) : channel :=
  mkch s (inr d) (match dc_length d (with_signature r s) with Fin x => / (100 * x) | Inf => 0 end).

Lemma decay_rate_eq x : decay_rate x = match x with Fin x => / (100 * x) | Inf => 0 end.
Proof. destruct x as [x|]; cbn; auto. unfold cm. f_equal. unfold Rdiv. rewrite Rinv_inv. lra. Qed.

Lemma ignores_fake r f lx ld d s : ignores_target d -> finds r f lx ld ->
  dc_length d (with_signature (fo_fake f) s) = dc_length d (with_signature r s).
Proof.
  intros I F. destruct (fi_fake _ _ _ _ F) as [s0 [m0 ->]].
  change (with_signature (with_target_mass (with_signature r s0) m0) s)
    with (with_target_mass (with_signature r s) m0). apply I.
Qed.

Lemma decay_sig_finds r d sigs : ignores_target d -> forall f lx ld, finds r f lx ld ->
  finds r (decay_signature_loop decay_target d sigs f) lx (ld ++ map (dc_chan r d) sigs).
Proof.
  intros I. induction sigs as [|s sigs IH]; intros f lx ld F; cbn.
  - rewrite app_nil_r. auto.
  - replace (ld ++ dc_chan r d s :: map (dc_chan r d) sigs) with ((ld ++ [dc_chan r d s]) ++ map (dc_chan r d) sigs)
      by (rewrite <- app_assoc; auto).
    apply IH. rewrite decay_rate_eq, (ignores_fake r f lx ld d s I F).
    destruct F as [F1 F2 F3 F4 F5 F6 [s0 [m0 F7]]].
    split; cbn; auto.
    + rewrite app_assoc, total_app, F1. cbn. lra.
    + rewrite app_assoc, running_app, F3, F1. cbn. rewrite Rplus_0_l. auto.
    + rewrite app_assoc, map_app, F4. auto.
    + rewrite !map_app, F6. auto.
    + exists s, m0. rewrite F7. reflexivity.
Qed.

Lemma decay_loop_finds r ds : Forall ignores_target ds -> forall f lx ld, finds r f lx ld ->
  finds r (decay_loop decay_target (primary_type (r_signature r)) ds f) lx (ld ++ decay_channels ds r).
Proof.
  induction 1 as [|d ds I FI IH]; intros f lx ld F; cbn [decay_loop decay_channels flat_map].
  - rewrite app_nil_r. auto.
  - rewrite app_assoc. apply IH. apply (decay_sig_finds r d); auto.
Qed.

Lemma xs_channels_nil r ts : xs_channels [] ts density target_mass r = [].
Proof. unfold xs_channels. induction ts; cbn; auto. Qed.

Lemma find_channels_finds r primary xss ds : Forall ignores_target ds ->
  finds r (find_channels available density target_mass decay_target (make_collection primary xss ds) r)
    (xs_channels xss available density target_mass r) (decay_channels ds r).
Proof.
  intros I. unfold find_channels.
  destruct (collection_index primary xss ds 0) as [EX [ED _]]. cbn in EX, ED. rewrite EX, ED.
  set (f0 := mkfound 0 0 [] [] [] [] [] r).
  assert (F0 : finds r f0 [] []).
  { split; cbn; auto. exists (r_signature r), (r_target_mass r). destruct r; reflexivity. }
  assert (F1 : finds r (match xss with [] => f0 | _ :: _ =>
      target_loop density target_mass (make_collection primary xss ds) (primary_type (r_signature r)) available f0 end)
      (xs_channels xss available density target_mass r) []).
  { destruct xss as [|x xss].
    - rewrite xs_channels_nil. auto.
    - apply (target_loop_finds r primary (x :: xss) ds available f0 []). auto. }
  destruct ds as [|d ds]; auto. apply (decay_loop_finds r (d :: ds) I _ _ []). auto.
Qed.

(** ** The index *)
Lemma before_0 l : before_ l 0 = 0.
Proof. reflexivity. Qed.

Lemma before_S c l k : before_ (c :: l) (S k) = ch_rate c + before_ l k.
Proof. reflexivity. Qed.

Lemma before_step l : forall k c, nth_error l k = Some c -> before_ l (S k) = before_ l k + ch_rate c.
Proof.
  induction l as [|d l IH]; intros [|k] c H; try discriminate; cbn in H.
  - inv H. rewrite before_S, !before_0. lra.
  - rewrite !before_S, (IH _ _ H). lra.
Qed.

Definition nonneg (l : list channel) : Prop := Forall (fun c => 0 <= ch_rate c) l.

Lemma total_nonneg l : nonneg l -> 0 <= total l.
Proof. induction 1; cbn; lra. Qed.

Lemma nonneg_firstn l k : nonneg l -> nonneg (firstn k l).
Proof. intros H. revert k. induction H; intros [|k]; cbn; constructor; auto. apply IHForall. Qed.

Lemma before_mono l : nonneg l -> forall j k, (j <= k)%nat -> before_ l j <= before_ l k.
Proof.
  intros H. induction H as [|c l Hc H IH]; intros j k L.
  - unfold before_. rewrite !firstn_nil. lra.
  - destruct j as [|j]; [|destruct k as [|k]; [lia|]].
    + rewrite before_0. unfold before_. apply total_nonneg. apply nonneg_firstn. constructor; auto.
    + rewrite !before_S. specialize (IH j k ltac:(lia)). lra.
Qed.

Lemma before_all l : before_ l (length l) = total l.
Proof. unfold before_. rewrite firstn_all. auto. Qed.

(** The index found is the one whose interval holds the draw. *)
Lemma find_index_spec l : forall a x i, l <> [] -> a < x -> x <= a + total l -> nonneg l ->
  exists k c, find_index x (running a l) i = (i + k)%nat /\ nth_error l k = Some c /\
    a + before_ l k < x <= a + before_ l (S k).
Proof.
  induction l as [|c l IH]; intros a x i N A B NN; [congruence|].
  cbn [running find_index]. inv NN.
  destruct l as [|d l].
  - cbn. exists 0%nat, c. rewrite Nat.add_0_r. cbn in *. unfold before_. cbn. repeat split; auto; lra.
  - cbn [running]. destruct (Rlt_dec (a + ch_rate c) x) as [L|L].
    + destruct (IH (a + ch_rate c) x (S i)) as [k [e [E [NE I]]]]; auto; try discriminate.
      { cbn in B. cbn. lra. }
      cbn [running] in E. exists (S k), e. split; [rewrite E; lia|]. split; auto. rewrite !(before_S c). lra.
    + exists 0%nat, c. rewrite Nat.add_0_r. split; auto. split; auto. rewrite before_S, !before_0. lra.
Qed.

Lemma interval_unique l x j k : nonneg l -> before_ l j < x <= before_ l (S j) -> before_ l k < x <= before_ l (S k) -> j = k.
Proof.
  intros NN A B. destruct (lt_eq_lt_dec j k) as [[L|L]|L]; auto; exfalso.
  - pose proof (before_mono l NN (S j) k L). lra.
  - pose proof (before_mono l NN (S k) j L). lra.
Qed.

Lemma selected_prob_sum s l : forall a, selected_prob s (map ch_sig l) (running a l) a =
  sum_over l (fun c => if sig_eqb s (ch_sig c) then ch_rate c else 0).
Proof.
  induction l as [|c l IH]; intros a; cbn; auto. rewrite IH. unfold sum_over.
  destruct (sig_eqb s (ch_sig c)); lra.
Qed.

Lemma sig_eqb_eq a b : sig_eqb a b = true <-> a = b.
Proof.
  unfold sig_eqb. destruct a as [a1 a2 a3], b as [b1 b2 b3]. cbn [primary_type target_type secondary_types]. rewrite !andb_true_iff, !Z.eqb_eq.
  destruct (list_eq_dec Z.eq_dec a3 b3) as [->|N]; split; intros H.
  - destruct H as [[-> ->] _]. reflexivity.
  - injection H as -> ->. repeat split; reflexivity.
  - destruct H as [_ H]. discriminate.
  - injection H as _ _ H. contradiction.
Qed.

Lemma sum_over_nonneg {A} (l : list A) f : (forall x, In x l -> 0 <= f x) -> 0 <= sum_over l f.
Proof.
  induction l as [|x l IH]; cbn; intros H; [lra|]. pose proof (H x (or_introl eq_refl)).
  unfold sum_over in *. assert (0 <= fold_right (fun x acc => f x + acc) 0 l) by (apply IH; auto). lra.
Qed.

Lemma sum_over_ge {A} (l : list A) f x : (forall x, In x l -> 0 <= f x) -> In x l -> f x <= sum_over l f.
Proof.
  induction l as [|y l IH]; cbn; intros H; [intros []|intros [->|I]].
  - assert (0 <= sum_over l f) by (apply sum_over_nonneg; auto). unfold sum_over in *. lra.
  - pose proof (H y (or_introl eq_refl)). unfold sum_over in *. specialize (IH (fun x h => H x (or_intror h)) I). lra.
Qed.

Lemma map_inl_nth {A B} (l : list A) (m : list (A + B)) k x : map inl l = m -> nth_error m k = Some (inl x) -> nth_error l k = Some x.
Proof. intros <- H. rewrite nth_error_map in H. destruct (nth_error l k); inv H. auto. Qed.
Lemma map_inr_nth {A B} (l : list B) (m : list (A + B)) k x : map inr l = m -> nth_error m k = Some (inr x) -> nth_error l k = Some x.
Proof. intros <- H. rewrite nth_error_map in H. destruct (nth_error l k); inv H. auto. Qed.

Lemma xs_channels_source xss ts r c : In c (xs_channels xss ts density target_mass r) -> exists x, ch_source c = inl x.
Proof.
  unfold xs_channels. rewrite in_flat_map. intros [t [_ H]]. rewrite in_flat_map in H. destruct H as [x [_ H]].
  apply in_map_iff in H. destruct H as [s [<- _]]. eexists. reflexivity.
Qed.

Lemma decay_channels_source ds r c : In c (decay_channels ds r) -> exists d, ch_source c = inr d.
Proof.
  unfold decay_channels. rewrite in_flat_map. intros [d [_ H]].
  apply in_map_iff in H. destruct H as [s [<- _]]. eexists. reflexivity.
Qed.

Lemma before_app_le l1 l2 k : (k <= length l1)%nat -> before_ (l1 ++ l2) k = before_ l1 k.
Proof.
  intros L. unfold before_. rewrite firstn_app. replace (k - length l1)%nat with 0%nat by lia. cbn.
  rewrite app_nil_r. auto.
Qed.

Theorem sample_picks primary xss ds r u k c :
  Forall ignores_target ds ->
  let l := channels xss ds available density target_mass r in
  nonneg l -> nth_error l k = Some c ->
  before_ l k < u * total l <= before_ l (S k) ->
  sample_channel available density target_mass decay_target (make_collection primary xss ds) r u
    = Ok (chosen target_mass r c).
Proof.
  intros I l NN NK INT.
  assert (CP : 0 < ch_rate c) by (pose proof (before_step l k c NK); lra).
  assert (LK : (k < length l)%nat) by (apply nth_error_Some; congruence).
  assert (TP : 0 < total l).
  { rewrite <- before_all. pose proof (before_mono l NN 0 k ltac:(lia)). pose proof (before_mono l NN (S k) (length l) ltac:(lia)).
    rewrite before_0 in *. pose proof (before_step l k c NK). lra. }
  unfold sample_channel. pose proof (find_channels_finds r primary xss ds I) as F.
  set (f := find_channels _ _ _ _ _ _) in *. cbv zeta.
  destruct F as [F1 F2 F3 F4 F5 F6 _].
  change (xs_channels xss available density target_mass r ++ decay_channels ds r) with l in *.
  rewrite F1. destruct (Req_EM_T (total l) 0); [lra|].
  assert (EU : uniform u 0 (total l) = u * total l).
  { unfold uniform. destruct (Rlt_dec (total l) 0); lra. }
  rewrite EU. set (x := u * total l) in *.
  destruct (find_index_spec l 0 x 0) as [k' [c' [E [NE IE]]]]; auto.
  { destruct l; [destruct k|]; discriminate. }
  { pose proof (before_mono l NN 0 k ltac:(lia)). rewrite before_0 in *. lra. }
  { rewrite Rplus_0_l, <- before_all. pose proof (before_mono l NN (S k) (length l) ltac:(lia)). lra. }
  assert (k' = k) by (apply (interval_unique l x); auto; lra). subst k'.
  rewrite NK in NE. inv NE. rewrite F3, E. cbn [plus]. rewrite F4, nth_error_map, NK. cbn [option_map].
  rewrite selected_prob_sum.
  assert (SP : ch_rate c' <= sum_over l (fun c0 => if sig_eqb (ch_sig c') (ch_sig c0) then ch_rate c0 else 0)).
  { pose proof (sum_over_ge l (fun c0 => if sig_eqb (ch_sig c') (ch_sig c0) then ch_rate c0 else 0) c') as G. cbn beta in G.
    assert (EE : sig_eqb (ch_sig c') (ch_sig c') = true) by (apply sig_eqb_eq; auto). rewrite EE in G. apply G.
    - intros y Hy. unfold nonneg in NN. rewrite Forall_forall in NN. specialize (NN y Hy). cbn beta in NN. destruct (sig_eqb (ch_sig c') (ch_sig y)); lra.
    - eapply nth_error_In; eauto. }
  match goal with |- context[Req_EM_T ?a 0] => destruct (Req_EM_T a 0); [lra|] end.
  set (lx := xs_channels xss available density target_mass r) in *. set (ld := decay_channels ds r) in *.
  assert (LX : length (fo_xs f) = length lx).
  { apply (f_equal (@length _)) in F5. rewrite !map_length in F5. auto. }
  assert (SPLIT : nth_error (lx ++ ld) k = Some c') by exact NK.
  rewrite F2. destruct (Rle_dec x (total lx)) as [LE|GT].
  - assert (kl : (k < length lx)%nat).
    { destruct (le_lt_dec (length lx) k) as [G|]; auto. exfalso.
      pose proof (before_mono l NN (length lx) k G) as M. unfold l, channels in M. fold lx ld in M.
      rewrite before_app_le in M by lia. rewrite before_all in M. change (lx ++ ld) with l in M. lra. }
    rewrite nth_error_app1 in SPLIT by auto.
    destruct (xs_channels_source xss available r c') as [y Ey]; [eapply nth_error_In; exact SPLIT|].
    assert (NX : nth_error (fo_xs f) k = Some y).
    { eapply map_inl_nth; [exact F5|]. rewrite nth_error_map, SPLIT. cbn. rewrite Ey. auto. }
    rewrite NX. unfold chosen. rewrite Ey. auto.
  - assert (kl : (length lx <= k)%nat).
    { destruct (le_lt_dec (length lx) k) as [G|G]; auto. exfalso.
      pose proof (before_mono l NN (S k) (length lx) G) as M. unfold l, channels in M. fold lx ld in M.
      rewrite (before_app_le lx ld (length lx)) in M by lia. rewrite before_all in M. change (lx ++ ld) with l in M. lra. }
    rewrite LX. assert (LT : Nat.ltb k (length lx) = false) by (apply Nat.ltb_ge; auto). rewrite LT.
    rewrite nth_error_app2 in SPLIT by auto.
    destruct (decay_channels_source ds r c') as [y Ey]; [eapply nth_error_In; exact SPLIT|].
    assert (NX : nth_error (fo_decays f) (k - length lx) = Some y).
    { eapply map_inr_nth; [exact F6|]. rewrite nth_error_map, SPLIT. cbn. rewrite Ey. auto. }
    rewrite NX. unfold chosen. rewrite Ey. auto.
Qed.

(** Every draw in (0, 1] falls into the interval of one channel. *)
Theorem draw_has_channel (l : list channel) u : nonneg l -> 0 < total l -> 0 < u <= 1 ->
  exists k c, nth_error l k = Some c /\ 0 < ch_rate c /\ before_ l k < u * total l <= before_ l (S k).
Proof.
  intros NN T U.
  destruct (find_index_spec l 0 (u * total l) 0) as [k [c [_ [NK INT]]]]; auto.
  - destruct l; [cbn in T; lra|discriminate].
  - apply Rmult_lt_0_compat; lra.
  - rewrite Rplus_0_l. rewrite <- (Rmult_1_l (total l)) at 2. apply Rmult_le_compat_r; lra.
  - exists k, c. rewrite !Rplus_0_l in INT. split; auto. pose proof (before_step l k c NK). split; lra.
Qed.

Theorem sample_total primary xss ds r u :
  Forall ignores_target ds ->
  let l := channels xss ds available density target_mass r in
  nonneg l -> 0 < total l -> 0 < u <= 1 ->
  exists k c, nth_error l k = Some c /\ 0 < ch_rate c /\ before_ l k < u * total l <= before_ l (S k) /\
    sample_channel available density target_mass decay_target (make_collection primary xss ds) r u
      = Ok (chosen target_mass r c).
Proof.
  intros I l NN T U. destruct (draw_has_channel l u NN T U) as [k [c [NK [CP INT]]]].
  exists k, c. repeat split; auto; try lra. eapply sample_picks; eauto.
Qed.

(** No channel: the injection fails. *)
Theorem sample_fails primary xss ds r u :
  Forall ignores_target ds ->
  total (channels xss ds available density target_mass r) = 0 ->
  sample_channel available density target_mass decay_target (make_collection primary xss ds) r u = Throw.
Proof.
  intros I T. unfold sample_channel. pose proof (find_channels_finds r primary xss ds I) as F.
  cbv zeta. rewrite (fi_total _ _ _ _ F).
  change (xs_channels xss available density target_mass r ++ decay_channels ds r) with (channels xss ds available density target_mass r).
  rewrite T. destruct (Req_EM_T 0 0); auto. congruence.
Qed.

(** Cross sections are chosen for draws up to their share of the total. *)
Theorem sample_kind primary xss ds r u :
  Forall ignores_target ds ->
  let l := channels xss ds available density target_mass r in
  nonneg l -> 0 < total l -> 0 < u <= 1 ->
  (u <= total (xs_channels xss available density target_mass r) / total l <->
   exists x r1, sample_channel available density target_mass decay_target (make_collection primary xss ds) r u = Ok (ChoseXs x r1)).
Proof.
  intros I l NN T U. destruct (sample_total primary xss ds r u I NN T U) as [k [c [NK [CP [INT E]]]]]. rewrite E.
  fold l in NK, INT.
  set (lx := xs_channels xss available density target_mass r) in *. set (ld := decay_channels ds r).
  assert (EQ : u <= total lx / total l <-> u * total l <= total lx).
  { split; intros H.
    - apply (Rmult_le_compat_r (total l)) in H; [|lra]. unfold Rdiv in H. rewrite Rmult_assoc, Rinv_l in H by lra. lra.
    - apply (Rmult_le_reg_r (total l)); auto. unfold Rdiv. rewrite Rmult_assoc, Rinv_l by lra. lra. }
  rewrite EQ. assert (BX : before_ l (length lx) = total lx).
  { unfold l, channels. fold lx. rewrite before_app_le by lia. apply before_all. }
  assert (NK2 : nth_error (lx ++ ld) k = Some c) by exact NK.
  destruct (le_lt_dec (length lx) k) as [G|G].
  - rewrite nth_error_app2 in NK2 by auto. destruct (decay_channels_source ds r c) as [y Ey]; [eapply nth_error_In; exact NK2|].
    split.
    + intros H. pose proof (before_mono l NN _ _ G). lra.
    + intros [x [r1 H]]. unfold chosen in H. rewrite Ey in H. discriminate.
  - rewrite nth_error_app1 in NK2 by auto. destruct (xs_channels_source xss available r c) as [y Ey]; [eapply nth_error_In; exact NK2|].
    split.
    + intros _. unfold chosen. rewrite Ey. eauto.
    + intros _. pose proof (before_mono l NN (S k) (length lx) G). lra.
Qed.

(** ** CrossSectionProbability *)
Definition sums (r : record) (l : list channel) (acc : R * R * record) : Prop :=
  let '(tot, sel, fake) := acc in
  tot = total l /\ sel = sum_sig l (r_signature r) (fun c => ch_rate c * final_state c r) /\
  exists s m, fake = with_target_mass (with_signature r s) m.

Lemma sum_sig_app l1 l2 s f : sum_sig (l1 ++ l2) s f = sum_sig l1 s f + sum_sig l2 s f.
Proof. induction l1; cbn; lra. Qed.

Lemma wu_decay_sigs_sums r d sigs : ignores_target d -> forall l acc, sums r l acc ->
  sums r (l ++ map (dc_chan r d) sigs) (wu_decay_sigs r d sigs acc).
Proof.
  intros I. induction sigs as [|s sigs IH]; intros l [[tot sel] fake] H; cbn [wu_decay_sigs map].
  - rewrite app_nil_r. auto.
  - replace (l ++ dc_chan r d s :: map (dc_chan r d) sigs) with ((l ++ [dc_chan r d s]) ++ map (dc_chan r d) sigs)
      by (rewrite <- app_assoc; auto).
    apply IH. destruct H as [H1 [H2 [s0 [m0 H3]]]].
    assert (E : dc_length d (with_signature fake s) = dc_length d (with_signature r s)).
    { rewrite H3. change (with_signature (with_target_mass (with_signature r s0) m0) s)
        with (with_target_mass (with_signature r s) m0). apply I. }
    cbn. rewrite decay_rate_eq, E. split; [rewrite total_app, H1; cbn; lra|]. split.
    + rewrite sum_sig_app. cbn. rewrite <- H2. destruct (sig_eqb s (r_signature r)); unfold final_state; cbn; lra.
    + exists s, m0. rewrite H3. reflexivity.
Qed.

Lemma wu_decays_sums r ds : Forall ignores_target ds -> forall l acc, sums r l acc ->
  sums r (l ++ decay_channels ds r) (wu_decays r ds acc).
Proof.
  induction 1 as [|d ds I F IH]; intros l acc H; cbn [wu_decays decay_channels flat_map].
  - rewrite app_nil_r. auto.
  - rewrite app_assoc. apply IH. apply (wu_decay_sigs_sums r d); auto.
Qed.

Lemma wu_xs_sigs_sums r t x sigs : forall l acc, sums r l acc ->
  sums r (l ++ map (xs_chan r t x) sigs) (wu_xs_sigs target_mass r t (density t) x sigs acc).
Proof.
  induction sigs as [|s sigs IH]; intros l [[tot sel] fake] H; cbn [wu_xs_sigs map].
  - rewrite app_nil_r. auto.
  - replace (l ++ xs_chan r t x s :: map (xs_chan r t x) sigs) with ((l ++ [xs_chan r t x s]) ++ map (xs_chan r t x) sigs)
      by (rewrite <- app_assoc; auto).
    apply IH. destruct H as [H1 [H2 [s0 [m0 H3]]]].
    assert (E : with_target_mass (with_signature fake s) (target_mass t) = with_target_mass (with_signature r s) (target_mass t)).
    { rewrite H3. reflexivity. }
    cbn. rewrite E. split; [rewrite total_app, H1; cbn; lra|]. split.
    + rewrite sum_sig_app. cbn. rewrite <- H2. destruct (sig_eqb s (r_signature r)); unfold final_state; cbn; lra.
    + exists s, (target_mass t). reflexivity.
Qed.

Lemma wu_xs_sums r t xl : forall l acc, sums r l acc ->
  sums r (l ++ flat_map (fun x => map (xs_chan r t x) (xs_signatures x (primary_type (r_signature r)) t)) xl)
    (wu_xs target_mass r t (density t) xl acc).
Proof.
  induction xl as [|x xl IH]; intros l acc H; cbn [wu_xs flat_map].
  - rewrite app_nil_r. auto.
  - rewrite app_assoc. apply IH. apply wu_xs_sigs_sums. auto.
Qed.

Lemma wu_targets_sums r primary xss ds ts : forall l acc, sums r l acc ->
  sums r (l ++ xs_channels xss ts density target_mass r)
    (wu_targets density target_mass r (make_collection primary xss ds) ts acc).
Proof.
  induction ts as [|t ts IH]; intros l acc H; cbn [wu_targets xs_channels flat_map].
  - rewrite app_nil_r. auto.
  - rewrite app_assoc. apply IH. destruct (collection_index primary xss ds t) as [_ [_ [_ [HT HF]]]]. cbn in HT, HF.
    destruct (existsb (Z.eqb t) (co_targets (make_collection primary xss ds))) eqn:E.
    + rewrite HF. apply (wu_xs_sums r t). auto.
    + assert (N : ~ In t (co_targets (make_collection primary xss ds))).
      { intros J. apply existsb_Zeqb in J. congruence. }
      rewrite (declaring_none xss t) by (rewrite <- HT; auto). cbn. rewrite app_nil_r. auto.
Qed.

Lemma sum_sig_comm l1 l2 s f : sum_sig (l1 ++ l2) s f = sum_sig (l2 ++ l1) s f.
Proof. rewrite !sum_sig_app. lra. Qed.

Theorem probability_is_share primary xss ds r :
  Forall ignores_target ds ->
  let l := channels xss ds available density target_mass r in
  cross_section_probability available density target_mass (make_collection primary xss ds) r =
  if Req_EM_T (total l) 0 then 0 else sum_sig l (r_signature r) (fun c => ch_rate c * final_state c r) / total l.
Proof.
  intros I l. unfold cross_section_probability.
  destruct (collection_index primary xss ds 0) as [_ [ED _]]. cbn in ED. rewrite ED.
  assert (S0 : sums r [] (0, 0, r)).
  { cbn. repeat split; auto. exists (r_signature r), (r_target_mass r). destruct r; reflexivity. }
  pose proof (wu_decays_sums r ds I _ _ S0) as S1.
  pose proof (wu_targets_sums r primary xss ds available _ _ S1) as S2. cbn [app] in S2.
  destruct (wu_targets _ _ _ _ _ _) as [[tot sel] fake]. destruct S2 as [-> [-> _]].
  rewrite total_app, Rplus_comm, <- total_app, sum_sig_comm. reflexivity.
Qed.

Lemma sum_sig_le l s f g : (forall c, In c l -> f c <= g c) -> sum_sig l s f <= sum_sig l s g.
Proof.
  induction l as [|c l IH]; cbn; intros H; [lra|].
  assert (sum_sig l s f <= sum_sig l s g) by (apply IH; auto). pose proof (H c (or_introl eq_refl)).
  destruct (sig_eqb (ch_sig c) s); lra.
Qed.

Lemma sum_sig_nonneg l s f : (forall c, In c l -> 0 <= f c) -> 0 <= sum_sig l s f.
Proof.
  induction l as [|c l IH]; cbn; intros H; [lra|].
  assert (0 <= sum_sig l s f) by (apply IH; auto). pose proof (H c (or_introl eq_refl)).
  destruct (sig_eqb (ch_sig c) s); lra.
Qed.

Lemma sum_sig_total l s : nonneg l -> sum_sig l s ch_rate <= total l.
Proof. induction 1 as [|c l H N IH]; cbn; [lra|]. destruct (sig_eqb (ch_sig c) s); lra. Qed.

Theorem probability_in_unit primary xss ds r :
  Forall ignores_target ds ->
  let l := channels xss ds available density target_mass r in
  nonneg l -> (forall c, In c l -> 0 <= final_state c r <= 1) ->
  0 <= cross_section_probability available density target_mass (make_collection primary xss ds) r <= 1.
Proof.
  intros I l NN FS. rewrite probability_is_share by auto. cbv zeta. fold l.
  destruct (Req_EM_T (total l) 0) as [Z|Z]; [lra|].
  pose proof (total_nonneg l NN) as TN. assert (TP : 0 < total l) by lra.
  unfold nonneg in NN. pose proof NN as NN'. rewrite Forall_forall in NN.
  assert (A : 0 <= sum_sig l (r_signature r) (fun c => ch_rate c * final_state c r)).
  { apply sum_sig_nonneg. intros c H. apply Rmult_le_pos; [apply NN; auto|apply FS; auto]. }
  assert (B : sum_sig l (r_signature r) (fun c => ch_rate c * final_state c r) <= total l).
  { eapply Rle_trans; [|apply (sum_sig_total l (r_signature r)); auto]. apply sum_sig_le. intros c H.
    rewrite <- (Rmult_1_r (ch_rate c)) at 2. apply Rmult_le_compat_l; [apply NN; auto|apply FS; auto]. }
  split.
  - apply Rmult_le_pos; auto. left. apply Rinv_0_lt_compat. auto.
  - apply (Rmult_le_reg_r (total l)); auto. unfold Rdiv. rewrite Rmult_assoc, Rinv_l by lra. lra.
Qed.

(** Summed over distinct signatures covering the channels. *)
Lemma sum_over_sigs l ss f : NoDup ss -> (forall c, In c l -> In (ch_sig c) ss) ->
  sum_over ss (fun s => sum_sig l s f) = sum_over l f.
Proof.
  intros ND. induction l as [|c l IH]; intros H; cbn [sum_sig].
  - change (sum_over [] f) with 0. clear. induction ss; cbn; [auto|unfold sum_over in IHss; rewrite IHss; lra].
  - change (sum_over (c :: l) f) with (f c + sum_over l f). rewrite <- IH by (intros; apply H; right; auto).
    assert (D : forall (g h : signature -> R), sum_over ss (fun s => g s + h s) = sum_over ss g + sum_over ss h).
    { intros g h. clear. induction ss; cbn; [lra|]. unfold sum_over in *. rewrite IHss. lra. }
    rewrite D. f_equal. specialize (H c (or_introl eq_refl)). clear -ND H.
    assert (Z : forall ss, ~ In (ch_sig c) ss -> sum_over ss (fun s => if sig_eqb (ch_sig c) s then f c else 0) = 0).
    { clear. induction ss as [|s ss IH]; cbn; auto. intros N. unfold sum_over in IH. rewrite IH by tauto.
      destruct (sig_eqb (ch_sig c) s) eqn:E; [|lra]. apply sig_eqb_eq in E. exfalso. apply N. auto. }
    induction ND as [|s ss NI ND IH]; [contradiction|]. cbn. destruct H as [->|H].
    + assert (E : sig_eqb (ch_sig c) (ch_sig c) = true) by (apply sig_eqb_eq; auto). rewrite E.
      specialize (Z ss NI). unfold sum_over in Z. rewrite Z. lra.
    + unfold sum_over in IH. rewrite IH by auto. destruct (sig_eqb (ch_sig c) s) eqn:E; [|lra].
      apply sig_eqb_eq in E. subst. contradiction.
Qed.

Lemma sum_over_rate l : sum_over l ch_rate = total l.
Proof. induction l as [|c l IH]; [reflexivity|]. cbn [total]. rewrite <- IH. reflexivity. Qed.
End Sample.
