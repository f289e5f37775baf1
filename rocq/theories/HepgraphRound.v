(** Proofs: exporting a tree and importing it again. *)
From Coq Require Import String List Bool ZArith Reals Lia Lra.
From Verif Require Import TraversalModel TreeModel TreeSpec TreeProofs OrderModel OrderProofs InjectorModel HepgraphModel HepgraphSpec HepgraphProofs.
Import ListNotations.
Open Scope nat_scope.

(** The primary of a vertex is the outgoing particle of its producer. *)
Lemma joined_records cm c second e f u v x y : graph e -> produced e u v ->
  describes cm c second e u f x -> describes cm c second e v f y -> exists m, continues x y m.
Proof.
  intros G [IU [IV [i [F P]]]] D1 D2. pose proof (gr_out _ G u i IU P) as J. apply In_nth_error in J. destruct J as [m J].
  destruct (ds_primary _ _ _ _ _ _ _ D2 i F) as [A1 [A2 [A3 [A4 [A5 _]]]]]. exists m.
  split.
  - rewrite (ds_ids _ _ _ _ _ _ _ D1), nth_error_map, J, A1. auto.
  - rewrite (ds_types _ _ _ _ _ _ _ D1), nth_error_map, J, A2. auto.
  - rewrite (ds_momenta _ _ _ _ _ _ _ D1), nth_error_map, J, A3. auto.
  - rewrite (ds_masses _ _ _ _ _ _ _ D1), nth_error_map, J, A4. auto.
  - rewrite (ds_helicities _ _ _ _ _ _ _ D1), nth_error_map, J, A5. auto.
Qed.

Section Export.
Variable cm c second : R.
Variable computed_mass : R * R * R * R -> R.
Notation write := (write_datum cm c second computed_mass).

Definition n_of (r : record) : nat := length (secondary_types (r_signature r)).

Definition is_primary (r : record) (p : particle) : Prop :=
  p_pid p = primary_type (r_signature r) /\ is_target p = false /\ p_momentum p = hep_momentum (r_primary_momentum r) /\
  p_mass p = r_primary_mass r /\ attribute (p_attributes p) "siren.helicity" = Some (r_primary_helicity r) /\
  attribute (p_attributes p) "siren.primary_initial_position.x" = Some (nth 0 (r_primary_initial_position r) 0 * (1 / cm))%R /\
  attribute (p_attributes p) "siren.primary_initial_position.y" = Some (nth 1 (r_primary_initial_position r) 0 * (1 / cm))%R /\
  attribute (p_attributes p) "siren.primary_initial_position.z" = Some (nth 2 (r_primary_initial_position r) 0 * (1 / cm))%R /\
  attribute (p_attributes p) "siren.primary_initial_time" = Some (r_primary_initial_time r / second)%R /\
  stored_id p = r_primary_id r.

Definition is_tgt (r : record) (p : particle) : Prop :=
  p_pid p = target_type (r_signature r) /\ is_target p = true /\ p_mass p = r_target_mass r /\
  attribute (p_attributes p) "siren.helicity" = Some (r_target_helicity r) /\
  stored_id p = r_target_id r.

Definition is_out (r : record) (m : nat) (p : particle) : Prop :=
  nth_error (secondary_types (r_signature r)) m = Some (p_pid p) /\ is_target p = false /\
  (exists mom, nth_error (r_secondary_momenta r) m = Some mom /\ p_momentum p = hep_momentum mom) /\
  nth_error (r_secondary_masses r) m = Some (p_mass p) /\
  (exists h, nth_error (r_secondary_helicities r) m = Some h /\ attribute (p_attributes p) "siren.helicity" = Some h) /\
  (exists t, nth_error (r_secondary_times r) m = Some t /\ attribute (p_attributes p) "siren.time" = Some (t / second)%R) /\
  nth_error (r_secondary_ids r) m = Some (stored_id p).

Definition vid_of (k : nat) : Z := (- Z.of_nat (S k))%Z.
Definition origin (q : option nat) : Z := match q with None => 0%Z | Some j => vid_of j end.

Record EInv (l : list (option nat * record)) (s : exporting) : Prop := {
  e_len : length (x_vertices s) = length l;
  e_vert : forall k q r, nth_error l k = Some (q, r) -> exists ip it base,
     nth_error (x_vertices s) k = Some (mkvert (vid_of k) (vertex_position cm c (r_interaction_vertex r) (r_interaction_time r))
       (ip :: if has_target r then [it] else []) (seq base (n_of r)) (r_interaction_parameters r)
       (if (target_type (r_signature r) =? unknown_type)%Z then Some 1%Z else None)) /\
     (exists p, nth_error (x_particles s) ip = Some p /\ is_primary r p /\ p_production p = origin q) /\
     (has_target r = true -> exists p, nth_error (x_particles s) it = Some p /\ is_tgt r p /\ p_production p = 0%Z) /\
     (forall m, m < n_of r -> exists p, nth_error (x_particles s) (base + m) = Some p /\ is_out r m p /\ p_production p = vid_of k) /\
     (forall m d, nth_error (r_secondary_ids r) m = Some d -> find_id (x_ids s) d = Some (base + m));
  e_prod : forall i p, nth_error (x_particles s) i = Some p -> p_production p = 0%Z \/
     exists k v, nth_error (x_vertices s) k = Some v /\ p_production p = vid_of k /\ In i (v_out v)
}.

Lemma same_id_iff a b : same_id a b = true <-> a = b.
Proof. apply id_eq_iff. Qed.

Lemma register_other ds : forall ids n i d, ~ In d ds -> find_id (register ids ds n i) d = find_id ids d.
Proof.
  induction ds as [|x ds IH]; intros ids [|n] i d N; cbn [register]; auto.
  rewrite IH by (intros J; apply N; right; auto). destruct (id_set x); auto. cbn [find_id].
  destruct (same_id x d) eqn:E; auto. apply same_id_iff in E. subst. exfalso. apply N. left. auto.
Qed.

Lemma register_in ds : forall ids i m d, NoDup ds -> Forall (fun d => id_set d = true) ds -> nth_error ds m = Some d ->
  find_id (register ids ds (length ds) i) d = Some (i + m).
Proof.
  induction ds as [|x ds IH]; intros ids i [|m] d ND F H; try discriminate; cbn [register length].
  - cbn in H. injection H as ->. inversion ND; subst. inversion F; subst. rewrite register_other by auto.
    match goal with H : id_set d = true |- _ => rewrite H end. cbn [find_id].
    rewrite (proj2 (same_id_iff d d) eq_refl). f_equal. lia.
  - inversion ND; subst. inversion F; subst. rewrite (IH _ (S i) m d); auto. f_equal. lia.
Qed.

Lemma new_outs_nth r v tys : forall j m, nth_error (new_outs second computed_mass r v j tys) m =
  option_map (new_out second computed_mass r v (j + m)) (nth_error tys m).
Proof.
  induction tys as [|t tys IH]; intros j [|m]; cbn [new_outs nth_error option_map]; auto.
  - rewrite Nat.add_0_r. auto.
  - rewrite IH. replace (S j + m) with (j + S m) by lia. auto.
Qed.
Lemma new_outs_length r v tys : forall j, length (new_outs second computed_mass r v j tys) = length tys.
Proof. induction tys; intros; cbn; auto. Qed.

Lemma change_nth l : forall i f j, nth_error (change l i f) j = if Nat.eqb i j then option_map f (nth_error l j) else nth_error l j.
Proof.
  induction l as [|p l IH]; intros [|i] f [|j]; cbn [change nth_error option_map]; auto.
  - destruct (Nat.eqb (S i) (S j)); auto.
  - rewrite IH. auto.
Qed.
Lemma change_length l : forall i f, length (change l i f) = length l.
Proof. induction l; intros [|i] f; cbn; auto. Qed.

Lemma stored_new d : (id_set d = false -> d = mkid false 0 0) -> forall p, p_major p = major_of d -> p_minor p = minor_of d -> stored_id p = d.
Proof.
  intros H p A B. unfold stored_id. rewrite A, B. unfold major_of, minor_of. destruct d as [b x y]; cbn in *. destruct b; auto.
  symmetry. auto.
Qed.

Lemma nth_some {A} (l : list A) n : n < length l -> exists x, nth_error l n = Some x.
Proof. intros H. destruct (nth_error l n) eqn:E; eauto. apply nth_error_None in E. lia. Qed.

Lemma new_out_is r v m ty : whole r -> nth_error (secondary_types (r_signature r)) m = Some ty ->
  is_out r m (new_out second computed_mass r v m ty) /\ p_production (new_out second computed_mass r v m ty) = v.
Proof.
  intros Wh H. split; auto. assert (L : m < n_of r) by (apply nth_error_Some; congruence). unfold n_of in L.
  destruct (nth_some (r_secondary_momenta r) m) as [mom E1]; [rewrite (wh_momenta _ Wh); auto|].
  destruct (nth_some (r_secondary_masses r) m) as [ms E2]; [rewrite (wh_masses _ Wh); auto|].
  destruct (nth_some (r_secondary_helicities r) m) as [h E3]; [rewrite (wh_helicities _ Wh); auto|].
  destruct (nth_some (r_secondary_times r) m) as [t E4]; [rewrite (wh_times _ Wh); auto|].
  destruct (nth_some (r_secondary_ids r) m) as [d E5]; [rewrite (wh_ids _ Wh); auto|].
  unfold is_out, new_out. rewrite E1, E2, E3, E4, E5. cbn [p_pid p_status p_momentum p_mass p_attributes p_major p_minor is_target].
  repeat split; eauto. symmetry. f_equal. apply stored_new; auto.
  pose proof (wh_secondary_ids _ Wh) as F. rewrite Forall_forall in F. rewrite (F d) by (eapply nth_error_In; eauto). discriminate.
Qed.

Lemma out_kept r m p r' : is_out r m p -> is_out r m (with_initial cm second r' (decayed p)).
Proof.
  intros [A [B [D [E [F [G H]]]]]]. unfold is_out, with_initial, decayed. cbn [p_pid p_status p_momentum p_mass p_attributes p_major p_minor].
  repeat split; auto.
Qed.

Lemma join_primary q r m p : continues q r m -> is_out q m p -> is_primary r (with_initial cm second r (decayed p)).
Proof.
  intros [A B D E F] [G [H [[mom [I I']] [J [[h [K K']] [_ O]]]]]]. unfold is_primary, with_initial, decayed.
  cbn [p_pid p_status p_momentum p_mass p_attributes p_major p_minor].
  repeat split; auto; try congruence.
  - cbn. rewrite K'. congruence.
  - unfold stored_id in *. cbn. congruence.
Qed.

Lemma fresh_primary r b : whole r -> is_primary r (with_initial cm second r (new_primary r b)).
Proof.
  intros Wh. unfold is_primary, with_initial, new_primary. cbn [p_pid p_status p_momentum p_mass p_attributes p_major p_minor].
  repeat split; auto.
  - unfold is_target. cbn. destruct b; auto.
  - apply stored_new; auto. rewrite (wh_primary_id _ Wh). discriminate.
Qed.

Lemma fresh_target r b : whole r -> is_tgt r (new_target r b).
Proof.
  intros Wh. unfold is_tgt, new_target. repeat split; auto.
  - unfold is_target. cbn. destruct b; auto.
  - apply stored_new; auto. apply (wh_target_id _ Wh).
Qed.

Lemma step_inv l s q r : EInv l s -> whole r ->
  ~ In (r_primary_id r) (map (fun x => r_primary_id (snd x)) l) ->
  NoDup (r_secondary_ids r) -> (forall d, In d (r_secondary_ids r) -> ~ In d (flat_map (fun x => r_secondary_ids (snd x)) l)) ->
  match q with None => True | Some j => exists a q' m, nth_error l j = Some (a, q') /\ continues q' r m end ->
  EInv (l ++ [(q, r)]) (write s (match q with None => true | Some _ => false end) r).
Proof.
  intros I Wh NP NS FS J.
  unfold write_datum. set (root := match q with None => true | Some _ => false end). set (pr := root && negb (x_seen s)).
  fold (n_of r). rewrite (e_len _ _ I). fold (vid_of (length l)).
  set (joined := if negb root && id_set (r_primary_id r) then find_id (x_ids s) (r_primary_id r) else None).
  (* the primary *)
  assert (PR : exists ps1 ip p1,
    match joined with
    | Some i => (change (x_particles s) i (fun p => with_initial cm second r (decayed p)), i)
    | None => (x_particles s ++ [with_initial cm second r (new_primary r pr)], length (x_particles s))
    end = (ps1, ip) /\ nth_error ps1 ip = Some p1 /\ is_primary r p1 /\ p_production p1 = origin q /\
    length (x_particles s) <= length ps1 /\
    (forall i p, nth_error (x_particles s) i = Some p -> nth_error ps1 i = Some p \/
       (nth_error ps1 i = Some (with_initial cm second r (decayed p)) /\ stored_id p = r_primary_id r /\ p_production p <> 0%Z)) /\
    (forall i p, length (x_particles s) <= i -> nth_error ps1 i = Some p -> p_production p = 0%Z)).
  { destruct q as [j|].
    - destruct J as [a [q' [m [El Ct]]]]. destruct (e_vert _ _ I j a q' El) as [ip [it [base [Ev [_ [_ [Ho Hi]]]]]]].
      unfold joined, root. rewrite (wh_primary_id _ Wh). cbn [negb andb]. rewrite (Hi m _ (ct_id _ _ _ Ct)).
      assert (Lm : m < n_of q') by (apply nth_error_Some; rewrite (ct_type _ _ _ Ct); discriminate).
      destruct (Ho m Lm) as [p [Ep [Op Pp]]].
      exists (change (x_particles s) (base + m) (fun p => with_initial cm second r (decayed p))), (base + m), (with_initial cm second r (decayed p)).
      split; auto. split; [rewrite change_nth, Nat.eqb_refl, Ep; auto|]. split; [eapply join_primary; eauto|]. split; [cbn; auto|].
      split; [rewrite change_length; auto|]. split.
      + intros i p0 H. rewrite change_nth. destruct (Nat.eqb_spec (base + m) i) as [<-|N]; auto. right. rewrite H.
        assert (p0 = p) by congruence. subst p0. split; auto. split.
        * destruct Op as [_ [_ [_ [_ [_ [_ Op]]]]]]. pose proof (ct_id _ _ _ Ct). congruence.
        * rewrite Pp. unfold vid_of. lia.
      + intros i p0 L H. assert (i < length (change (x_particles s) (base + m) (fun p => with_initial cm second r (decayed p)))) by (apply nth_error_Some; congruence).
        rewrite change_length in H0. lia.
    - unfold joined, root. cbn [negb andb].
      exists (x_particles s ++ [with_initial cm second r (new_primary r pr)]), (length (x_particles s)), (with_initial cm second r (new_primary r pr)).
      split; auto. split; [rewrite nth_error_app2, Nat.sub_diag by lia; auto|]. split; [apply fresh_primary; auto|]. split; auto.
      split; [rewrite app_length; lia|]. split.
      + intros i p H. left. rewrite nth_error_app1; auto. apply nth_error_Some. congruence.
      + intros i p L H. rewrite nth_error_app2 in H by auto. destruct (i - length (x_particles s)) as [|k]; [|destruct k; discriminate].
        cbn in H. injection H as <-. auto. }
  destruct PR as [ps1 [ip [p1 [E [E1 [IP1 [PP1 [L1 [K1 N1]]]]]]]]]. rewrite E. clear E.
  set (ps2 := if has_target r then ps1 ++ [new_target r pr] else ps1).
  assert (K2 : forall i p, nth_error ps1 i = Some p -> nth_error ps2 i = Some p).
  { intros i p H. unfold ps2. destruct (has_target r); auto. rewrite nth_error_app1; auto. apply nth_error_Some. congruence. }
  assert (N2 : forall i p, length ps1 <= i -> nth_error ps2 i = Some p -> p_production p = 0%Z).
  { intros i p L H. unfold ps2 in H. destruct (has_target r).
    - rewrite nth_error_app2 in H by auto. destruct (i - length ps1) as [|k]; [|destruct k; discriminate]. cbn in H. injection H as <-. auto.
    - assert (i < length ps1) by (apply nth_error_Some; congruence). lia. }
  set (outs := new_outs second computed_mass r (vid_of (length l)) 0 (secondary_types (r_signature r))).
  assert (K3 : forall i p, nth_error ps2 i = Some p -> nth_error (ps2 ++ outs) i = Some p).
  { intros i p H. rewrite nth_error_app1; auto. apply nth_error_Some. congruence. }
  split; cbn [x_vertices x_particles x_ids].
  - rewrite !app_length, (e_len _ _ I). auto.
  - intros k q0 r0 Hk. apply (nth_app_new (@nil Z)) in Hk. destruct Hk as [Hk|[-> Hk]].
    + destruct (e_vert _ _ I k q0 r0 Hk) as [ip0 [it0 [base [Ev [[p [Ep [Pp Op]]] [Ht [Ho Hi]]]]]]].
      exists ip0, it0, base. split; [rewrite nth_error_app1; auto; rewrite (e_len _ _ I); apply nth_error_Some; congruence|].
      split. { exists p. split; auto. destruct (K1 _ _ Ep) as [K|[_ [K _]]]; auto. exfalso. apply NP. apply in_map_iff.
               exists (q0, r0). split; [|eapply nth_error_In; eauto]. cbn. destruct Pp as [_ [_ [_ [_ [_ [_ [_ [_ [_ Pp]]]]]]]]]. congruence. }
      split. { intros T. destruct (Ht T) as [p' [A [B D]]]. exists p'. split; auto. destruct (K1 _ _ A) as [K|[_ [_ K]]]; auto. congruence. }
      split.
      * intros m Lm. destruct (Ho m Lm) as [p' [A [B D]]]. destruct (K1 _ _ A) as [K|[K _]].
        -- exists p'. auto.
        -- exists (with_initial cm second r (decayed p')). split; auto. split; [apply out_kept; auto|auto].
      * intros m d Hm. rewrite register_other; auto. intros X. apply (FS d X). apply in_flat_map. exists (q0, r0).
        split; eapply nth_error_In; eauto.
    + injection Hk as -> ->.
      exists ip, (length ps1), (length ps2). split.
      { rewrite nth_error_app2 by (rewrite (e_len _ _ I); lia). rewrite (e_len _ _ I), Nat.sub_diag. auto. }
      split; [exists p1; auto|]. split.
      { intros T. exists (new_target r pr). split; [|split; [apply fresh_target; auto|auto]]. apply K3. unfold ps2. rewrite T.
        rewrite nth_error_app2, Nat.sub_diag by lia. auto. }
      split.
      * intros m Lm. destruct (nth_some _ _ Lm) as [ty Et]. exists (new_out second computed_mass r (vid_of (length l)) m ty).
        rewrite nth_error_app2 by lia. replace (length ps2 + m - length ps2) with m by lia. unfold outs. rewrite new_outs_nth, Et.
        cbn [option_map Nat.add]. split; auto. apply new_out_is; auto.
      * intros m d Hm. unfold n_of. rewrite <- (wh_ids _ Wh). apply register_in; auto. apply (wh_secondary_ids _ Wh).
  - intros i p H.
    destruct (Nat.lt_ge_cases i (length ps2)) as [L|L].
    + rewrite nth_error_app1 in H by auto. destruct (Nat.lt_ge_cases i (length ps1)) as [La|La]; [|left; eapply N2; eauto].
      destruct (Nat.lt_ge_cases i (length (x_particles s))) as [Lb|Lb].
      * destruct (nth_some _ _ Lb) as [p0 E0].
        assert (PQ : p_production p = p_production p0).
        { destruct (K1 _ _ E0) as [K|[K _]]; apply K2 in K; rewrite K in H; injection H as <-; auto. }
        rewrite PQ. destruct (e_prod _ _ I i p0 E0) as [Z0|[k [v [A [B D]]]]]; auto. right. exists k, v. split; auto.
        rewrite nth_error_app1; auto. apply nth_error_Some. congruence.
      * left. destruct (nth_some _ _ La) as [p0 E0]. pose proof (K2 _ _ E0) as E2. rewrite E2 in H. injection H as <-. eapply N1; eauto.
    + right. rewrite nth_error_app2 in H by auto. unfold outs in H. rewrite new_outs_nth in H.
      destruct (nth_error (secondary_types (r_signature r)) (i - length ps2)) as [ty|] eqn:Et; [|discriminate]. cbn in H. injection H as <-.
      eexists (length l), _. split; [rewrite nth_error_app2 by (rewrite (e_len _ _ I); lia); rewrite (e_len _ _ I), Nat.sub_diag; reflexivity|].
      split; [reflexivity|]. cbn [v_out]. apply in_seq. assert (i - length ps2 < n_of r) by (apply nth_error_Some; congruence). lia.
Qed.

Lemma NoDup_app_l {A} (a b : list A) : NoDup (a ++ b) -> NoDup a.
Proof. induction a as [|x a IH]; intros N; [constructor|]. inversion N; subst. constructor; auto. intros I. apply H1. apply in_app_iff. auto. Qed.
Lemma NoDup_app_r {A} (a b : list A) : NoDup (a ++ b) -> NoDup b.
Proof. induction a as [|x a IH]; intros N; auto. inversion N; auto. Qed.
Lemma NoDup_app_disj {A} (a b : list A) x : NoDup (a ++ b) -> In x b -> ~ In x a.
Proof.
  induction a as [|y a IH]; intros N I; [auto|]. inversion N; subst. intros [->|J]; [|apply IH; auto].
  apply H1. apply in_app_iff. auto.
Qed.

Lemma export_inv l : exportable l ->
  EInv l (fold_left (fun s x => write s (fst x) (snd x)) (flags l) (mkexporting [] [] [] false)).
Proof.
  induction l as [|[q r] l IH] using rev_ind; intros X.
  - split; cbn; auto; intros [|k]; discriminate.
  - unfold flags. rewrite map_app. cbn [map fst snd]. rewrite fold_left_app. cbn [fold_left fst snd]. destruct X as [A B D E].
    rewrite map_app in B. rewrite flat_map_app in D. cbn [map flat_map snd] in B, D. rewrite app_nil_r in D.
    apply Forall_app in A. destruct A as [A1 A2].
    assert (XL : exportable l).
    { split; auto; [eapply NoDup_app_l; eauto|eapply NoDup_app_l; eauto|].
      intros k p r0 H. destruct (E k p r0) as [L [a [q' [m [F G]]]]]; [rewrite nth_error_app1; auto; apply nth_error_Some; congruence|].
      split; auto. exists a, q', m. split; auto. rewrite nth_error_app1 in F; auto.
      assert (k < length l) by (apply nth_error_Some; congruence). lia. }
    apply step_inv; auto.
    + inversion A2; auto.
    + eapply NoDup_app_disj; [exact B|left; auto].
    + eapply NoDup_app_r; eauto.
    + intros d I. eapply NoDup_app_disj; eauto.
    + destruct q as [j|]; auto. destruct (E (length l) j r) as [L [a [q' [m [F G]]]]]; [rewrite nth_error_app2, Nat.sub_diag by lia; auto|].
      exists a, q', m. split; auto. rewrite nth_error_app1 in F; auto.
Qed.

Hypothesis CM : cm <> 0%R.
Hypothesis CC : c <> 0%R.
Hypothesis SS : second <> 0%R.

Section Result.
Variable l : list (option nat * record).
Hypothesis X : exportable l.
Notation ev := (export_tree cm c second computed_mass (flags l)).

Lemma ev_inv : exists ids b, EInv l (mkexporting (ev_particles ev) (ev_vertices ev) ids b).
Proof.
  pose proof (export_inv l X) as I. unfold export_tree. cbv zeta.
  destruct (fold_left (fun s x => write s (fst x) (snd x)) (flags l) (mkexporting [] [] [] false)) as [a b d f]. cbn. eauto.
Qed.

Lemma part_of i p : nth_error (ev_particles ev) i = Some p -> part ev i = p.
Proof. intros H. unfold part. apply nth_error_nth. auto. Qed.

Lemma ev_length : length (ev_vertices ev) = length l.
Proof. destruct ev_inv as [ids [b I]]. apply (e_len _ _ I). Qed.

Lemma vertex_at k v : nth_error (ev_vertices ev) k = Some v -> exists q r, nth_error l k = Some (q, r) /\ v_id v = vid_of k.
Proof.
  intros H. destruct ev_inv as [ids [b I]]. assert (L : k < length l) by (rewrite <- ev_length; apply nth_error_Some; congruence).
  destruct (nth_some _ _ L) as [[q r] E]. exists q, r. split; auto.
  destruct (e_vert _ _ I k q r E) as [ip [it [base [Ev _]]]]. cbn [x_vertices] in Ev. rewrite H in Ev. injection Ev as ->. auto.
Qed.

Lemma vid_inj a b : vid_of a = vid_of b -> a = b.
Proof. unfold vid_of. lia. Qed.

Lemma ev_graph : graph ev.
Proof.
  destruct ev_inv as [ids [b I]]. split.
  - apply NoDup_nth_error. intros i j L E. rewrite map_length in L. rewrite !nth_error_map in E.
    destruct (nth_some _ _ L) as [u Eu]. rewrite Eu in E. destruct (nth_error (ev_vertices ev) j) as [v|] eqn:Ev; [|discriminate].
    cbn in E. injection E as E. destruct (vertex_at _ _ Eu) as [_ [_ [_ A]]]. destruct (vertex_at _ _ Ev) as [_ [_ [_ B]]].
    apply vid_inj. congruence.
  - intros v H. apply In_nth_error in H. destruct H as [k H]. destruct (vertex_at _ _ H) as [_ [_ [_ A]]]. rewrite A. unfold vid_of. lia.
  - intros v i H E. apply In_nth_error in H. destruct H as [k H]. destruct (vertex_at _ _ H) as [_ [_ [_ A]]].
    destruct (Nat.lt_ge_cases i (length (ev_particles ev))) as [L|L].
    + destruct (nth_some _ _ L) as [p Ep]. rewrite (part_of _ _ Ep) in E.
      destruct (e_prod _ _ I i p Ep) as [Z0|[k' [v' [B [D F]]]]]; [rewrite Z0, A in E; unfold vid_of in E; lia|].
      cbn [x_vertices] in B. assert (k' = k) by (apply vid_inj; congruence). subst k'. assert (v' = v) by congruence. subst. auto.
    + exfalso. unfold part in E. rewrite nth_overflow in E by auto. cbn in E. rewrite A in E. unfold vid_of in E. lia.
Qed.

Lemma ev_primary k q r v : nth_error l k = Some (q, r) -> nth_error (ev_vertices ev) k = Some v ->
  exists ip, find_primary ev v = Some ip /\ is_primary r (part ev ip) /\ p_production (part ev ip) = origin q.
Proof.
  intros H V. destruct ev_inv as [ids [b I]]. destruct (e_vert _ _ I k q r H) as [ip [it [base [Ev [[p [Ep [Pp Op]]] _]]]]].
  cbn [x_vertices x_particles] in Ev, Ep. rewrite V in Ev. injection Ev as ->. exists ip. rewrite (part_of _ _ Ep). split; auto.
  unfold find_primary. cbn [v_in find]. rewrite (part_of _ _ Ep). destruct Pp as [_ [-> _]]. auto.
Qed.

Lemma ev_produced u v : produced ev u v <-> exists j k r, nth_error (ev_vertices ev) j = Some u /\ nth_error (ev_vertices ev) k = Some v /\
  nth_error l k = Some (Some j, r).
Proof.
  split.
  - intros [A [B [i [D E]]]]. apply In_nth_error in A, B. destruct A as [j A]. destruct B as [k B]. exists j, k.
    destruct (vertex_at _ _ B) as [q [r [Hl _]]]. exists r. split; auto. split; auto.
    destruct (ev_primary _ _ _ _ Hl B) as [ip [F [_ G]]]. rewrite F in D. injection D as <-. destruct (vertex_at _ _ A) as [_ [_ [_ VA]]].
    rewrite E, VA in G. destruct q as [j'|]; cbn in G; [|unfold vid_of in G; lia]. apply vid_inj in G. subst. auto.
  - intros [j [k [r [A [B D]]]]]. split; [eapply nth_error_In; eauto|]. split; [eapply nth_error_In; eauto|].
    destruct (ev_primary _ _ _ _ D B) as [ip [F [_ G]]]. exists ip. split; auto. rewrite G. destruct (vertex_at _ _ A) as [_ [_ [_ VA]]]. auto.
Qed.

Lemma ev_rooted : forall k v, nth_error (ev_vertices ev) k = Some v -> rooted ev v.
Proof.
  induction k as [k IH] using lt_wf_ind. intros v V. destruct (vertex_at _ _ V) as [q [r [Hl _]]]. destruct q as [j|].
  - destruct (xp_joined _ X k j r Hl) as [L _].
    assert (Lj : j < length (ev_vertices ev)) by (rewrite ev_length; assert (k < length l) by (apply nth_error_Some; congruence); lia).
    destruct (nth_some _ _ Lj) as [u U]. apply rooted_next with u; [|apply (IH j L u U)]. apply ev_produced. eauto 8.
  - apply rooted_first; [eapply nth_error_In; eauto|]. intros u P. apply ev_produced in P. destruct P as [j [k' [r' [A [B D]]]]].
    assert (k' = k). { destruct (vertex_at _ _ V) as [_ [_ [_ V1]]]. destruct (vertex_at _ _ B) as [_ [_ [_ V2]]]. apply vid_inj. congruence. }
    subst. congruence.
Qed.

Lemma ev_order i v u : nth_error (ev_vertices ev) i = Some v -> produced ev u v -> exists j, j < i /\ nth_error (ev_vertices ev) j = Some u.
Proof.
  intros V P. apply ev_produced in P. destruct P as [j [k [r [A [B D]]]]].
  assert (k = i). { destruct (vertex_at _ _ V) as [_ [_ [_ V1]]]. destruct (vertex_at _ _ B) as [_ [_ [_ V2]]]. apply vid_inj. congruence. }
  subst. exists j. split; auto. apply (xp_joined _ X i j r D).
Qed.

Lemma ev_complete : Forall (complete ev) (ev_vertices ev).
Proof.
  apply Forall_forall. intros v V. apply In_nth_error in V. destruct V as [k V]. destruct (vertex_at _ _ V) as [q [r [Hl _]]].
  destruct ev_inv as [ids [b I]]. destruct (e_vert _ _ I k q r Hl) as [ip [it [base [Ev [[p [Ep [Pp Op]]] [Ht [Ho _]]]]]]].
  cbn [x_vertices x_particles] in *. rewrite V in Ev. injection Ev as ->. split; [|split].
  - intros i F. unfold find_primary in F. cbn [v_in find] in F. rewrite (part_of _ _ Ep) in F. pose proof Pp as [_ [Q _]]. rewrite Q in F.
    cbn in F. injection F as <-. rewrite (part_of _ _ Ep). destruct Pp as [_ [_ [_ [_ [A1 [A2 [A3 [A4 [A5 _]]]]]]]]].
    repeat constructor; unfold has; eauto.
  - intros i F. unfold find_target in F. cbn [v_in find] in F. rewrite (part_of _ _ Ep) in F. pose proof Pp as [_ [Q _]]. rewrite Q in F.
    destruct (has_target r); [|discriminate]. destruct (Ht eq_refl) as [pt [Et [Tt _]]]. cbn [find] in F. rewrite (part_of _ _ Et) in F.
    destruct Tt as [_ [Tt [_ [Hh _]]]]. rewrite Tt in F. injection F as <-. rewrite (part_of _ _ Et). unfold has. eauto.
  - intros i J. cbn [v_out] in J. apply in_seq in J. destruct (Ho (i - base)) as [po [Eo [Oo _]]]; [lia|].
    replace (base + (i - base)) with i in Eo by lia. rewrite (part_of _ _ Eo). destruct Oo as [_ [_ [_ [_ [[h [_ Hh]] _]]]]]. unfold has. eauto.
Qed.

Lemma map_seq_nth {A B} (g : nat -> B) (h : A -> B) (xs : list A) base n : length xs = n ->
  (forall m x, nth_error xs m = Some x -> g (base + m) = h x) -> map g (seq base n) = map h xs.
Proof.
  intros L H. apply list_ext. intros m. rewrite !nth_error_map. destruct (Nat.lt_ge_cases m n) as [Lm|Lm].
  - rewrite (nth_error_nth' _ 0) by (rewrite seq_length; auto). rewrite seq_nth by auto.
    destruct (nth_some xs m) as [x E]; [lia|]. rewrite E. cbn. f_equal. auto.
  - rewrite !(proj2 (nth_error_None _ _)); auto; [lia|rewrite seq_length; auto].
Qed.

Lemma list3 (x : list R) : length x = 3 -> [nth 0 x 0; nth 1 x 0; nth 2 x 0]%R = x.
Proof. destruct x as [|a [|b [|d [|]]]]; try discriminate. auto. Qed.
Lemma list4 (x : list R) : length x = 4 -> siren_momentum (hep_momentum x) = x.
Proof. destruct x as [|a [|b [|d [|e [|]]]]]; try discriminate. auto. Qed.

Lemma double_some p n x : attribute (p_attributes p) n = Some x -> double_attr p n = x.
Proof. unfold double_attr. intros ->. auto. Qed.

(** A record that describes vertex [k] is record [k]. *)
Lemma described k q r v f x : nth_error l k = Some (q, r) -> nth_error (ev_vertices ev) k = Some v ->
  (forall i, id_set (stored_id (part ev i)) = true -> f i = stored_id (part ev i)) ->
  describes cm c second ev v f x -> x = r.
Proof.
  intros Hl V FS D. destruct ev_inv as [ids [b I]].
  destruct (e_vert _ _ I k q r Hl) as [ip [it [base [Ev [[p [Ep [Pp Op]]] [Ht [Ho _]]]]]]].
  cbn [x_vertices x_particles] in *. rewrite V in Ev. injection Ev as Ev.
  assert (Wh : whole r). { pose proof (xp_whole _ X) as F. rewrite Forall_forall in F. apply (F (q, r)). eapply nth_error_In; eauto. }
  assert (FP : find_primary ev v = Some ip).
  { subst v. unfold find_primary. cbn [v_in find]. rewrite (part_of _ _ Ep). destruct Pp as [_ [-> _]]. auto. }
  destruct (ds_primary _ _ _ _ _ _ _ D ip FP) as [D1 [D2 [D3 [D4 [D5 [D6 D7]]]]]]. rewrite (part_of _ _ Ep) in *.
  destruct Pp as [P1 [P2 [P3 [P4 [P5 [P6 [P7 [P8 [P9 P10]]]]]]]]].
  assert (FI : f ip = r_primary_id r). { rewrite FS; rewrite (part_of _ _ Ep), P10; auto. apply (wh_primary_id _ Wh). }
  assert (TG : target_type (r_signature x) = target_type (r_signature r) /\ r_target_mass x = r_target_mass r /\
     r_target_helicity x = r_target_helicity r /\ r_target_id x = r_target_id r).
  { destruct (has_target r) eqn:HT.
    - destruct (Ht eq_refl) as [pt [Et [Tt _]]]. destruct Tt as [T1 [T2 [T3 [T4 T5]]]].
      assert (FT : find_target ev v = Some it).
      { subst v. unfold find_target. cbn [v_in find]. rewrite (part_of _ _ Ep), P2. cbn [find]. rewrite (part_of _ _ Et), T2. auto. }
      destruct (ds_target _ _ _ _ _ _ _ D it FT) as [A1 [A2 [A3 A4]]]. rewrite (part_of _ _ Et) in *.
      apply double_some in T4. repeat split; congruence.
    - assert (FT : find_target ev v = None).
      { subst v. unfold find_target. cbn [v_in find]. rewrite (part_of _ _ Ep), P2. auto. }
      destruct (ds_no_target _ _ _ _ _ _ _ D FT) as [A1 [A2 [A3 A4]]].
      assert (TT : target_type (r_signature r) = decay_type \/ target_type (r_signature r) = unknown_type).
      { unfold has_target in HT. apply andb_false_iff in HT. destruct HT as [HT|HT]; apply negb_false_iff, Z.eqb_eq in HT; auto. }
      destruct (wh_no_target _ Wh TT) as [B1 [B2 B3]]. rewrite A2, A3, A4, B1, B2, B3. split; auto. rewrite A1. subst v. cbn [v_unknown].
      destruct TT as [-> | ->]; reflexivity. }
  destruct TG as [T1 [T2 [T3 T4]]].
  assert (OU : forall m, m < n_of r -> is_out r m (part ev (base + m))).
  { intros m L. destruct (Ho m L) as [po [Eo [Oo _]]]. rewrite (part_of _ _ Eo). auto. }
  assert (VO : v_out v = seq base (n_of r)) by (subst v; auto).
  assert (LT : forall {A} (xs : list A) m a, length xs = n_of r -> nth_error xs m = Some a -> m < n_of r).
  { intros A xs m a L E. rewrite <- L. apply nth_error_Some. congruence. }
  pose proof (ds_types _ _ _ _ _ _ _ D) as S1. pose proof (ds_ids _ _ _ _ _ _ _ D) as S2. pose proof (ds_momenta _ _ _ _ _ _ _ D) as S3.
  pose proof (ds_masses _ _ _ _ _ _ _ D) as S4. pose proof (ds_helicities _ _ _ _ _ _ _ D) as S5. pose proof (ds_times _ _ _ _ _ _ _ D) as S6.
  pose proof (ds_place _ _ _ _ _ _ _ D) as S7. pose proof (ds_params _ _ _ _ _ _ _ D) as S8. rewrite VO in *.
  assert (Q1 : secondary_types (r_signature x) = secondary_types (r_signature r)).
  { rewrite S1, <- (map_id (secondary_types (r_signature r))). apply map_seq_nth; auto. intros m a E.
    destruct (OU m) as [O _]; [eapply LT; [|eauto]; auto|]. cbn beta. congruence. }
  assert (Q2 : r_secondary_ids x = r_secondary_ids r).
  { rewrite S2, <- (map_id (r_secondary_ids r)). apply map_seq_nth; [apply (wh_ids _ Wh)|]. intros m a E.
    destruct (OU m) as [_ [_ [_ [_ [_ [_ O]]]]]]; [eapply LT; [|eauto]; apply (wh_ids _ Wh)|]. cbn beta.
    pose proof (wh_secondary_ids _ Wh) as F. rewrite Forall_forall in F. assert (ST : stored_id (part ev (base + m)) = a) by congruence.
    rewrite FS; [auto|]. rewrite ST. apply F. eapply nth_error_In; eauto. }
  assert (Q3 : r_secondary_momenta x = r_secondary_momenta r).
  { rewrite S3, <- (map_id (r_secondary_momenta r)). apply map_seq_nth; [apply (wh_momenta _ Wh)|]. intros m a E.
    destruct (OU m) as [_ [_ [[mom [O1 O2]] _]]]; [eapply LT; [|eauto]; apply (wh_momenta _ Wh)|]. cbn beta. rewrite O2.
    assert (mom = a) by congruence. subst mom. apply list4. pose proof (wh_momenta4 _ Wh) as F. rewrite Forall_forall in F. apply F. eapply nth_error_In; eauto. }
  assert (Q4 : r_secondary_masses x = r_secondary_masses r).
  { rewrite S4, <- (map_id (r_secondary_masses r)). apply map_seq_nth; [apply (wh_masses _ Wh)|]. intros m a E.
    destruct (OU m) as [_ [_ [_ [O _]]]]; [eapply LT; [|eauto]; apply (wh_masses _ Wh)|]. cbn beta. congruence. }
  assert (Q5 : r_secondary_helicities x = r_secondary_helicities r).
  { rewrite S5, <- (map_id (r_secondary_helicities r)). apply map_seq_nth; [apply (wh_helicities _ Wh)|]. intros m a E.
    destruct (OU m) as [_ [_ [_ [_ [[h [O1 O2]] _]]]]]; [eapply LT; [|eauto]; apply (wh_helicities _ Wh)|]. cbn beta. apply double_some in O2. congruence. }
  assert (Q6 : r_secondary_times x = r_secondary_times r).
  { rewrite S6, <- (map_id (r_secondary_times r)). apply map_seq_nth; [apply (wh_times _ Wh)|]. intros m a E.
    destruct (OU m) as [_ [_ [_ [_ [_ [[h [O1 O2]] _]]]]]]; [eapply LT; [|eauto]; apply (wh_times _ Wh)|]. cbn beta. apply double_some in O2. rewrite O2.
    assert (h = a) by congruence. subst. field. auto. }
  assert (Q7 : r_interaction_vertex x = r_interaction_vertex r /\ r_interaction_time x = r_interaction_time r).
  { subst v. cbn [v_position] in S7. unfold vertex_position in S7. destruct S7 as [A B]. rewrite A, B. split; [|field; auto].
    rewrite <- (list3 (r_interaction_vertex r)) at 4 by apply (wh_vertex _ Wh).
    repeat (f_equal; [field; auto|]). f_equal. field. auto. }
  destruct Q7 as [Q7 Q8].
  assert (Q9 : r_interaction_parameters x = r_interaction_parameters r).
  { rewrite S8. subst v. cbn [v_params]. pose proof (wh_params _ Wh) as F. clear -F. induction F as [|[kk y] ps Hk F IH]; auto. cbn [filter fst] in *.
    destruct kk; [contradiction|]. rewrite IH. auto. }
  assert (Q10 : r_primary_initial_position x = r_primary_initial_position r).
  { rewrite D6. apply double_some in P6, P7, P8. rewrite P6, P7, P8.
    rewrite <- (list3 (r_primary_initial_position r)) at 4 by apply (wh_position _ Wh).
    repeat (f_equal; [field; auto|]). f_equal. field. auto. }
  assert (Q11 : r_primary_initial_time x = r_primary_initial_time r). { rewrite D7. apply double_some in P9. rewrite P9. field. auto. }
  assert (Q12 : r_primary_momentum x = r_primary_momentum r). { rewrite D3, P3. apply list4. apply (wh_momentum _ Wh). }
  apply double_some in P5.
  assert (Q13 : r_signature x = r_signature r).
  { destruct (r_signature x), (r_signature r). cbn in *. congruence. }
  assert (Q14 : r_primary_id x = r_primary_id r) by congruence.
  assert (Q15 : r_primary_mass x = r_primary_mass r) by congruence.
  assert (Q16 : r_primary_helicity x = r_primary_helicity r) by congruence.
  clear - Q1 Q2 Q3 Q4 Q5 Q6 Q7 Q8 Q9 Q10 Q11 Q12 Q13 Q14 Q15 Q16 T2 T3 T4. destruct x, r. cbn in *. subst. auto.
Qed.

Theorem round_trip {W} (gen : W -> particle_id * W) w : (Z.of_nat (length l) <= kNoParent)%Z ->
  exists s t w', import_event cm c second gen ev true w = (Some (Ok s), w') /\ shows s t /\ well_formed t /\ length t = length l /\
    forall k q r, nth_error l k = Some (q, r) -> exists y, nth_error t k = Some y /\ row_record y = r /\ row_parent y = parent_no q.
Proof.
  intros SZ.
  destruct (import_in_order cm c second gen ev ev_graph true w (or_intror ev_complete) ltac:(rewrite ev_length; auto) ev_order)
    as [s [t [f [w' [E [SH [WF [FS [L IM]]]]]]]]].
  exists s, t, w'. split; auto. split; auto. split; auto. rewrite L, ev_length. split; auto.
  intros k q r Hl. assert (Lk : k < length (ev_vertices ev)) by (rewrite ev_length; apply nth_error_Some; congruence).
  destruct (nth_some _ _ Lk) as [v V]. destruct (IM k v V) as [y [Y [D [PA PB]]]]. exists y. split; auto.
  split; [eapply described; eauto|]. destruct q as [j|]; cbn [parent_no].
  - destruct (xp_joined _ X k j r Hl) as [Lj _]. assert (Lj' : j < length (ev_vertices ev)) by lia. destruct (nth_some _ _ Lj') as [u U].
    destruct (PA u) as [j' [A [B F]]]; [apply ev_produced; eauto 8|eapply ev_rooted; eauto|].
    assert (j' = j). { destruct (vertex_at _ _ F) as [_ [_ [_ V1]]]. destruct (vertex_at _ _ U) as [_ [_ [_ V2]]]. apply vid_inj. congruence. }
    subst. auto.
  - apply PB. left. intros u P. apply ev_produced in P. destruct P as [j [k' [r' [A [B F]]]]].
    assert (k' = k). { destruct (vertex_at _ _ V) as [_ [_ [_ V1]]]. destruct (vertex_at _ _ B) as [_ [_ [_ V2]]]. apply vid_inj. congruence. }
    subst. congruence.
Qed.
End Result.
End Export.

Lemma joined_rows cm c second e f t ord u v j k x y : graph e -> imported cm c second e f t ord ->
  nth_error ord j = Some u -> nth_error ord k = Some v -> produced e u v ->
  nth_error t j = Some x -> nth_error t k = Some y -> exists m, continues (row_record x) (row_record y) m.
Proof.
  intros G [_ IM] U V P X Y. destruct (IM j u U) as [x' [X' [D1 _]]]. destruct (IM k v V) as [y' [Y' [D2 _]]].
  assert (x' = x) by congruence. assert (y' = y) by congruence. subst. eapply joined_records; eauto.
Qed.

(** ** Strict mode *)
Lemma required_strict p name x : required_attr true p name = Some x -> has p name.
Proof. unfold required_attr, has. destruct (attribute (p_attributes p) name); [eauto|discriminate]. Qed.

Lemma all_some_in {A B} (f : A -> option B) l : forall ys, all_some (map f l) = Some ys -> forall a, In a l -> exists b, f a = Some b.
Proof.
  induction l as [|a l IH]; intros ys H b; [intros []|intros [E|J]]; cbn in H; destruct (f a) eqn:F; try discriminate.
  - subst. eauto.
  - destruct (all_some (map f l)) eqn:G; [|discriminate]. eapply IH; eauto.
Qed.

Lemma strict_record cm c second {W} (gen : W -> particle_id * W) e v ids w x ids' w' :
  vertex_record cm c second gen e true v ids w = (Some x, ids', w') -> complete e v.
Proof.
  unfold vertex_record. destruct (v_position v) as [[[px py] pz] pt].
  destruct (match find_primary e v with Some i => get_id gen e i ids w | None => (mkid false 0 0, ids, w) end) as [[pid ids1] w1].
  destruct (out_ids gen e (v_out v) ids1 w1) as [[sids ids2] w2]. intros H. split; [|split].
  - intros i F. rewrite F in H.
    destruct (required_attr true (part e i) "siren.helicity") eqn:R1; [|discriminate].
    destruct (required_attr true (part e i) "siren.primary_initial_position.x") eqn:R2; [|discriminate].
    destruct (required_attr true (part e i) "siren.primary_initial_position.y") eqn:R3; [|discriminate].
    destruct (required_attr true (part e i) "siren.primary_initial_position.z") eqn:R4; [|discriminate].
    destruct (required_attr true (part e i) "siren.primary_initial_time") eqn:R5; [|discriminate].
    apply required_strict in R1, R2, R3, R4, R5. unfold primary_attributes. repeat (apply Forall_cons; auto).
  - intros i F. rewrite F in H. destruct (required_attr true (part e i) "siren.helicity") eqn:R1; [apply required_strict in R1; auto|].
    exfalso. destruct (match find_primary e v with Some i0 => _ | None => _ end) as [[[[[[a1 a2] a3] a4] a5] a6]|]; discriminate.
  - intros i J.
    destruct (all_some (map (fun p => required_attr true p "siren.helicity") (map (part e) (v_out v)))) as [hs|] eqn:A.
    + destruct (all_some_in _ _ _ A (part e i)) as [b B]; [apply in_map; auto|]. eapply required_strict; eauto.
    + exfalso. destruct (match find_primary e v with Some i0 => _ | None => _ end) as [[[[[[a1 a2] a3] a4] a5] a6]|]; [|discriminate].
      destruct (match find_target e v with Some i0 => _ | None => _ end) as [[[[b1 b2] b3] b4]|]; discriminate.
Qed.

Lemma strict_read cm c second {W} (gen : W -> particle_id * W) e vs : forall recs pars ids w r w',
  read_vertices cm c second gen e true vs recs pars ids w = (Some r, w') -> Forall (complete e) vs.
Proof.
  induction vs as [|v vs IH]; intros recs pars ids w r w' H; [constructor|]. cbn [read_vertices] in H.
  destruct (vertex_record cm c second gen e true v ids w) as [[[x|] ids1] w1] eqn:E; [|discriminate].
  constructor; [eapply strict_record; eauto|eapply IH; eauto].
Qed.

Lemma strict_complete cm c second {W} (gen : W -> particle_id * W) e w s w' :
  import_event cm c second gen e true w = (Some (Ok s), w') -> Forall (complete e) (ev_vertices e).
Proof.
  unfold import_event. destruct (read_vertices cm c second gen e true (ev_vertices e) [] [] [] w) as [[[recs prs]|] w1] eqn:E; [|discriminate].
  intros _. eapply strict_read; eauto.
Qed.
