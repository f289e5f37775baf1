(** Lemmas about event weights. *)
From Coq Require Import Reals List Bool ZArith Permutation Lra Lia.
From Verif Require Import TraversalModel VertexModel VertexProofs WeightModel WeightSpec.
Import ListNotations.
Open Scope R_scope.

(** ** Lists *)

Lemma sublist_refl {A} (l : list A) : sublist l l.
Proof. induction l; constructor; auto. Qed.

Lemma sublist_trans {A} (a b c : list A) : sublist a b -> sublist b c -> sublist a c.
Proof.
  intros H. revert c. induction H; intros c Hc; auto.
  - inversion Hc; subst; constructor; auto.
  - constructor. auto.
Qed.

Lemma sublist_in {A} (a b : list A) x : sublist a b -> In x b -> In x a.
Proof. intros H. induction H; cbn; auto. intros [E|E]; auto. Qed.

Lemma erase_sublist {A} (l : list A) i : sublist l (erase i l).
Proof.
  revert i. induction l as [|x l IH]; intros i; cbn; [constructor|].
  destruct i; constructor; auto. apply sublist_refl.
Qed.

Lemma erase_perm {A} (l : list A) i x : nth_error l i = Some x -> Permutation l (x :: erase i l).
Proof.
  revert i. induction l as [|y l IH]; intros [|i]; cbn; intros H; try discriminate.
  - injection H as ->. apply Permutation_refl.
  - apply IH in H. eapply Permutation_trans; [apply perm_skip, H|]. apply perm_swap.
Qed.

Lemma erase_skip {A} (l : list A) k : (k < length l)%nat -> skipn k (erase k l) = skipn (S k) l.
Proof.
  revert k. induction l as [|x l IH]; intros k; cbn [length]; [lia|].
  destruct k; cbn; auto. intros H. apply IH. lia.
Qed.

Lemma skip_nth {A} (l : list A) k x : nth_error l k = Some x -> skipn k l = x :: skipn (S k) l.
Proof.
  revert k. induction l as [|y l IH]; intros [|k]; cbn; intros H; try discriminate.
  - now injection H as ->.
  - now apply IH.
Qed.

(** ** Cancelling *)

Lemma phys_loop_some x j phys i : phys_loop x j phys = Some i -> nth_error phys i = Some x.
Proof.
  induction j as [|j IH]; cbn; [discriminate|]. destruct (nth_error phys j) as [y|] eqn:E; [|discriminate].
  destruct (Nat.eqb x y) eqn:Q; [|exact IH]. intros H. injection H as <-. apply Nat.eqb_eq in Q. now subst.
Qed.

Lemma phys_loop_none x j phys : (j <= length phys)%nat -> phys_loop x j phys = None ->
  forall i, (i < j)%nat -> nth_error phys i <> Some x.
Proof.
  induction j as [|j IH]; cbn; intros L; [lia|].
  destruct (nth_error phys j) as [y|] eqn:E.
  - destruct (Nat.eqb x y) eqn:Q; [discriminate|]. intros H i Hi. destruct (Nat.eq_dec i j) as [->|N].
    + rewrite E. intros F. injection F as ->. now rewrite Nat.eqb_refl in Q.
    + apply IH; auto; lia.
  - intros _. apply nth_error_None in E. lia.
Qed.

Lemma phys_loop_absent x phys : phys_loop x (length phys) phys = None -> ~ In x phys.
Proof.
  intros H I. apply In_nth_error in I. destruct I as [i Hi].
  apply (phys_loop_none x (length phys) phys (le_n _) H i); auto.
  apply nth_error_Some. rewrite Hi. discriminate.
Qed.

Lemma gen_loop_cancelled k : forall gen phys, (k <= length gen)%nat ->
  (forall x, In x (skipn k gen) -> ~ In x phys) ->
  cancelled gen phys (fst (gen_loop k gen phys)) (snd (gen_loop k gen phys)).
Proof.
  induction k as [|k IH]; intros gen phys L Hd.
  - cbn. split; [apply sublist_refl|]. split; [apply sublist_refl|]. exists []. cbn.
    split; [apply Permutation_refl|]. split; [apply Permutation_refl|]. intros x I1 I2. now apply (Hd x).
  - cbn [gen_loop]. destruct (nth_error gen k) as [x|] eqn:Ex; [|apply nth_error_None in Ex; lia].
    destruct (phys_loop x (length phys) phys) as [j|] eqn:Ej.
    + apply phys_loop_some in Ej. pose proof (erase_perm gen k x Ex) as P1. pose proof (erase_perm phys j x Ej) as P2.
      destruct (IH (erase k gen) (erase j phys)) as (S1 & S2 & common & C1 & C2 & C3).
      * apply Permutation_length in P1. cbn in P1. lia.
      * rewrite erase_skip by lia. intros y Iy Jy. apply (Hd y Iy).
        apply (sublist_in _ _ y (erase_sublist phys j) Jy).
      * split; [apply (sublist_trans _ _ _ (erase_sublist gen k) S1)|].
        split; [apply (sublist_trans _ _ _ (erase_sublist phys j) S2)|].
        exists (x :: common). split; [|split; [|exact C3]].
        -- eapply Permutation_trans; [exact P1|]. cbn. now apply perm_skip.
        -- eapply Permutation_trans; [exact P2|]. cbn. now apply perm_skip.
    + apply IH; [lia|]. intros y Iy. rewrite (skip_nth _ _ _ Ex) in Iy. destruct Iy as [<-|Iy].
      * now apply phys_loop_absent.
      * now apply Hd.
Qed.

Lemma cancel_cancelled gen phys : cancelled gen phys (fst (cancel gen phys)) (snd (cancel gen phys)).
Proof. apply gen_loop_cancelled; auto. rewrite skipn_all. intros x []. Qed.

(** ** Products *)

Lemma prod_app a b : prod (a ++ b) = prod a * prod b.
Proof. unfold prod. induction a as [|x a IH]; cbn; [ring|]. rewrite IH. ring. Qed.

Lemma prod_perm a b : Permutation a b -> prod a = prod b.
Proof. intros H. unfold prod. induction H; cbn; try ring; congruence. Qed.

Lemma prod_nonzero l : (forall x, In x l -> x <> 0) -> prod l <> 0.
Proof.
  induction l as [|x l IH]; cbn; intros H; [lra|]. apply Rmult_integral_contrapositive_currified.
  - apply H. auto.
  - apply IH. auto.
Qed.

Lemma fold_mul {A} (f : A -> R) l : forall a,
  fold_left (fun p d => fmul p (Fin (f d))) l (Fin a) = Fin (a * prod (map f l)).
Proof.
  induction l as [|x l IH]; intros a; cbn.
  - f_equal. unfold prod. cbn. ring.
  - rewrite IH. f_equal. unfold prod. cbn. ring.
Qed.

Lemma fold_mul_R {A} (f : A -> R) l : forall a, fold_left (fun p d => p * f d) l a = a * prod (map f l).
Proof.
  induction l as [|x l IH]; intros a; cbn; [unfold prod; cbn; ring|]. rewrite IH. unfold prod. cbn. ring.
Qed.

Lemma normalization_prod norm l : forall a,
  fold_left (fun a d => match norm d with Some n => a * n | None => a end) l a =
  a * prod (map (fun d : nat => match norm d with Some n => n | None => 1 end) l).
Proof.
  induction l as [|x l IH]; intros a; cbn; [unfold prod; cbn; ring|]. rewrite IH.
  destruct (norm x); unfold prod; cbn; ring.
Qed.

(** ** Addition of doubles *)

Lemma fadd_comm a b : fadd a b = fadd b a.
Proof. destruct a as [x|[]|], b as [y|[]|]; cbn; auto. f_equal. ring. Qed.

Lemma fadd_assoc a b c : fadd a (fadd b c) = fadd (fadd a b) c.
Proof. destruct a as [x|[]|], b as [y|[]|], c as [z|[]|]; cbn; auto. f_equal. ring. Qed.

Lemma fadd_zero a : fadd (Fin 0) a = a.
Proof. destruct a; cbn; auto. f_equal. ring. Qed.

Lemma fmul_one a : fmul (Fin 1) a = a.
Proof.
  destruct a as [x|s|]; cbn; auto.
  - f_equal. ring.
  - destruct (Req_EM_T 1 0); [lra|]. unfold negb_R. destruct (Rlt_dec 1 0); [lra|]. now rewrite xorb_false_r.
Qed.

Lemma fmul_comm a b : fmul a b = fmul b a.
Proof. destruct a as [x|s|], b as [y|t|]; cbn; auto. - f_equal. ring. - now rewrite xorb_comm. Qed.

Lemma fdiv_split a b g p : 0 < a -> 0 < b ->
  fdiv (Fin ((a + b) * g)) p = fadd (fdiv (Fin (a * g)) p) (fdiv (Fin (b * g)) p).
Proof.
  intros Ha Hb. destruct p as [p|s|]; cbn; auto.
  - destruct (Req_EM_T p 0) as [->|Hp].
    + destruct (Req_EM_T g 0) as [->|Hg].
      * rewrite !Rmult_0_r. destruct (Req_EM_T 0 0); [auto|lra].
      * assert (N : forall c, 0 < c -> c * g <> 0) by (intros; apply Rmult_integral_contrapositive_currified; lra).
        destruct (Req_EM_T ((a + b) * g) 0) as [E|_]; [now apply N in E; [|lra]|].
        destruct (Req_EM_T (a * g) 0) as [E|_]; [now apply N in E|].
        destruct (Req_EM_T (b * g) 0) as [E|_]; [now apply N in E|].
        cbn. assert (Sg : forall c, 0 < c -> negb_R (c * g) = negb_R g).
        { intros c Hc. unfold negb_R. destruct (Rlt_dec g 0), (Rlt_dec (c * g) 0); auto; nra. }
        rewrite !Sg by lra. now rewrite Bool.eqb_reflx.
    + cbn. f_equal. field. auto.
  - f_equal. ring.
Qed.

(** ** Maps *)

Lemma at_key_in {A} (m : list (Z * A)) k x : at_key m k = Some x -> In (k, x) m.
Proof.
  unfold at_key. destruct (find _ m) as [[k' x']|] eqn:E; [|discriminate]. intros H. injection H as <-.
  apply find_some in E. destruct E as [I Q]. apply Z.eqb_eq in Q. cbn in *. now subst.
Qed.

Lemma at_key_none {A} (m : list (Z * A)) k : at_key m k = None <-> ~ In k (map fst m).
Proof.
  unfold at_key. destruct (find _ m) as [[k' x']|] eqn:E.
  - apply find_some in E. destruct E as [I Q]. apply Z.eqb_eq in Q. cbn in Q. subst. split; [discriminate|].
    intros H. exfalso. apply H. apply in_map_iff. exists (k, x'). auto.
  - split; auto. intros _ H. apply in_map_iff in H. destruct H as [[k' x] [<- I]].
    apply (find_none _ _ E) in I. cbn in I. now rewrite Z.eqb_refl in I.
Qed.

Lemma nodup_fst {A} (m : list (Z * A)) k x y : NoDup (map fst m) -> In (k, x) m -> In (k, y) m -> x = y.
Proof.
  induction m as [|[k' z] m IH]; cbn; [intros _ []|]. intros N. inversion N; subst.
  assert (forall v, In (k', v) m -> False).
  { intros v I. apply H1. apply in_map_iff. exists (k', v). auto. }
  intros [E1|I1] [E2|I2].
  - congruence.
  - injection E1 as -> ->. exfalso. eauto.
  - injection E2 as -> ->. exfalso. eauto.
  - auto.
Qed.

Lemma at_key_unique {A} (m : list (Z * A)) k x : NoDup (map fst m) -> In (k, x) m -> at_key m k = Some x.
Proof.
  intros N I. destruct (at_key m k) as [y|] eqn:E.
  - f_equal. apply at_key_in in E. now apply (nodup_fst m k).
  - apply at_key_none in E. exfalso. apply E. apply in_map_iff. exists (k, x). auto.
Qed.

Lemma assign_keys {A} (m : list (Z * A)) k x t : In t (map fst (assign m k x)) <-> t = k \/ In t (map fst m).
Proof.
  unfold assign. cbn. split.
  - intros [E|H]; auto. apply in_map_iff in H. destruct H as [e [<- H]]. apply filter_In in H. right.
    apply in_map. tauto.
  - intros [->|H]; auto. apply in_map_iff in H. destruct H as [e [<- H]].
    destruct (Z.eq_dec (fst e) k) as [E|E]; auto. right. apply in_map. apply filter_In. split; auto.
    apply negb_true_iff. now apply Z.eqb_neq.
Qed.

Lemma assign_nodup {A} (m : list (Z * A)) k x : NoDup (map fst m) -> NoDup (map fst (assign m k x)).
Proof.
  intros N. unfold assign. cbn. constructor.
  - intros H. apply in_map_iff in H. destruct H as [e [E H]]. apply filter_In in H. destruct H as [_ H].
    rewrite E, Z.eqb_refl in H. discriminate.
  - induction m as [|[k' z] m IH]; cbn; [constructor|]. inversion N; subst. destruct (negb (k' =? k)%Z); auto.
    cbn. constructor; auto. intros H. apply H1. apply in_map_iff in H. destruct H as [e [E H]].
    apply filter_In in H. apply in_map_iff. exists e. tauto.
Qed.

Lemma assign_same {A} (m : list (Z * A)) k x : at_key (assign m k x) k = Some x.
Proof. unfold at_key, assign. cbn. now rewrite Z.eqb_refl. Qed.

Lemma assign_other {A} (m : list (Z * A)) k x t : t <> k -> at_key (assign m k x) t = at_key m t.
Proof.
  intros N. unfold at_key, assign. cbn. destruct (Z.eqb_spec k t) as [E|_]; [congruence|].
  induction m as [|[k' z] m IH]; cbn; auto. destruct (Z.eqb_spec k' k) as [->|E]; cbn.
  - destruct (Z.eqb_spec k t) as [E|_]; [congruence|]. exact IH.
  - destruct (Z.eqb_spec k' t) as [->|F]; [auto|]. exact IH.
Qed.

(** ** One process *)

Section Weight.
Context {Rec Inter Bounds : Type}.
Variable rtype : Rec -> Z.
Variable dens : nat -> Inter -> Rec -> R.
Variable norm : nat -> option R.
Variable csp : Inter -> Rec -> R.
Variable total_depth traversed : Inter -> Bounds -> Rec -> R.
Variable density : Inter -> Rec -> R.
Variable no_bounds : Bounds.

Notation physical := (physical_probability dens csp total_depth traversed density).
Notation generation := (generation_probability dens csp).
Notation make := (make_weighter norm).
Notation concern := (concerns rtype no_bounds).
Notation event := (event_densities rtype dens norm csp total_depth traversed density no_bounds).
Notation full_p := (full_physical dens norm csp total_depth traversed density).
Notation full_g := (full_generation dens csp).
Notation injector := (injector Rec Inter Bounds).

Lemma make_fields (pp ip : pprocess Inter) :
  w_norm (make pp ip) = normalization norm (p_dists pp) /\
  w_gen (make pp ip) = fst (cancel (p_dists ip) (p_dists pp)) /\
  w_phys (make pp ip) = snd (cancel (p_dists ip) (p_dists pp)) /\
  w_pp (make pp ip) = pp /\ w_ip (make pp ip) = ip.
Proof. unfold make_weighter. destruct (cancel _ _). cbn. auto. Qed.

Lemma position_fin i b r : 0 < total_depth i b r ->
  position_probability total_depth traversed density i b r =
  Fin (position_density (density i r) (total_depth i b r) (traversed i b r)).
Proof.
  intros HT. unfold position_probability, position_density, fdiv.
  destruct (Rlt_dec (total_depth i b r) (1 / 1000000)); [|auto].
  destruct (Req_EM_T (total_depth i b r) 0); [lra|auto].
Qed.

(** The part of the densities that has been cancelled. *)
Lemma weighter_factors pp ip b r : 0 < total_depth (p_inter pp) b r -> shared_agree dens pp ip r ->
  exists c p' g', c <> 0 /\ physical (make pp ip) b r = Fin p' /\ generation (make pp ip) r = Fin g' /\
  full_p pp b r = c * p' /\ full_g ip r = c * g'.
Proof.
  intros HT HA. destruct (make_fields pp ip) as (E1 & E2 & E3 & E4 & E5).
  destruct (cancel_cancelled (p_dists ip) (p_dists pp)) as (_ & _ & common & C1 & C2 & _).
  unfold physical_probability, generation_probability. rewrite E1, E2, E3, E4, E5, position_fin by exact HT.
  set (gen' := fst (cancel (p_dists ip) (p_dists pp))) in *. set (phys' := snd (cancel (p_dists ip) (p_dists pp))) in *.
  exists (prod (map (fun d => dens d (p_inter ip) r) common)).
  eexists. eexists. split; [|split; [|split; [|split]]].
  - apply prod_nonzero. intros x I. apply in_map_iff in I. destruct I as [d [<- I]].
    apply HA; [apply (Permutation_in _ (Permutation_sym C2)) | apply (Permutation_in _ (Permutation_sym C1))];
      apply in_or_app; auto.
  - cbn [fmul]. rewrite fold_mul. cbn [fmul]. reflexivity.
  - rewrite fold_mul. reflexivity.
  - unfold full_physical, normalization. rewrite normalization_prod.
    rewrite (prod_perm (map (fun d => dens d (p_inter pp) r) (p_dists pp))
      (map (fun d => dens d (p_inter pp) r) (common ++ phys'))) by (now apply Permutation_map).
    rewrite map_app, prod_app.
    replace (map (fun d => dens d (p_inter pp) r) common) with (map (fun d => dens d (p_inter ip) r) common).
    + ring.
    + apply map_ext_in. intros d I. symmetry.
      apply HA; [apply (Permutation_in _ (Permutation_sym C2)) | apply (Permutation_in _ (Permutation_sym C1))];
      apply in_or_app; auto.
  - unfold full_generation.
    rewrite (prod_perm (map (fun d => dens d (p_inter ip) r) (p_dists ip))
      (map (fun d => dens d (p_inter ip) r) (common ++ gen'))) by (now apply Permutation_map).
    rewrite map_app, prod_app. ring.
Qed.

Lemma process_ratio pp ip b r : 0 < total_depth (p_inter pp) b r -> shared_agree dens pp ip r ->
  full_g ip r <> 0 ->
  process_weight dens csp total_depth traversed density (make pp ip) b r = Fin (full_p pp b r / full_g ip r).
Proof.
  intros HT HA HG. destruct (weighter_factors pp ip b r HT HA) as (c & p' & g' & Hc & E1 & E2 & E3 & E4).
  unfold process_weight. rewrite E1, E2, E3, E4. cbn. rewrite E4 in HG.
  destruct (Req_EM_T g' 0) as [->|Hg]; [exfalso; apply HG; ring|]. f_equal. field. auto.
Qed.

(** ** Initialization *)

Lemma init_secondary_some (m : list (Z * pprocess Inter)) phys : forall acc,
  (forall pp, In pp phys -> In (p_type pp) (map fst m)) -> exists r, init_secondary norm m phys acc = Some r.
Proof.
  induction phys as [|pp phys IH]; intros acc H; cbn; [eauto|].
  destruct (at_key m (p_type pp)) as [ip|] eqn:E.
  - apply IH. intros q I. apply H. now right.
  - apply at_key_none in E. exfalso. apply E, H. now left.
Qed.

Lemma init_secondary_keys (m : list (Z * pprocess Inter)) phys : forall acc r, NoDup (map fst acc) -> init_secondary norm m phys acc = Some r ->
  NoDup (map fst r) /\ forall t, In t (map fst r) <-> In t (map fst acc) \/ In t (map p_type phys).
Proof.
  induction phys as [|pp phys IH]; intros acc r N; cbn.
  - intros H. injection H as <-. split; auto. intros t. tauto.
  - destruct (at_key m (p_type pp)) as [ip|]; [|discriminate]. intros H.
    apply IH in H; [|now apply assign_nodup]. destruct H as [N2 K]. split; auto. intros t.
    rewrite K, assign_keys. intuition.
Qed.

Lemma init_secondary_other (m : list (Z * pprocess Inter)) phys : forall acc r t, init_secondary norm m phys acc = Some r ->
  ~ In t (map p_type phys) -> at_key r t = at_key acc t.
Proof.
  induction phys as [|pp phys IH]; intros acc r t; cbn.
  - intros H _. now injection H as <-.
  - destruct (at_key m (p_type pp)) as [ip|]; [|discriminate]. intros H N.
    rewrite (IH _ _ t H) by tauto. apply assign_other. intuition.
Qed.

Lemma init_secondary_value (m : list (Z * pprocess Inter)) phys : forall acc r pp ip, init_secondary norm m phys acc = Some r ->
  NoDup (map p_type phys) -> In pp phys -> at_key m (p_type pp) = Some ip ->
  at_key r (p_type pp) = Some (make pp ip).
Proof.
  induction phys as [|q phys IH]; intros acc r pp ip; cbn; [intros _ _ []|].
  destruct (at_key m (p_type q)) as [iq|] eqn:Eq; [|discriminate]. intros H N I E. inversion N; subst.
  destruct I as [->|I].
  - rewrite (init_secondary_other _ _ _ _ _ H) by auto. rewrite assign_same. congruence.
  - now apply (IH _ _ pp ip H).
Qed.

Definition entry_ok (secondary : list (pprocess Inter)) (inj : injector) (m : list (Z * weighter Inter)) : Prop :=
  init_secondary norm (i_secondary inj) secondary [] = Some m.

Lemma initialize_complete primary secondary (injs : list injector) : Forall (same_types secondary) injs ->
  exists ms, initialize norm primary secondary injs = (map (fun inj => make primary (i_primary inj)) injs, ms) /\
  Forall2 (entry_ok secondary) injs ms.
Proof.
  induction injs as [|inj injs IH]; intros F; cbn; [exists []; split; auto|].
  inversion F as [|? ? (N1 & N2 & K) F2]; subst. destruct (IH F2) as (ms & E & F3).
  destruct (init_secondary_some (i_secondary inj) secondary []) as [m Em].
  { intros pp I. apply K. now apply in_map. }
  rewrite Em. destruct (init_secondary_keys _ _ [] _ (NoDup_nil _) Em) as [Nm Km].
  assert (L : length m = length (i_secondary inj)).
  { rewrite <- (map_length fst m), <- (map_length fst (i_secondary inj)). apply Nat.le_antisymm.
    - apply NoDup_incl_length; auto. intros t I. apply Km in I. destruct I as [[]|I]. now apply K.
    - apply NoDup_incl_length; auto. intros t I. apply Km. right. now apply K. }
  rewrite L, Nat.eqb_refl. cbn. rewrite E. exists (m :: ms). split; auto.
Qed.

(** The two vectors only matter through their entry for the injector. *)
Definition one_term (w : weighter Inter) (m : list (Z * weighter Inter)) (inj : injector) (tree : list (bool * Rec)) :
    outcome (option (flt * flt)) :=
  tree_loop rtype dens csp total_depth traversed density no_bounds 0 inj [w] [m] tree (Fin 1) (Fin (IZR (i_events inj))).

Lemma tree_loop_entry (inj : injector) w m ws ms idx : nth_error ws idx = Some w -> nth_error ms idx = Some m ->
  forall tree p g,
  tree_loop rtype dens csp total_depth traversed density no_bounds idx inj ws ms tree p g =
  tree_loop rtype dens csp total_depth traversed density no_bounds 0 inj [w] [m] tree p g.
Proof.
  intros E1 E2. induction tree as [|[[] r] tree IH]; intros p g; cbn; auto.
  - rewrite E1. apply IH.
  - destruct (secondary_bounds rtype inj r); auto. rewrite E2. destruct (at_key m (rtype r)); auto.
Qed.

Lemma concern_unique primary secondary (inj : injector) d pp ip b : concern primary secondary inj d pp ip b ->
  fst d = true -> pp = primary /\ ip = i_primary inj /\ b = primary_bounds no_bounds inj (snd d).
Proof.
  intros H. inversion H; subst; cbn; intros E; try discriminate; unfold primary_bounds.
  - rewrite H0. auto.
  - rewrite H0. auto.
Qed.

Lemma pair_eq x x' y y' : x = x' -> y = y' ->
  Ok (Some (Fin x, Fin y)) = Ok (Some (Fin x', Fin y')).
Proof. intros -> ->. auto. Qed.

Lemma tree_factors primary secondary (inj : injector) m tree g p :
  same_types secondary inj -> NoDup (map p_type secondary) -> entry_ok secondary inj m ->
  event primary secondary inj tree g p ->
  forall a b, exists c p' g', c <> 0 /\ p = c * p' /\ g = c * g' /\
  tree_loop rtype dens csp total_depth traversed density no_bounds 0 inj [make primary (i_primary inj)] [m] tree (Fin a) (Fin b) =
  Ok (Some (Fin (a * p'), Fin (b * g'))).
Proof.
  intros (N1 & N2 & K) N Em H. induction H as [|d t pp ip bb g p Hc HT HA H IH]; intros a b.
  - exists 1, 1, 1. cbn. repeat split; try lra. apply pair_eq; ring.
  - destruct (weighter_factors pp ip bb (snd d) HT HA) as (c & p' & g' & Hc0 & E1 & E2 & E3 & E4).
    destruct (IH (a * p') (b * g')) as (c2 & p2 & g2 & Hc2 & F1 & F2 & F3).
    exists (c * c2), (p' * p2), (g' * g2). split; [now apply Rmult_integral_contrapositive_currified|].
    split; [rewrite E3, F1; ring|]. split; [rewrite E4, F2; ring|].
    destruct d as [[] r]; cbn [fst snd] in *.
    + apply concern_unique in Hc; auto. cbn [snd] in Hc. destruct Hc as (-> & -> & ->).
      cbn [tree_loop nth_error]. rewrite E1, E2. cbn [fmul]. rewrite F3. apply pair_eq; ring.
    + inversion Hc; subst. cbn [tree_loop nth_error]. unfold secondary_bounds.
      rewrite (at_key_unique _ _ f N2) by auto. rewrite (at_key_unique _ _ ip N1) by auto.
      assert (Ei : at_key (i_secondary inj) (p_type pp) = Some ip).
      { rewrite H2. now apply at_key_unique. }
      pose proof (init_secondary_value _ _ _ _ _ _ Em N H1 Ei) as Ew. rewrite H2 in Ew. rewrite Ew.
      rewrite E1, E2. cbn [fmul]. rewrite F3. apply pair_eq; ring.
Qed.

(** The loop over the injectors adds up terms. *)
Fixpoint terms (injs : list injector) (ws : list (weighter Inter)) (ms : list (list (Z * weighter Inter)))
    (tree : list (bool * Rec)) : outcome (option (list flt)) :=
  match injs, ws, ms with
  | inj :: r, w :: ws, m :: ms =>
      match one_term w m inj tree with
      | Ok (Some (p, g)) =>
          match terms r ws ms tree with
          | Ok (Some l) => Ok (Some (fdiv g p :: l))
          | x => x
          end
      | Ok None => Ok None
      | Throw => Throw
      | UB => UB
      end
  | _, _, _ => Ok (Some [])
  end.

Lemma injector_loop_terms injs : forall idx pre1 pre2 ws ms tree inv,
  length pre1 = idx -> length pre2 = idx -> length ws = length injs -> length ms = length injs ->
  injector_loop rtype dens csp total_depth traversed density no_bounds idx injs (pre1 ++ ws) (pre2 ++ ms) tree inv =
  match terms injs ws ms tree with
  | Ok (Some l) => Ok (Some (fold_left fadd l inv))
  | Ok None => Ok None
  | Throw => Throw
  | UB => UB
  end.
Proof.
  induction injs as [|inj injs IH]; intros idx pre1 pre2 ws ms tree inv L1 L2 L3 L4; [auto|].
  destruct ws as [|w ws]; [discriminate|]. destruct ms as [|m ms]; [discriminate|]. cbn [injector_loop terms].
  rewrite (tree_loop_entry inj w m).
  2:{ rewrite nth_error_app2 by lia. rewrite L1, Nat.sub_diag. auto. }
  2:{ rewrite nth_error_app2 by lia. rewrite L2, Nat.sub_diag. auto. }
  fold (one_term w m inj tree). destruct (one_term w m inj tree) as [[[p g]|]| |]; auto.
  replace (pre1 ++ w :: ws) with ((pre1 ++ [w]) ++ ws) by (rewrite <- app_assoc; auto).
  replace (pre2 ++ m :: ms) with ((pre2 ++ [m]) ++ ms) by (rewrite <- app_assoc; auto).
  rewrite IH; cbn in *; try lia; try (rewrite app_length; cbn; lia).
  destruct (terms injs ws ms tree) as [[l|]| |]; auto.
Qed.

(** The contribution of an injector; [None] if it lacks a process. *)
Definition term (primary : pprocess Inter) (secondary : list (pprocess Inter)) (tree : list (bool * Rec))
    (inj : injector) : option flt :=
  match init_secondary norm (i_secondary inj) secondary [] with
  | None => None
  | Some m =>
      match one_term (make primary (i_primary inj)) m inj tree with
      | Ok (Some (p, g)) => Some (fdiv g p)
      | _ => None
      end
  end.

Lemma one_entry (inj : injector) w m tree : forall p g,
  (forall g2, tree_loop rtype dens csp total_depth traversed density no_bounds 0 inj [w] [m] tree p (Fin g2) = Ok None) \/
  exists p' G, forall g2,
    tree_loop rtype dens csp total_depth traversed density no_bounds 0 inj [w] [m] tree p (Fin (g2 * g)) =
    Ok (Some (p', Fin (g2 * G))).
Proof.
  induction tree as [|[[] r] tree IH]; intros p g; cbn.
  - right. exists p, g. auto.
  - unfold generation_probability. rewrite fold_mul. cbn [fmul].
    set (c := csp _ r * prod _).
    destruct (IH (fmul p (physical w (primary_bounds no_bounds inj r) r)) (g * c)) as [H|(p' & G & H)].
    + left. intros g2. apply H.
    + right. exists p', G. intros g2. rewrite <- H. do 2 f_equal. ring.
  - destruct (secondary_bounds rtype inj r) as [b|]; [|left; auto].
    destruct (at_key m (rtype r)) as [v|]; [|left; auto].
    unfold generation_probability. rewrite fold_mul. cbn [fmul]. set (c := csp _ r * prod _).
    destruct (IH (fmul p (physical v b r)) (g * c)) as [H|(p' & G & H)].
    + left. intros g2. apply H.
    + right. exists p', G. intros g2. rewrite <- H. do 2 f_equal. ring.
Qed.

Definition oadd (a b : option flt) : option flt :=
  match a, b with Some x, Some y => Some (fadd x y) | _, _ => None end.

Definition osum (l : list (option flt)) : option flt := fold_right oadd (Some (Fin 0)) l.

Lemma oadd_comm a b : oadd a b = oadd b a.
Proof. destruct a, b; cbn; auto. f_equal. apply fadd_comm. Qed.

Lemma oadd_assoc a b c : oadd a (oadd b c) = oadd (oadd a b) c.
Proof. destruct a, b, c; cbn; auto. f_equal. apply fadd_assoc. Qed.

Lemma osum_perm a b : Permutation a b -> osum a = osum b.
Proof.
  intros H. unfold osum. induction H; cbn; auto.
  - congruence.
  - rewrite !oadd_assoc. now rewrite (oadd_comm y x).
  - congruence.
Qed.

Lemma fold_fadd l : forall a, fold_left fadd l a = fadd a (fold_right fadd (Fin 0) l).
Proof.
  induction l as [|x l IH]; intros a; cbn.
  - rewrite fadd_comm, fadd_zero. auto.
  - rewrite IH, fadd_assoc. auto.
Qed.

Lemma terms_osum primary secondary tree injs : forall ms, Forall2 (entry_ok secondary) injs ms ->
  match terms injs (map (fun inj => make primary (i_primary inj)) injs) ms tree with
  | Ok (Some l) => osum (map (term primary secondary tree) injs) = Some (fold_right fadd (Fin 0) l)
  | Ok None => osum (map (term primary secondary tree) injs) = None
  | _ => False
  end.
Proof.
  induction injs as [|inj injs IH]; intros ms F; inversion F as [|? m ? ms' Em F']; subst; [cbn; auto|].
  cbn [map terms osum fold_right]. unfold term at 1 3. unfold entry_ok in Em. rewrite Em.
  unfold one_term.
  destruct (one_entry inj (make primary (i_primary inj)) m tree (Fin 1) 1) as [H|(p' & G & H)].
  - rewrite H. auto.
  - specialize (H (IZR (i_events inj))). rewrite Rmult_1_r in H. rewrite H. specialize (IH ms' F').
    destruct (terms injs _ ms' tree) as [[l|]| |]; auto.
    + unfold osum in IH. rewrite IH. auto.
    + unfold osum in IH. rewrite IH. auto.
Qed.

Notation weight := (event_weight rtype dens norm csp total_depth traversed density no_bounds).

Lemma weight_osum primary secondary injs tree : Forall (same_types secondary) injs ->
  weight primary secondary injs tree =
  Ok (match osum (map (term primary secondary tree) injs) with Some s => fdiv (Fin 1) s | None => Fin 0 end).
Proof.
  intros F. destruct (initialize_complete primary secondary injs F) as (ms & E & F2).
  unfold event_weight. rewrite E.
  pose proof (injector_loop_terms injs 0 [] [] (map (fun inj => make primary (i_primary inj)) injs) ms tree (Fin 0)
    eq_refl eq_refl (map_length _ _)) as L.
  cbn [app] in L. rewrite L.
  2:{ clear -F2. induction F2; cbn; auto. }
  pose proof (terms_osum primary secondary tree injs ms F2) as T.
  destruct (terms injs _ ms tree) as [[l|]| |]; try contradiction; rewrite T; auto.
  rewrite fold_fadd, fadd_zero. auto.
Qed.

Lemma weight_perm primary secondary injs injs' tree : Forall (same_types secondary) injs -> Permutation injs injs' ->
  weight primary secondary injs tree = weight primary secondary injs' tree.
Proof.
  intros F P. rewrite (weight_osum primary secondary injs tree F).
  rewrite (weight_osum primary secondary injs' tree) by (now apply (Permutation_Forall P)).
  rewrite (osum_perm _ _ (Permutation_map (term primary secondary tree) P)). auto.
Qed.

Lemma osum_app a b : osum (a ++ b) = oadd (osum a) (osum b).
Proof.
  induction a as [|x a IH].
  - cbn [app]. change (osum []) with (Some (Fin 0)). destruct (osum b); cbn [oadd]; auto. now rewrite fadd_zero.
  - unfold osum in *. cbn. rewrite IH. apply oadd_assoc.
Qed.

Lemma tree_loop_events (inj : injector) n ws ms tree : forall p g,
  tree_loop rtype dens csp total_depth traversed density no_bounds 0 (with_events inj n) ws ms tree p g =
  tree_loop rtype dens csp total_depth traversed density no_bounds 0 inj ws ms tree p g.
Proof.
  induction tree as [|[[] r] tree IH]; intros p g; cbn [tree_loop]; auto.
  - destruct (nth_error ws 0); auto.
  - change (secondary_bounds rtype (with_events inj n) r) with (secondary_bounds rtype inj r).
    destruct (secondary_bounds rtype inj r); auto. destruct (nth_error ms 0) as [m|]; auto.
    destruct (at_key m (rtype r)); auto.
Qed.

Lemma term_split primary secondary tree (inj : injector) n m : (0 < n)%Z -> (0 < m)%Z -> i_events inj = (n + m)%Z ->
  term primary secondary tree inj =
  oadd (term primary secondary tree (with_events inj n)) (term primary secondary tree (with_events inj m)).
Proof.
  intros Hn Hm E. unfold term, one_term. cbn [with_events i_events i_primary i_secondary].
  destruct (init_secondary norm (i_secondary inj) secondary []) as [mm|]; auto.
  rewrite !tree_loop_events.
  destruct (one_entry inj (make primary (i_primary inj)) mm tree (Fin 1) 1) as [H|(p' & G & H)].
  - now rewrite !H.
  - pose proof (H (IZR (i_events inj))) as H0. pose proof (H (IZR n)) as H1. pose proof (H (IZR m)) as H2.
    rewrite Rmult_1_r in H0, H1, H2. rewrite H0, H1, H2. cbn [oadd]. f_equal.
    rewrite E, plus_IZR. apply fdiv_split; now apply (IZR_lt 0).
Qed.

Lemma weight_split primary secondary a inj b n m tree : (0 < n)%Z -> (0 < m)%Z -> i_events inj = (n + m)%Z ->
  Forall (same_types secondary) (a ++ inj :: b) ->
  weight primary secondary (a ++ with_events inj n :: with_events inj m :: b) tree =
  weight primary secondary (a ++ inj :: b) tree.
Proof.
  intros Hn Hm E F. rewrite (weight_osum primary secondary (a ++ inj :: b) tree F).
  rewrite weight_osum.
  - rewrite !map_app, !osum_app. cbn [map osum fold_right].
    rewrite (term_split primary secondary tree inj n m) by auto. now rewrite !oadd_assoc.
  - apply Forall_app in F. destruct F as [F1 F2]. inversion F2; subst. apply Forall_app. split; auto.
Qed.

Definition given primary secondary tree (inj : injector) (x : R * R * R) : Prop :=
  fst (fst x) = IZR (i_events inj) /\ event primary secondary inj tree (snd (fst x)) (snd x) /\ snd x <> 0.

Lemma term_value primary secondary tree inj x : same_types secondary inj -> NoDup (map p_type secondary) ->
  given primary secondary tree inj x ->
  term primary secondary tree inj = Some (Fin (fst (fst x) * snd (fst x) / snd x)).
Proof.
  intros Hs N (E1 & E2 & E3). unfold term, one_term.
  destruct (init_secondary_some (i_secondary inj) secondary []) as [m Em].
  { intros pp I. apply Hs. now apply in_map. }
  rewrite Em. destruct (tree_factors primary secondary inj m tree _ _ Hs N Em E2 1 (IZR (i_events inj)))
    as (c & p' & g' & Hc & F1 & F2 & F3).
  rewrite F3. cbn [fdiv]. rewrite E1, F1, F2. rewrite F1 in E3.
  assert (p' <> 0) by (intros ->; apply E3; ring).
  destruct (Req_EM_T (1 * p') 0); [lra|]. do 2 f_equal. field. auto.
Qed.

Lemma weight_balance primary secondary injs tree l : Forall (same_types secondary) injs ->
  NoDup (map p_type secondary) -> Forall2 (given primary secondary tree) injs l ->
  sum (map (fun x => fst (fst x) * snd (fst x) / snd x) l) <> 0 ->
  weight primary secondary injs tree = Ok (Fin (1 / sum (map (fun x => fst (fst x) * snd (fst x) / snd x) l))).
Proof.
  intros F N F2 Hs. rewrite (weight_osum primary secondary injs tree F).
  assert (E : osum (map (term primary secondary tree) injs) =
    Some (Fin (sum (map (fun x => fst (fst x) * snd (fst x) / snd x) l)))).
  { clear Hs. induction F2 as [|inj x injs l H F2 IH]; auto. inversion F; subst.
    cbn [map osum fold_right sum]. unfold osum in IH. rewrite IH by auto.
    now rewrite (term_value primary secondary tree inj x). }
  rewrite E. cbn [fdiv]. destruct (Req_EM_T _ 0); [contradiction|auto].
Qed.


(** ** The generation probability of the injector itself *)

Lemma generation_roots primary secondary (inj : injector) tree g p : same_types secondary inj ->
  (0 < i_events inj)%Z -> event primary secondary inj tree g p ->
  injector_generation rtype dens csp inj tree = Some (IZR (i_events inj) ^ roots tree * g).
Proof.
  intros (N1 & N2 & K) HN H.
  assert (L : forall a, fold_left (fun (acc : option R) (d : bool * Rec) =>
    match acc with
    | None => None
    | Some q =>
        if fst d then Some (q * injector_primary_generation dens csp inj (snd d))
        else match at_key (i_secondary inj) (rtype (snd d)) with
             | None => None
             | Some p => Some (q * injector_secondary_generation dens csp p (snd d))
             end
    end) tree (Some a) = Some (a * (IZR (i_events inj) ^ roots tree * g))).
  { induction H as [|d t pp ip b g p Hc HT HA H IH]; intros a.
    - cbn. f_equal. ring.
    - cbn [fold_left]. destruct d as [[] r]; cbn [fst snd].
      + apply concern_unique in Hc; auto. destruct Hc as (_ & -> & _).
        rewrite IH. f_equal. unfold injector_primary_generation, full_generation.
        rewrite fold_mul_R. destruct (Z.ltb_spec 0 (i_events inj)); [|lia].
        unfold roots. cbn. ring.
      + inversion Hc; subst. rewrite (at_key_unique _ _ ip N1) by auto. rewrite IH. f_equal.
        unfold injector_secondary_generation, full_generation. rewrite fold_mul_R. unfold roots. cbn. ring. }
  unfold injector_generation. rewrite L. f_equal. ring.
Qed.

(** A particle type without a process. *)
Lemma loop_missing (inj : injector) w m tree r : In (false, r) tree ->
  secondary_bounds rtype inj r = None \/ at_key m (rtype r) = None ->
  forall p g, tree_loop rtype dens csp total_depth traversed density no_bounds 0 inj [w] [m] tree p g = Ok None.
Proof.
  intros I H. induction tree as [|[[] q] tree IH]; [destruct I| |]; intros p g; cbn.
  - apply IH. destruct I as [E|I]; [discriminate|auto].
  - destruct I as [E|I].
    + injection E as ->. destruct H as [->|H]; auto. destruct (secondary_bounds rtype inj r); auto. now rewrite H.
    + destruct (secondary_bounds rtype inj q); auto. destruct (at_key m (rtype q)); auto.
Qed.

Lemma weight_missing primary secondary injs tree inj r : Forall (same_types secondary) injs -> In inj injs ->
  In (false, r) tree -> ~ In (rtype r) (map fst (i_secondary inj)) \/ ~ In (rtype r) (map fst (i_sec_position inj)) ->
  weight primary secondary injs tree = Ok (Fin 0).
Proof.
  intros F I Ir H. rewrite weight_osum by auto.
  assert (E : term primary secondary tree inj = None).
  { unfold term. destruct (init_secondary norm (i_secondary inj) secondary []) as [m|]; auto.
    unfold one_term. rewrite (loop_missing inj _ m tree r Ir); auto. left. unfold secondary_bounds.
    destruct H as [H|H]; apply at_key_none in H; rewrite H.
    - destruct (at_key (i_sec_position inj) (rtype r)); auto.
    - auto. }
  assert (E2 : osum (map (term primary secondary tree) injs) = None).
  { clear -I E. induction injs as [|x injs IH]; [destruct I|]. cbn. destruct I as [->|I].
    - rewrite E. auto.
    - unfold osum in IH. rewrite IH by auto. destruct (term primary secondary tree x); auto. }
  now rewrite E2.
Qed.

(** ** Distributions at other addresses *)

Lemma rename_types secondary f (inj : injector) : same_types secondary inj -> same_types secondary (rename f inj).
Proof.
  unfold same_types. cbn. rewrite map_map. cbn.
  replace (map (fun x => fst x) (i_secondary inj)) with (map fst (i_secondary inj)) by auto. auto.
Qed.

Lemma rename_generation f ip r : (forall d i q, dens (f d) i q = dens d i q) ->
  full_g (rename_process f ip) r = full_g ip r.
Proof.
  intros H. unfold full_generation. cbn [rename_process p_inter p_dists]. rewrite map_map.
  rewrite (map_ext (fun x => dens (f x) (p_inter ip) r) (fun x => dens x (p_inter ip) r)); auto.
Qed.

Lemma rename_event primary secondary f (inj : injector) tree g p :
  (forall d i q, dens (f d) i q = dens d i q) ->
  (forall d pp, In pp (primary :: secondary) -> ~ In (f d) (p_dists pp)) ->
  event primary secondary inj tree g p -> event primary secondary (rename f inj) tree g p.
Proof.
  intros Hd Hf H. induction H as [|d t pp ip b g p Hc HT HA H IH]; [constructor|].
  rewrite <- (rename_generation f) by auto. apply ed_cons; auto.
  - destruct Hc.
    + now apply c_primary_free.
    + change (f0 (p_inter (i_primary inj)) r) with (f0 (p_inter (i_primary (rename f inj))) r).
      now apply c_primary.
    + change (f0 (p_inter ip) r) with (f0 (p_inter (rename_process f ip)) r). apply c_secondary; auto.
      cbn. apply in_map_iff. exists (rtype r, ip). auto.
  - intros e I1 I2. exfalso. apply in_map_iff in I2. destruct I2 as [e' [<- _]].
    apply (Hf e' pp); auto. inversion Hc; subst; cbn; auto.
Qed.

(** ** Interaction probability and position density together *)

Lemma product_exact mu T t : 1 / 1000000 <= T <= 3 -> interaction_probability T * position_density mu T t = mu * exp (- t).
Proof.
  intros HT. unfold interaction_probability, position_density, one_minus_exp, log_one_minus_exp.
  destruct (Rlt_dec T (1 / 1000000)); [lra|]. destruct (Rlt_dec T (1 / 10)).
  - rewrite <- Rmult_assoc, (Rmult_comm _ mu), Rmult_assoc, <- exp_plus. do 2 f_equal. ring.
  - destruct (Rlt_dec 3 T); [lra|]. pose proof (VertexBounds.exp_minus_lt1 T ltac:(lra)).
    set (q := 1 - exp (- T)) in *. assert (0 < q) by (unfold q; lra).
    replace (- ln q - t) with (- ln q + - t) by ring. rewrite exp_plus, (exp_Ropp (ln q)), exp_ln by auto.
    field. lra.
Qed.

Lemma product_large mu T t : 3 < T ->
  interaction_probability T * position_density mu T t = density_factor T * (mu * exp (- t)).
Proof.
  intros HT. unfold interaction_probability, position_density, one_minus_exp, density_factor.
  destruct (Rlt_dec T (1 / 1000000)); [lra|]. destruct (Rlt_dec T (1 / 10)); [lra|].
  pose proof (VertexBounds.exp_minus_lt1 T ltac:(lra)).
  set (q := 1 - exp (- T)) in *. assert (0 < q) by (unfold q; lra). set (m := log_one_minus_exp T).
  replace (- m - t) with (- m + - t) by ring. replace (ln q - m) with (ln q + - m) by ring.
  rewrite !exp_plus, exp_ln by auto. ring.
Qed.

Lemma product_tiny mu T t : 0 < T < 1 / 1000000 -> interaction_probability T * position_density mu T t = mu.
Proof.
  intros HT. unfold interaction_probability, position_density.
  destruct (Rlt_dec T (1 / 1000000)); [|lra]. field. lra.
Qed.

End Weight.
