(** Property theorems about event weights (C15, C16, C77). *)
From Coq Require Import Reals List Bool ZArith Permutation Lra Lia.
From Verif Require Import TraversalModel VertexModel VertexSpec VertexBounds VertexProofs WeightModel WeightSpec WeightProofs.
Import ListNotations.
Open Scope R_scope.

Section Weight.
Context {Rec Inter Bounds : Type}.
Variable rtype : Rec -> Z.
Variable dens : nat -> Inter -> Rec -> R.
Variable norm : nat -> option R.
Variable csp : Inter -> Rec -> R.
Variable total_depth traversed : Inter -> Bounds -> Rec -> R.
Variable density : Inter -> Rec -> R.
Variable no_bounds : Bounds.

Notation weight := (event_weight rtype dens norm csp total_depth traversed density no_bounds).
Notation event := (event_densities rtype dens norm csp total_depth traversed density no_bounds).
Notation process := (pprocess Inter).
Notation injector := (injector Rec Inter Bounds).

(** C15: with injectors that have the secondary processes of the weighter, EventWeight is the
    balance heuristic weight of the numbers of events, the generation densities and the physical
    densities, these being the products over the data of the event of the densities of all
    distributions. *)
Theorem C15_weight : forall (primary : process) secondary (injs : list injector) tree l,
  Forall (same_types secondary) injs -> NoDup (map p_type secondary) ->
  Forall2 (fun inj x => let '(N, g, p) := x in
    N = IZR (i_events inj) /\ event primary secondary inj tree g p /\ 0 < p) injs l ->
  (forall N g p, In (N, g, p) l -> 0 <= N * g) -> (exists N g p, In (N, g, p) l /\ 0 < N * g) ->
  weight primary secondary injs tree = Ok (Fin (balance l)).
Proof.
  intros primary secondary injs tree l F N H Hnn (N0 & g0 & p0 & I0 & H0).
  assert (Hp : forall n g p, In (n, g, p) l -> 0 < p).
  { clear -H. induction H as [|inj [[n g] p] injs l Hx H IH]; [intros n g p []|].
    intros n' g' p' [E|I]; [injection E as -> -> ->; tauto|eauto]. }
  assert (E : map (fun x : R * R * R => fst (fst x) * snd (fst x) / snd x) l =
              map (fun x : R * R * R => let '(N, g, p) := x in N * g / p) l).
  { apply map_ext. intros [[n g] p]. auto. }
  assert (S : 0 < sum (map (fun x : R * R * R => let '(N, g, p) := x in N * g / p) l)).
  { clear -Hnn I0 H0 Hp. unfold sum. induction l as [|[[n g] p] l IH]; [destruct I0|]. cbn.
    assert (L : forall l', (forall N g p, In (N, g, p) l' -> 0 <= N * g) -> (forall n g p, In (n, g, p) l' -> 0 < p) ->
      0 <= fold_right Rplus 0 (map (fun x : R * R * R => let '(N, g, p) := x in N * g / p) l')).
    { induction l' as [|[[n' g'] p'] l' IH']; cbn; intros A B; [lra|].
      pose proof (A n' g' p' (or_introl eq_refl)). pose proof (B n' g' p' (or_introl eq_refl)).
      assert (0 <= n' * g' / p') by (apply Rmult_le_pos; [auto|left; now apply Rinv_0_lt_compat]).
      assert (0 <= fold_right Rplus 0 (map (fun x : R * R * R => let '(N, g, p) := x in N * g / p) l')).
      { apply IH'; intros; [eapply A|eapply B]; right; eauto. }
      lra. }
    pose proof (Hnn n g p (or_introl eq_refl)). pose proof (Hp n g p (or_introl eq_refl)).
    assert (0 <= n * g / p) by (apply Rmult_le_pos; [auto|left; now apply Rinv_0_lt_compat]).
    destruct I0 as [E|I].
    - injection E as -> -> ->. assert (0 < N0 * g0 / p0) by (apply Rdiv_lt_0_compat; auto).
      assert (0 <= fold_right Rplus 0 (map (fun x : R * R * R => let '(N, g, p) := x in N * g / p) l)).
      { apply L; intros; [eapply Hnn|eapply Hp]; right; eauto. }
      lra.
    - assert (0 < fold_right Rplus 0 (map (fun x : R * R * R => let '(N, g, p) := x in N * g / p) l)).
      { apply IH; auto; intros; [eapply Hnn|eapply Hp]; right; eauto. }
      lra. }
  unfold balance. rewrite <- E in *. apply (weight_balance rtype dens norm csp total_depth traversed density no_bounds); auto.
  - clear -H. induction H as [|inj [[n g] p] injs l (A & B & C) H IH]; constructor; auto.
    unfold given. cbn. repeat split; auto. lra.
  - lra.
Qed.

(** The order of the injectors does not matter, whatever the densities (zero ones included). *)
Theorem C15_order : forall (primary : process) secondary (injs injs' : list injector) tree,
  Forall (same_types secondary) injs -> Permutation injs injs' ->
  weight primary secondary injs tree = weight primary secondary injs' tree.
Proof. intros. now apply weight_perm. Qed.

(** Splitting an injector into two with the same settings and together as many events leaves
    every weight unchanged. *)
Theorem C15_split : forall (primary : process) secondary a (inj : injector) b n m tree,
  (0 < n)%Z -> (0 < m)%Z -> i_events inj = (n + m)%Z -> Forall (same_types secondary) (a ++ inj :: b) ->
  weight primary secondary (a ++ with_events inj n :: with_events inj m :: b) tree =
  weight primary secondary (a ++ inj :: b) tree.
Proof. intros. now apply weight_split. Qed.

(** For an event with one root, number of events times generation density is what the injector
    itself returns as generation probability; with more roots the number of events enters once
    for each. *)
Theorem C15_generation : forall (primary : process) secondary (inj : injector) tree g p,
  same_types secondary inj -> (0 < i_events inj)%Z -> event primary secondary inj tree g p ->
  injector_generation rtype dens csp inj tree = Some (IZR (i_events inj) ^ roots tree * g) /\
  (roots tree = 1%nat -> injector_generation rtype dens csp inj tree = Some (IZR (i_events inj) * g)).
Proof.
  intros primary secondary inj tree g p Hs HN H.
  rewrite (generation_roots rtype dens norm csp total_depth traversed density no_bounds primary secondary inj tree g p Hs HN H).
  split; auto. intros ->. f_equal. ring.
Qed.

(** An event with a secondary that one of the injectors could not have made has weight zero. *)
Theorem C15_missing : forall (primary : process) secondary (injs : list injector) tree inj r,
  Forall (same_types secondary) injs -> In inj injs -> In (false, r) tree ->
  ~ In (rtype r) (map fst (i_secondary inj)) \/ ~ In (rtype r) (map fst (i_sec_position inj)) ->
  weight primary secondary injs tree = Ok (Fin 0).
Proof. intros primary secondary injs tree inj r F I Ir H. now apply (weight_missing rtype dens norm csp total_depth traversed density no_bounds primary secondary injs tree inj r). Qed.

(** C16: what the process weighters keep are the two lists without what they have in common. *)
Theorem C16_cancel : forall (pp ip : process),
  cancelled (p_dists ip) (p_dists pp) (w_gen (make_weighter norm pp ip)) (w_phys (make_weighter norm pp ip)).
Proof.
  intros pp ip. destruct (make_fields norm pp ip) as (_ & -> & -> & _). apply cancel_cancelled.
Qed.

(** The weight of a process is the ratio of the full densities, if the distributions in
    both lists have the same non-zero density in both processes. *)
Theorem C16_process : forall (pp ip : process) b r,
  0 < total_depth (p_inter pp) b r -> shared_agree dens pp ip r -> full_generation dens csp ip r <> 0 ->
  process_weight dens csp total_depth traversed density (make_weighter norm pp ip) b r =
  Fin (full_physical dens norm csp total_depth traversed density pp b r / full_generation dens csp ip r).
Proof. intros. now apply process_ratio. Qed.

(** Both processes using the same collection of interactions, it is enough that the shared
    densities are not zero. *)
Theorem C16_same_interactions : forall (pp ip : process) r, p_inter pp = p_inter ip ->
  (forall d, In d (p_dists pp) -> In d (p_dists ip) -> dens d (p_inter ip) r <> 0) -> shared_agree dens pp ip r.
Proof. intros pp ip r E H d I1 I2. rewrite E. split; auto. Qed.

(** Sharing distributions between the weighter and the injectors does not change weights: they
    are the same with equal distributions at addresses unknown to the physical processes. *)
Theorem C16_event : forall (primary : process) secondary (injs : list injector) tree l f,
  Forall (same_types secondary) injs -> NoDup (map p_type secondary) ->
  Forall2 (fun inj x => let '(N, g, p) := x in
    N = IZR (i_events inj) /\ event primary secondary inj tree g p /\ 0 < p) injs l ->
  (forall N g p, In (N, g, p) l -> 0 <= N * g) -> (exists N g p, In (N, g, p) l /\ 0 < N * g) ->
  (forall d i q, dens (f d) i q = dens d i q) ->
  (forall d pp, In pp (primary :: secondary) -> ~ In (f d) (p_dists pp)) ->
  weight primary secondary (map (rename f) injs) tree = weight primary secondary injs tree.
Proof.
  intros primary secondary injs tree l f F N H A B Hd Hf.
  rewrite (C15_weight primary secondary injs tree l F N H A B).
  apply C15_weight; auto.
  - clear -F. induction F; constructor; auto. now apply rename_types.
  - clear -H Hd Hf. induction H as [|inj [[n g] p] injs l (X & Y & W) H IH]; constructor; auto.
    repeat split; auto. now apply rename_event.
Qed.

End Weight.
Print Assumptions C15_weight.
Print Assumptions C15_order.
Print Assumptions C15_split.
Print Assumptions C15_generation.
Print Assumptions C15_missing.
Print Assumptions C16_cancel.
Print Assumptions C16_process.
Print Assumptions C16_same_interactions.
Print Assumptions C16_event.

(** ** A weighter with one secondary process and two injectors *)

(** Records are particle types; the distribution at address 0 is shared, 1 is the injector's, 2 the
    physical one. The interactions are a number that distribution 3 returns. *)
Definition ex_dens (d : nat) (i : R) (_ : Z) : R :=
  match d with 0%nat => 7 | 1%nat => 2 | 2%nat => 3 | _ => i end.
Definition ex_norm (d : nat) : option R := match d with 2%nat => Some 10 | _ => None end.
Definition ex_csp (i : R) (r : Z) : R := 1 / 2.
Definition ex_total (i : R) (b : unit) (r : Z) : R := 1.
Definition ex_traversed (i : R) (b : unit) (r : Z) : R := 0.
Definition ex_density (i : R) (r : Z) : R := 1.
Definition ex_primary : pprocess R := mkpp 14%Z 1 [0%nat; 2%nat].
Definition ex_secondary : list (pprocess R) := [mkpp 13%Z 1 [2%nat]].
Definition ex_injector (n : Z) : injector Z R unit :=
  mkinj n (mkpp 14%Z 1 [1%nat; 0%nat]) None [(13%Z, mkpp 13%Z 1 [1%nat])] [(13%Z, fun _ _ => tt)].
Definition ex_tree : list (bool * Z) := [(true, 14%Z); (false, 13%Z)].

Notation ex_event := (event_densities (fun r => r) ex_dens ex_norm ex_csp ex_total ex_traversed ex_density tt).
Notation ex_weight := (event_weight (fun r => r) ex_dens ex_norm ex_csp ex_total ex_traversed ex_density tt).

Lemma ex_types n : same_types ex_secondary (ex_injector n).
Proof.
  unfold same_types. cbn. split; [|split].
  - constructor; [intros []|constructor].
  - constructor; [intros []|constructor].
  - intros t. tauto.
Qed.

Lemma ex_product : interaction_probability 1 * position_density 1 1 0 = 1.
Proof. rewrite product_exact by lra. rewrite Ropp_0, exp_0. ring. Qed.

Lemma ex_densities n : ex_event ex_primary ex_secondary (ex_injector n) ex_tree 7 (105 * 15).
Proof.
  assert (E1 : 7 = full_generation ex_dens ex_csp (i_primary (ex_injector n)) 14%Z *
    (full_generation ex_dens ex_csp (mkpp 13%Z 1 [1%nat]) 13%Z * 1)).
  { unfold full_generation, ex_csp, prod. cbn. field. }
  assert (E2 : 105 * 15 = full_physical ex_dens ex_norm ex_csp ex_total ex_traversed ex_density ex_primary tt 14%Z *
    (full_physical ex_dens ex_norm ex_csp ex_total ex_traversed ex_density (mkpp 13%Z 1 [2%nat]) tt 13%Z * 1)).
  { unfold full_physical, prod, ex_csp, ex_total, ex_traversed, ex_density. cbn [p_inter p_dists ex_primary map fold_right ex_norm ex_dens].
    rewrite ex_product. field. }
  rewrite E1, E2. unfold ex_tree.
  apply (ed_cons _ _ _ _ _ _ _ _ _ _ _ (true, 14%Z) _ ex_primary (i_primary (ex_injector n)) tt).
  - now apply c_primary_free.
  - cbn. unfold ex_total. lra.
  - intros d [<-|[<-|[]]] I2; cbn; split; auto; try lra.
  - apply (ed_cons _ _ _ _ _ _ _ _ _ _ _ (false, 13%Z) _ (mkpp 13%Z 1 [2%nat]) (mkpp 13%Z 1 [1%nat]) tt).
    + apply (c_secondary _ _ _ _ _ 13%Z (mkpp 13%Z 1 [2%nat]) (mkpp 13%Z 1 [1%nat]) (fun _ _ => tt)); cbn; auto.
    + cbn. unfold ex_total. lra.
    + intros d [<-|[]] [E|[]]. discriminate.
    + constructor.
Qed.

Example C15_case : ex_weight ex_primary ex_secondary [ex_injector 100; ex_injector 50] ex_tree =
  Ok (Fin (balance [(100, 7, 105 * 15); (50, 7, 105 * 15)])) /\
  balance [(100, 7, 105 * 15); (50, 7, 105 * 15)] = 3 / 2.
Proof.
  split.
  - apply C15_weight.
    + constructor; [apply ex_types|constructor; [apply ex_types|constructor]].
    + cbn. constructor; [intros []|constructor].
    + constructor; [|constructor; [|constructor]]; (split; [auto|split; [apply ex_densities|lra]]).
    + intros N g p [E|[E|[]]]; injection E as <- <- <-; lra.
    + exists 100, 7, (105 * 15). split; [cbn; auto|lra].
  - unfold balance, sum. cbn. field.
Qed.

Notation ex_physical := (physical_probability ex_dens ex_csp ex_total ex_traversed ex_density).
Notation ex_generation := (generation_probability ex_dens ex_csp).

Lemma ex_phys : ex_physical (make_weighter ex_norm ex_primary (mkpp 14%Z 1 [1%nat; 0%nat])) tt 14%Z = Fin 15.
Proof.
  unfold physical_probability. rewrite position_fin by (unfold ex_total; lra).
  change (w_pp (make_weighter ex_norm ex_primary (mkpp 14%Z 1 [1%nat; 0%nat]))) with ex_primary.
  change (w_phys (make_weighter ex_norm ex_primary (mkpp 14%Z 1 [1%nat; 0%nat]))) with [2%nat].
  change (w_norm (make_weighter ex_norm ex_primary (mkpp 14%Z 1 [1%nat; 0%nat]))) with (1 * 10).
  cbn [fold_left fmul]. unfold ex_total, ex_density, ex_traversed, ex_csp. rewrite (Rmult_1_l (interaction_probability 1)), ex_product.
  cbn [ex_dens]. f_equal. field.
Qed.

Lemma ex_gen : ex_generation (make_weighter ex_norm ex_primary (mkpp 14%Z 1 [1%nat; 0%nat])) 14%Z = Fin 1.
Proof.
  unfold generation_probability.
  change (w_gen (make_weighter ex_norm ex_primary (mkpp 14%Z 1 [1%nat; 0%nat]))) with [1%nat].
  cbn. unfold ex_csp. f_equal. field.
Qed.

(** If an injector lacks a secondary process the initialization stops there, and the weight of
    every event reads beyond the end of a vector, even if the event has no secondary. In another
    order the same injectors give a weight. *)
Theorem C15_incomplete_refuted : exists (inj : injector Z R unit) (tree : list (bool * Z)),
  (forall d, In d tree -> fst d = true) /\
  ex_weight ex_primary ex_secondary [inj; ex_injector 50] tree = UB /\
  ex_weight ex_primary ex_secondary [ex_injector 50; inj] tree = Ok (Fin (1 / 10)).
Proof.
  exists (mkinj 100%Z (mkpp 14%Z 1 [1%nat; 0%nat]) None [] []), [(true, 14%Z)]. split; [|split].
  - intros d [<-|[]]. auto.
  - reflexivity.
  - unfold event_weight.
    cbn -[physical_probability generation_probability make_weighter fmul fdiv fadd ex_primary].
    rewrite ex_phys, ex_gen. cbn [fmul fdiv fadd]. destruct (Req_EM_T (1 * 15) 0); [lra|]. cbn [fadd fdiv].
    destruct (Req_EM_T _ 0); [lra|]. do 2 f_equal. field.
Qed.
Print Assumptions C15_incomplete_refuted.

(** An injector asked for no event counts as one event in its own generation probability and as
    none in the weight, which is then infinite. *)
Theorem C15_no_events_refuted : exists (inj : injector Z R unit) (tree : list (bool * Z)) g,
  injector_generation (fun r => r) ex_dens ex_csp inj tree = Some g /\ 0 < g /\
  ex_weight ex_primary ex_secondary [inj] tree = Ok (Inf false).
Proof.
  exists (ex_injector 0), [(true, 14%Z)], (1 * (1 * 1 * 2 * 7 * (1 / 2))). split; [reflexivity|]. split; [lra|].
  unfold event_weight.
  cbn -[physical_probability generation_probability make_weighter fmul fdiv fadd ex_primary].
  rewrite ex_phys, ex_gen. cbn [fmul fdiv fadd]. destruct (Req_EM_T (1 * 15) 0); [lra|]. cbn [fadd fdiv].
  destruct (Req_EM_T _ 0) as [_|H]; [|exfalso; apply H; field]. destruct (Req_EM_T 1 0); [lra|].
  unfold negb_R. destruct (Rlt_dec 1 0); [lra|auto].
Qed.
Print Assumptions C15_no_events_refuted.

(** With two roots the injector's own generation probability counts the number of events
    twice. *)
Theorem C15_two_roots_refuted : exists (inj : injector Z R unit) (tree : list (bool * Z)) g p,
  ex_event ex_primary ex_secondary inj tree g p /\ (0 < i_events inj)%Z /\
  injector_generation (fun r => r) ex_dens ex_csp inj tree <> Some (IZR (i_events inj) * g).
Proof.
  set (inj := ex_injector 100).
  assert (A : forall t g p, ex_event ex_primary ex_secondary inj t g p ->
    ex_event ex_primary ex_secondary inj ((true, 14%Z) :: t)
      (full_generation ex_dens ex_csp (i_primary inj) 14%Z * g)
      (full_physical ex_dens ex_norm ex_csp ex_total ex_traversed ex_density ex_primary tt 14%Z * p)).
  { intros t g p H.
    apply (ed_cons _ _ _ _ _ _ _ _ _ _ _ (true, 14%Z) _ ex_primary (i_primary inj) tt); auto.
    - now apply c_primary_free.
    - cbn. unfold ex_total. lra.
    - intros d [<-|[<-|[]]] I2; cbn; split; auto; try lra. }
  exists inj, [(true, 14%Z); (true, 14%Z)]. eexists. eexists. split.
  - apply A, A. constructor.
  - split; [reflexivity|].
    replace (injector_generation (fun r => r) ex_dens ex_csp inj [(true, 14%Z); (true, 14%Z)])
      with (Some (1 * (1 * 100 * 2 * 7 * (1 / 2)) * (1 * 100 * 2 * 7 * (1 / 2)))) by reflexivity.
    unfold full_generation, prod, ex_csp. cbn. intros E. injection E as E. lra.
Qed.
Print Assumptions C15_two_roots_refuted.

(** The order and the split apply to the example, which has the hypotheses of C15_weight. *)
Example C15_order_case : ex_weight ex_primary ex_secondary [ex_injector 50; ex_injector 100] ex_tree = Ok (Fin (3 / 2)) /\
  ex_weight ex_primary ex_secondary [ex_injector 70; ex_injector 80] ex_tree = Ok (Fin (3 / 2)).
Proof.
  destruct C15_case as [H E]. rewrite E in H.
  assert (F : forall a b, Forall (same_types ex_secondary) [ex_injector a; ex_injector b])
    by (intros; constructor; [apply ex_types|constructor; [apply ex_types|constructor]]).
  split.
  - rewrite <- H. apply C15_order; [apply F|]. apply perm_swap.
  - rewrite <- H.
    transitivity (ex_weight ex_primary ex_secondary [ex_injector 150] ex_tree).
    + apply (C15_split _ _ _ _ _ _ _ _ _ _ [] (ex_injector 150) [] 70 80); try reflexivity.
      constructor; [apply ex_types|constructor].
    + symmetry. apply (C15_split _ _ _ _ _ _ _ _ _ _ [] (ex_injector 150) [] 100 50); try reflexivity.
      constructor; [apply ex_types|constructor].
Qed.

(** C16: address 0 is cancelled in the example. *)
Example C16_case : w_gen (make_weighter ex_norm ex_primary (i_primary (ex_injector 100))) = [1%nat] /\
  w_phys (make_weighter ex_norm ex_primary (i_primary (ex_injector 100))) = [2%nat] /\
  cancel [5; 3; 5; 4]%nat [5; 4; 6]%nat = ([5; 3]%nat, [6]%nat) /\
  process_weight ex_dens ex_csp ex_total ex_traversed ex_density
    (make_weighter ex_norm ex_primary (i_primary (ex_injector 100))) tt 14%Z = Fin 15.
Proof.
  split; [reflexivity|]. split; [reflexivity|]. split; [reflexivity|].
  rewrite C16_process.
  - f_equal. unfold full_physical, full_generation, ex_total, ex_density, ex_traversed, ex_csp, prod.
    cbn [p_inter p_dists ex_primary map fold_right ex_norm ex_dens i_primary ex_injector]. rewrite ex_product. field.
  - unfold ex_total. lra.
  - intros d [<-|[<-|[]]] I2; cbn; split; auto; try lra.
  - unfold full_generation, prod, ex_csp. cbn. lra.
Qed.

(** The process weighters compare addresses only, and the weighter only the particle types
    (Process.cxx:55-64) of the processes: a shared distribution whose density depends on the
    interactions is cancelled although the factors differ. *)
Theorem C16_interactions_refuted : exists (pp ip : pprocess R) b r,
  p_type pp = p_type ip /\ 0 < ex_total (p_inter pp) b r /\
  (forall d, In d (p_dists pp) -> 0 < ex_dens d (p_inter pp) r) /\
  (forall d, In d (p_dists ip) -> 0 < ex_dens d (p_inter ip) r) /\
  process_weight ex_dens ex_csp ex_total ex_traversed ex_density (make_weighter ex_norm pp ip) b r <>
  Fin (full_physical ex_dens ex_norm ex_csp ex_total ex_traversed ex_density pp b r / full_generation ex_dens ex_csp ip r).
Proof.
  exists (mkpp 14%Z 1 [3%nat]), (mkpp 14%Z 2 [3%nat]), tt, 14%Z.
  split; [auto|]. split; [unfold ex_total; lra|].
  split; [intros d [<-|[]]; cbn; lra|]. split; [intros d [<-|[]]; cbn; lra|].
  unfold process_weight, physical_probability, generation_probability. rewrite position_fin by (unfold ex_total; lra).
  cbn [make_weighter cancel gen_loop phys_loop nth_error length Nat.eqb erase p_dists w_pp w_ip w_phys w_gen w_norm
    normalization fold_left ex_norm fmul].
  unfold full_physical, full_generation, ex_total, ex_density, ex_traversed, ex_csp, prod.
  cbn [p_inter p_dists map fold_right ex_norm ex_dens]. rewrite (Rmult_1_l (interaction_probability 1)), ex_product.
  unfold fdiv. destruct (Req_EM_T (1 / 2) 0); [lra|]. intros E. injection E as E. lra.
Qed.
Print Assumptions C16_interactions_refuted.

(** ** C77: interaction probability and position density *)

(** C77: the two together are the density of an interaction at the vertex with none before it;
    the normalization over the bounds drops out, exactly up to depth 3 and with relative error
    2e-9 beyond; below 1e-6 the absorption on the way is left out. *)
Theorem C77_product : forall mu T t, 0 < T -> 0 <= t <= T ->
  approx (2 / 1000000) (interaction_probability T * position_density mu T t) (mu * exp (- t)) /\
  (1 / 1000000 <= T -> approx (2 / 1000000000) (interaction_probability T * position_density mu T t) (mu * exp (- t))) /\
  (1 / 1000000 <= T <= 3 -> interaction_probability T * position_density mu T t = mu * exp (- t)).
Proof.
  intros mu T t HT Ht.
  assert (B : 1 / 1000000 <= T -> approx (2 / 1000000000) (interaction_probability T * position_density mu T t) (mu * exp (- t))).
  { intros H. unfold approx. destruct (Rle_dec T 3) as [L|L].
    - rewrite product_exact by lra. rewrite Rminus_eq_0, Rabs_R0. apply Rmult_le_pos; [lra|apply Rabs_pos].
    - rewrite product_large by lra.
      replace (density_factor T * (mu * exp (- t)) - mu * exp (- t)) with ((density_factor T - 1) * (mu * exp (- t))) by ring.
      rewrite Rabs_mult. apply Rmult_le_compat_r; [apply Rabs_pos|]. now apply factor_bound. }
  split; [|split; [exact B|apply product_exact]].
  destruct (Rlt_dec T (1 / 1000000)) as [H|H].
  - rewrite product_tiny by lra. unfold approx.
    replace (mu - mu * exp (- t)) with (mu * (1 - exp (- t))) by ring. rewrite !Rabs_mult.
    replace (2 / 1000000 * (Rabs mu * Rabs (exp (- t)))) with (Rabs mu * (2 / 1000000 * Rabs (exp (- t)))) by ring.
    apply Rmult_le_compat_l; [apply Rabs_pos|]. pose proof (exp_minus_high t ltac:(lra)).
    pose proof (exp_pos (- t)). assert (exp (- t) <= 1) by (pose proof (exp_le_3); pose proof (exp_minus_lt1 t); destruct (Req_EM_T t 0) as [->|]; [rewrite Ropp_0, exp_0; lra|lra]).
    rewrite !Rabs_pos_eq by lra. lra.
  - unfold approx in *. specialize (B ltac:(lra)). pose proof (Rabs_pos (mu * exp (- t))). lra.
Qed.
Print Assumptions C77_product.

(** Below 1e-6 it is not exact. *)
Theorem C77_tiny_refuted : exists mu T t, 0 < mu /\ 0 < t < T /\
  interaction_probability T * position_density mu T t <> mu * exp (- t).
Proof.
  exists 1, (1 / 2000000), (1 / 4000000). split; [lra|]. split; [lra|]. rewrite product_tiny by lra.
  pose proof (exp_minus_lt1 (1 / 4000000) ltac:(lra)). lra.
Qed.
Print Assumptions C77_tiny_refuted.

(** Half way through a column of depth two. *)
Example C77_case : interaction_probability 2 * position_density 5 2 1 = 5 * exp (- (1)).
Proof. apply (proj2 (proj2 (C77_product 5 2 1 ltac:(lra) ltac:(lra)))). lra. Qed.
