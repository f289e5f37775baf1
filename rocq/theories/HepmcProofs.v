(** Lemmas about event numbers, process ids and weight sums of HepMC3 export. *)
From Coq Require Import String Ascii DecimalString DecimalZ List Bool ZArith Reals Lia Lra Permutation Sorting.Sorted.
From Verif Require Import OrderModel OrderSpec OrderProofs HepmcModel.
Import ListNotations.
Open Scope Z_scope.

(** ** Event numbers *)
Definition two64 := 18446744073709551616.

Lemma u64_small z : 0 <= z < two64 -> u64 z = z.
Proof. intros. unfold u64. apply Z.mod_small. auto. Qed.

Lemma mem_iff n ex : existsb (Z.eqb n) ex = true <-> In n ex.
Proof.
  rewrite existsb_exists. split; [intros [x [I E]]; apply Z.eqb_eq in E; subst; auto|].
  intros I. exists n. split; auto. apply Z.eqb_refl.
Qed.

(** The numbers 0..n-1. *)
Definition upto (n : nat) : list Z := map Z.of_nat (seq 0 n).
Lemma upto_in n z : In z (upto n) <-> 0 <= z < Z.of_nat n.
Proof.
  unfold upto. rewrite in_map_iff. split.
  - intros [x [E I]]. apply in_seq in I. lia.
  - intros H. exists (Z.to_nat z). split; [lia|]. apply in_seq. lia.
Qed.
Lemma upto_nodup n : NoDup (upto n).
Proof. apply FinFun.Injective_map_NoDup; [intros a b; lia|apply seq_NoDup]. Qed.
Lemma upto_length n : List.length (upto n) = n.
Proof. unfold upto. rewrite map_length, seq_length. auto. Qed.

(** [skip] returns the least number from [n] on that is not taken. *)
Lemma skip_ok ex n bound : 0 <= n ->
  (forall x, 0 <= x < n -> In x bound) -> incl ex bound -> Z.of_nat (List.length bound) < two64 ->
  forall fuel m, n <= m -> (forall x, n <= x < m -> In x ex) -> m <= Z.of_nat (List.length bound) ->
  (Z.to_nat (Z.of_nat (List.length bound) + 1 - m) <= fuel)%nat ->
  exists r, skip fuel ex m = Some r /\ m <= r <= Z.of_nat (List.length bound) /\ ~ In r ex /\ forall x, n <= x < r -> In x ex.
Proof.
  intros N B I L. induction fuel as [|f IH]; intros m NM A MB F; [lia|]. cbn [skip].
  destruct (existsb (Z.eqb m) ex) eqn:E.
  - apply mem_iff in E.
    assert (C : m + 1 <= Z.of_nat (List.length bound)).
    { assert (X : (List.length (upto (Z.to_nat (m + 1))) <= List.length bound)%nat).
      { apply NoDup_incl_length; [apply upto_nodup|]. intros x J. apply upto_in in J.
        destruct (Z.lt_ge_cases x n); [apply B; lia|]. apply I. destruct (Z.eq_dec x m) as [->|]; auto. apply A. lia. }
      rewrite upto_length in X. lia. }
    rewrite u64_small by lia.
    destruct (IH (m + 1)) as [r [R1 [R2 [R3 R4]]]]; try lia.
    { intros x J. destruct (Z.eq_dec x m) as [->|]; auto. apply A. lia. }
    exists r. repeat split; auto; lia.
  - exists m. split; auto. split; [lia|]. split; auto. intros J. apply mem_iff in J. congruence.
Qed.

Lemma kept_length l : (List.length (kept l) <= List.length l)%nat.
Proof. induction l as [|[t|] l IH]; cbn; lia. Qed.

Lemma explicit_in l t : In t (kept l) -> sv_number t <> 0 -> In (sv_number t) (explicit_numbers l).
Proof. intros I N. apply filter_In. split; [apply in_map; auto|]. apply negb_true_iff, Z.eqb_neq. auto. Qed.

(** Numbered by number of fallbacks and explicit entries. *)
Lemma split_length l :
  (List.length (filter (fun t => (sv_number t =? 0)%Z) l) + List.length (filter (fun n => negb (n =? 0)%Z) (map sv_number l)) = List.length l)%nat.
Proof. induction l as [|t l IH]; cbn; auto. destruct (sv_number t =? 0); cbn; lia. Qed.

Lemma Forall2_weaken {A B} (P Q : A -> B -> Prop) l m : (forall a b, P a b -> Q a b) -> Forall2 P l m -> Forall2 Q l m.
Proof. intros H F. induction F; constructor; auto. Qed.

Lemma Forall2_len {A B} (P : A -> B -> Prop) l m : Forall2 P l m -> List.length l = List.length m.
Proof. intros F. induction F; cbn; auto. Qed.

(** The invariant along the list: [k] bounds the number of fallbacks. *)
Lemma number_ok ex : forall fuel l next done k, 0 <= next ->
  Z.of_nat (List.length ex) + Z.of_nat k < two64 ->
  (forall x, 0 <= x < next -> In x (done ++ ex)) -> (forall x, In x done -> x < next) ->
  (List.length done + List.length (filter (fun t => (sv_number t =? 0)%Z) l) <= k)%nat ->
  (S (k + List.length ex) <= fuel)%nat ->
  exists ns, number_events fuel ex next l = Some ns /\
    Forall2 (fun t n => (sv_number t <> 0 -> n = sv_number t) /\ (sv_number t = 0 -> next <= n < two64 /\ ~ In n ex)) l ns /\
    forall i j ti tj ni nj, i <> j -> nth_error l i = Some ti -> nth_error l j = Some tj ->
      nth_error ns i = Some ni -> nth_error ns j = Some nj -> sv_number ti = 0 -> sv_number tj = 0 -> ni <> nj.
Proof.
  intros fuel l. induction l as [|t l IH]; intros next done k N0 BD C D LE F; cbn [number_events].
  - exists []. split; auto. split; [constructor|]. intros [|i]; discriminate.
  - cbn [filter] in LE. destruct (Z.eqb_spec (sv_number t) 0) as [Z0|Z0]; cbn [negb].
    + cbn [List.length] in LE.
      assert (NB : next <= Z.of_nat (List.length (done ++ ex))).
      { assert (X : (List.length (upto (Z.to_nat next)) <= List.length (done ++ ex))%nat).
        { apply NoDup_incl_length; [apply upto_nodup|]. intros x J. apply upto_in in J. apply C. lia. }
        rewrite upto_length in X. lia. }
      rewrite app_length in NB.
      destruct (skip_ok ex next (done ++ ex) N0 C) with (fuel := fuel) (m := next) as [r [R1 [R2 [R3 R4]]]];
        try (rewrite ?app_length; lia); [apply incl_appr, incl_refl|]. rewrite app_length in R2.
      rewrite R1. rewrite (u64_small (r + 1)) by lia.
      destruct (IH (r + 1) (done ++ [r]) k) as [ns [E [FA U]]]; try lia.
      { intros x J. destruct (Z.eq_dec x r) as [->|]; [apply in_app_iff; left; apply in_app_iff; right; left; auto|].
        destruct (Z.lt_ge_cases x next) as [K|K].
        - assert (I : In x (done ++ ex)) by (apply C; lia). apply in_app_iff in I. apply in_app_iff. destruct I; auto.
          left. apply in_app_iff. auto.
        - apply in_app_iff. right. apply R4. lia. }
      { intros x J. apply in_app_iff in J. destruct J as [J|[J|[]]]; [apply D in J|]; lia. }
      { rewrite app_length. cbn. lia. }
      rewrite E. exists (r :: ns). split; auto. split.
      { constructor; [split; [congruence|]; intros _; split; auto; lia|].
        eapply Forall2_weaken; [|exact FA]. cbn. intros a b [A1 A2]. split; auto. intros. split; [|apply A2; auto]. apply A2 in H. lia. }
      assert (LB : forall j tj nj, nth_error l j = Some tj -> nth_error ns j = Some nj -> sv_number tj = 0 -> r + 1 <= nj).
      { clear -FA. induction FA as [|a b l ns [_ H] FA IH]; intros [|j] tj nj X Y V; try discriminate.
        - cbn in X, Y. injection X as <-. injection Y as <-. apply H in V. lia.
        - apply (IH j tj nj); auto. }
      intros [|i] [|j] ti tj ni nj NE A1 A2 A3 A4 A5 A6; cbn in A1, A2, A3, A4.
      * congruence.
      * injection A1 as <-. injection A3 as <-. specialize (LB _ _ _ A2 A4 A6). lia.
      * injection A2 as <-. injection A4 as <-. specialize (LB _ _ _ A1 A3 A5). lia.
      * apply (U i j ti tj); auto.
    + destruct (IH next done k) as [ns [E [FA U]]]; auto; try lia.
      rewrite E. exists (sv_number t :: ns). split; auto. split; [constructor; auto; split; [auto|congruence]|].
      intros [|i] [|j] ti tj ni nj NE A1 A2 A3 A4 A5 A6; cbn in A1, A2, A3, A4; try congruence.
      apply (U i j ti tj); auto.
Qed.

Theorem numbers_unique l : Z.of_nat (List.length l) < two64 ->
  exists ns, event_numbers l = Some ns /\ List.length ns = List.length (kept l) /\
  (forall i t n, nth_error (kept l) i = Some t -> nth_error ns i = Some n -> sv_number t <> 0 -> n = sv_number t) /\
  (forall i t n, nth_error (kept l) i = Some t -> nth_error ns i = Some n -> sv_number t = 0 -> 0 <= n < two64) /\
  (forall i j t n m, i <> j -> nth_error (kept l) i = Some t -> sv_number t = 0 ->
     nth_error ns i = Some n -> nth_error ns j = Some m -> n <> m).
Proof.
  intros L. unfold event_numbers. pose proof (kept_length l) as KL. pose proof (split_length (kept l)) as SL.
  fold (explicit_numbers l) in SL.
  set (k := List.length (filter (fun t => (sv_number t =? 0)%Z) (kept l))) in *.
  destruct (number_ok (explicit_numbers l) (S (List.length l)) (kept l) 0 [] k) as [ns [E [FA U]]];
    try lia; try (cbn; lia); try (intros x []; fail).
  exists ns. rewrite E. split; auto.
  assert (P : forall i t n, nth_error (kept l) i = Some t -> nth_error ns i = Some n ->
    (sv_number t <> 0 -> n = sv_number t) /\ (sv_number t = 0 -> 0 <= n < two64 /\ ~ In n (explicit_numbers l))).
  { clear -FA. intros i. generalize dependent ns. generalize (kept l) as ts. induction i as [|i IH]; intros ts ns FA t n A B;
      destruct FA; try discriminate; cbn in A, B; [injection A as <-; injection B as <-; auto|]. eapply IH; eauto. }
  split; [symmetry; eapply Forall2_len; eauto|].
  split; [intros i t n A B; apply (P i t n A B)|]. split; [intros i t n A B C; apply (P i t n A B); auto|].
  intros i j t n m NE A Z0 B C EQ. subst m.
  assert (J : exists t', nth_error (kept l) j = Some t').
  { destruct (nth_error (kept l) j) eqn:X; eauto. apply nth_error_None in X. rewrite (Forall2_len _ _ _ FA) in X.
    apply nth_error_None in X. congruence. }
  destruct J as [t' J]. destruct (Z.eq_dec (sv_number t') 0) as [Z1|Z1].
  - exact (U i j t t' n n NE A J B C Z0 Z1 eq_refl).
  - destruct (P j t' n J C) as [P1 _]. destruct (P i t n A B) as [_ P2]. apply P2 in Z0.
    apply Z0. rewrite P1 by auto. apply explicit_in; auto. eapply nth_error_In; eauto.
Qed.

Theorem number_round_trip n : 0 <= n < two64 -> read_number (write_number n) = n.
Proof.
  intros H. unfold read_number, write_number. cbn [fst snd]. destruct (Z.ltb_spec 2147483647 n); auto.
  unfold to_int. rewrite Z.mod_small by lia. unfold u64. replace (n + 2147483648 - 2147483648) with n by lia.
  apply Z.mod_small. auto.
Qed.

(** ** Keys *)
Definition delimiter (c : ascii) : bool := (Ascii.eqb c "|" || Ascii.eqb c ">" || Ascii.eqb c ",")%char.
Fixpoint plain (s : string) : bool :=
  match s with EmptyString => true | String c r => negb (delimiter c) && plain r end.

Lemma plain_uint d : plain (NilEmpty.string_of_uint d) = true.
Proof. induction d; cbn; auto. Qed.

Lemma plain_to_string z : plain (to_string z) = true.
Proof. unfold to_string. destruct (Z.to_int z); cbn; apply plain_uint. Qed.

Lemma to_string_inj a b : to_string a = to_string b -> a = b.
Proof.
  unfold to_string. intros H. assert (NilEmpty.int_of_string (NilEmpty.string_of_int (Z.to_int a)) = NilEmpty.int_of_string (NilEmpty.string_of_int (Z.to_int b))) by congruence.
  rewrite !NilEmpty.isi in H0. injection H0 as E. rewrite <- (DecimalZ.of_to a), <- (DecimalZ.of_to b). congruence.
Qed.

Lemma split_at a b c x y : plain a = true -> plain b = true -> delimiter c = true ->
  (a ++ String c x = b ++ String c y)%string -> a = b /\ x = y.
Proof.
  revert b. induction a as [|ca a IH]; intros [|cb b] PA PB D E; cbn in *.
  - injection E as ->. auto.
  - injection E as -> E. rewrite D in PB. discriminate.
  - injection E as -> E. rewrite D in PA. discriminate.
  - injection E as -> E. apply andb_prop in PA, PB. destruct (IH b) as [-> ->]; tauto.
Qed.

Lemma key_secondaries_inj l : forall m, key_secondaries l = key_secondaries m -> l = m.
Proof.
  induction l as [|a l IH]; intros [|b m] E; auto.
  - exfalso. cbn [key_secondaries] in E. destruct (to_string b); discriminate.
  - exfalso. cbn [key_secondaries] in E. destruct (to_string a); discriminate.
  - cbn [key_secondaries] in E. cbn [append] in E. apply split_at in E; auto using plain_to_string.
    destruct E as [E1 E2]. apply to_string_inj in E1. apply IH in E2. subst. auto.
Qed.

Theorem key_inj s t : process_key s = process_key t <-> s = t.
Proof.
  split; [|congruence]. destruct s as [p q l], t as [p' q' l']. unfold process_key. cbn [primary_type target_type secondary_types].
  cbn [append]. intros E. apply split_at in E; auto using plain_to_string. destruct E as [E1 E2].
  apply split_at in E2; auto using plain_to_string. destruct E2 as [E2 E3].
  apply to_string_inj in E1, E2. apply key_secondaries_inj in E3. subst. auto.
Qed.

(** ** Collecting and sorting *)
Definition roots (l : list (option saved)) : list signature := map sv_signature (kept l).

Lemma find_str_app {A} (m m' : list (string * A)) k :
  find_str (m ++ m') k = match find_str m k with Some a => Some a | None => find_str m' k end.
Proof. induction m as [|[j a] m IH]; cbn; auto. destruct (String.eqb j k); auto. Qed.

Lemma find_str_none {A} (m : list (string * A)) k : find_str m k = None <-> ~ In k (map fst m).
Proof.
  induction m as [|[j a] m IH]; cbn; [tauto|]. destruct (String.eqb_spec j k); subst; [split; [discriminate|intros H; exfalso; apply H; auto]|].
  rewrite IH. tauto.
Qed.

Lemma collect_gen ts : forall m, (forall k s, In (k, s) m -> k = process_key s) -> NoDup (map snd m) ->
  let m' := fold_left (fun m t => let k := process_key (sv_signature t) in
               match find_str m k with Some _ => m | None => m ++ [(k, sv_signature t)] end) ts m in
  NoDup (map snd m') /\ forall s, In s (map snd m') <-> In s (map snd m) \/ In s (map sv_signature ts).
Proof.
  induction ts as [|t ts IH]; intros m K ND; cbn [fold_left map In]; [cbn; split; auto; tauto|].
  cbv zeta in IH |- *.
  destruct (find_str m (process_key (sv_signature t))) as [s0|] eqn:F.
  - destruct (IH m K ND) as [A B]. split; auto. intros s. rewrite B. cbn.
    assert (In (sv_signature t) (map snd m)).
    { assert (N : ~ find_str m (process_key (sv_signature t)) = None) by congruence. rewrite find_str_none in N.
      assert (I : In (process_key (sv_signature t)) (map fst m)) by (destruct (in_dec string_dec (process_key (sv_signature t)) (map fst m)); tauto).
      apply in_map_iff in I. destruct I as [[k s'] [E I]]. cbn in E. subst k. apply K in I as E. apply key_inj in E. subst s'.
      apply in_map_iff. exists (process_key (sv_signature t), sv_signature t). auto. }
    split; [tauto|]. intros [H1|[<-|H1]]; auto.
  - destruct (IH (m ++ [(process_key (sv_signature t), sv_signature t)])) as [A B].
    + intros k s I. apply in_app_iff in I. destruct I as [I|[I|[]]]; auto. injection I as <- <-. auto.
    + rewrite map_app. cbn. apply find_str_none in F.
      assert (NI : ~ In (sv_signature t) (map snd m)).
      { intros I. apply F. apply in_map_iff in I. destruct I as [[k s] [E I]]. cbn in E. subst s. apply K in I as E. subst k.
        apply in_map_iff. exists (process_key (sv_signature t), sv_signature t). auto. }
      clear -ND NI. induction (map snd m) as [|x r IH]; cbn; [constructor; auto; constructor|].
      inversion ND; subst. constructor; [|apply IH; auto; intros I; apply NI; right; auto].
      rewrite in_app_iff. intros [I|[I|[]]]; auto. subst. apply NI. left. auto.
    + split; auto. intros s. rewrite B, map_app, in_app_iff. cbn. tauto.
Qed.

Lemma collect_ok l : NoDup (map snd (collect l)) /\ forall s, In s (map snd (collect l)) <-> In s (roots l).
Proof.
  destruct (collect_gen (kept l) []) as [A B]; [intros k s []|constructor|]. cbv zeta in A, B. split; auto.
  intros s. rewrite B. cbn. tauto.
Qed.

Definition slt (a b : signature) : Prop := lt_ signature_cmp a b = true.

Lemma insert_in s l x : In x (insert_signature s l) <-> x = s \/ In x l.
Proof.
  induction l as [|t l IH]; cbn [insert_signature]; [cbn; intuition|]. destruct (lt_ signature_cmp t s); cbn; rewrite ?IH; intuition.
Qed.

Lemma insert_sorted s l : ~ In s l -> StronglySorted slt l -> StronglySorted slt (insert_signature s l).
Proof.
  intros NI SS. induction SS as [|t l SS IH F]; cbn [insert_signature]; [repeat constructor|].
  destruct (lt_ signature_cmp t s) eqn:E.
  - constructor; [apply IH; intros I; apply NI; right; auto|]. apply Forall_forall. intros x I. apply insert_in in I.
    rewrite Forall_forall in F. destruct I as [->|I]; [exact E|apply F; auto].
  - assert (ST : slt s t).
    { unfold slt. destruct (lt_ signature_cmp s t) eqn:E2; auto. exfalso. apply NI. left.
      apply signature_eq_iff. apply (ord_eq _ signature_ordered). auto. }
    constructor; [constructor; auto|]. constructor; auto. rewrite Forall_forall in F |- *. intros x I.
    apply (ord_trans _ signature_ordered) with t; auto. apply F. auto.
Qed.

Lemma sort_ok l : NoDup l -> StronglySorted slt (sort_signatures l) /\ forall s, In s (sort_signatures l) <-> In s l.
Proof.
  induction l as [|s l IH]; intros ND; cbn [sort_signatures fold_right]; [split; [constructor|tauto]|].
  inversion ND; subst. destruct (IH H2) as [A B]. fold (sort_signatures l). split.
  - apply insert_sorted; auto. rewrite B. auto.
  - intros x. rewrite insert_in, B. cbn. intuition.
Qed.

Lemma sorted_unique l : forall m, StronglySorted slt l -> StronglySorted slt m -> (forall s, In s l <-> In s m) -> l = m.
Proof.
  assert (IR : forall x, ~ slt x x) by (intros x H; unfold slt in H; rewrite (ord_irrefl _ signature_ordered) in H; discriminate).
  assert (TR : forall x y z, slt x y -> slt y z -> slt x z) by exact (ord_trans _ signature_ordered).
  induction l as [|a l IH]; intros [|b m] S1 S2 E; auto.
  - exfalso. apply (E b). left. auto.
  - exfalso. apply (E a). left. auto.
  - inversion S1 as [|? ? SS1 F1]; inversion S2 as [|? ? SS2 F2]; subst. rewrite Forall_forall in F1, F2.
    assert (a = b).
    { destruct (proj1 (E a) (or_introl eq_refl)) as [->|I]; auto. destruct (proj2 (E b) (or_introl eq_refl)) as [->|J]; auto.
      exfalso. apply (IR a). apply TR with b; auto. }
    subst b. f_equal. apply IH; auto. intros s. split; intros I.
    + destruct (proj1 (E s) (or_intror I)) as [->|]; auto. exfalso. apply (IR s). auto.
    + destruct (proj2 (E s) (or_intror I)) as [->|]; auto. exfalso. apply (IR s). auto.
Qed.

Definition ordered_roots (l : list (option saved)) : list signature := sort_signatures (map snd (collect l)).

Lemma ordered_roots_ok l : StronglySorted slt (ordered_roots l) /\ forall s, In s (ordered_roots l) <-> In s (roots l).
Proof.
  destruct (collect_ok l) as [A B]. destruct (sort_ok _ A) as [C D]. split; auto. intros s. unfold ordered_roots. rewrite D. auto.
Qed.

Theorem order_independent pre l l' : (forall s, In s (roots l) <-> In s (roots l')) ->
  register_processes pre l = register_processes pre l'.
Proof.
  intros E. unfold register_processes. fold (ordered_roots l). fold (ordered_roots l'). f_equal.
  destruct (ordered_roots_ok l) as [A B], (ordered_roots_ok l') as [C D]. apply sorted_unique; auto.
  intros s. rewrite B, D. auto.
Qed.

(** ** Assignment *)

Lemma assign_keeps l : forall g next k i, find_str (pr_ids g) k = Some i -> find_str (pr_ids (assign_ids g next l)) k = Some i.
Proof.
  induction l as [|s l IH]; intros g next k i H; cbn [assign_ids]; auto. destruct (find_str (pr_ids g) (process_key s)); auto.
  apply IH. cbn. rewrite find_str_app, H. auto.
Qed.

Lemma assign_bound l : forall g next k i, find_str (pr_ids (assign_ids g next l)) k = Some i ->
  find_str (pr_ids g) k = Some i \/ (find_str (pr_ids g) k = None /\ next <= i < next + Z.of_nat (List.length l) /\ exists s, In s l /\ k = process_key s).
Proof.
  induction l as [|s l IH]; intros g next k i H; cbn [assign_ids] in H; auto. cbn [List.length].
  destruct (find_str (pr_ids g) (process_key s)) eqn:F.
  - apply IH in H. destruct H as [H|[H1 [H2 [x [H3 H4]]]]]; auto. right. split; auto. split; [lia|]. exists x. split; auto. right. auto.
  - apply IH in H. cbn [pr_ids] in H. rewrite find_str_app in H. cbn [find_str] in H.
    destruct (find_str (pr_ids g) k) eqn:G; [destruct H as [H|[H _]]; [auto|discriminate]|].
    right. split; auto. destruct (String.eqb_spec (process_key s) k) as [<-|N].
    + destruct H as [H|[H _]]; [injection H as <-|discriminate]. split; [lia|]. exists s. split; auto. left. auto.
    + destruct H as [H|[_ [H2 [x [H3 H4]]]]]; [discriminate|]. split; [lia|]. exists x. split; auto. right. auto.
Qed.

Lemma assign_defined l : forall g next s, In s l -> exists i, find_str (pr_ids (assign_ids g next l)) (process_key s) = Some i.
Proof.
  induction l as [|t l IH]; intros g next s I; [destruct I|]. cbn [assign_ids].
  destruct I as [->|I].
  - destruct (find_str (pr_ids g) (process_key s)) eqn:F.
    + exists z. apply assign_keeps. auto.
    + exists next. apply assign_keeps. cbn. rewrite find_str_app, F. cbn. rewrite String.eqb_refl. auto.
  - destruct (find_str (pr_ids g) (process_key t)); apply IH; auto.
Qed.

Lemma assign_fresh_inj l : forall g next k1 k2 i, find_str (pr_ids g) k1 = None -> find_str (pr_ids g) k2 = None ->
  find_str (pr_ids (assign_ids g next l)) k1 = Some i -> find_str (pr_ids (assign_ids g next l)) k2 = Some i -> k1 = k2.
Proof.
  induction l as [|s l IH]; intros g next k1 k2 i N1 N2 H1 H2; cbn [assign_ids] in H1, H2; [congruence|].
  destruct (find_str (pr_ids g) (process_key s)) eqn:F; [eapply IH; eauto|].
  set (g' := mkregistry (pr_ids g ++ [(process_key s, next)]) ((next, process_name s) :: pr_names g)) in *.
  assert (G : forall k, find_str (pr_ids g) k = None -> find_str (pr_ids g') k = if String.eqb (process_key s) k then Some next else None).
  { intros k N. cbn. rewrite find_str_app, N. reflexivity. }
  assert (B : forall k i, find_str (pr_ids g') k = None -> find_str (pr_ids (assign_ids g' (next + 1) l)) k = Some i -> next + 1 <= i).
  { intros k j N H. apply assign_bound in H. destruct H as [H|[_ [H _]]]; [congruence|lia]. }
  pose proof (G _ N1) as G1. pose proof (G _ N2) as G2.
  destruct (String.eqb_spec (process_key s) k1) as [<-|Q1]; destruct (String.eqb_spec (process_key s) k2) as [<-|Q2]; auto.
  - apply assign_keeps with (l := l) (next := next + 1) in G1. assert (i = next) by congruence. apply B in H2; auto. lia.
  - apply assign_keeps with (l := l) (next := next + 1) in G2. assert (i = next) by congruence. apply B in H1; auto. lia.
  - eapply IH; eauto.
Qed.

(** Ids given by the user that leave the band of fresh ids alone. *)
Definition usable (pre : registry) (n : nat) : Prop :=
  (forall k i, find_str (pr_ids pre) k = Some i -> i < 700 \/ 700 + Z.of_nat n <= i) /\
  (forall k1 k2 i, find_str (pr_ids pre) k1 = Some i -> find_str (pr_ids pre) k2 = Some i -> k1 = k2).

Theorem ids_identify pre l : usable pre (List.length (ordered_roots l)) ->
  forall s t, In s (roots l) -> In t (roots l) ->
  exists i j, process_id (register_processes pre l) s = Some i /\ process_id (register_processes pre l) t = Some j /\
    (i = j <-> s = t).
Proof.
  intros [U1 U2] s t I J. destruct (ordered_roots_ok l) as [SS E]. apply E in I, J.
  destruct (assign_defined _ pre 700 s I) as [i HI]. destruct (assign_defined _ pre 700 t J) as [j HJ].
  exists i, j. unfold process_id, register_processes. fold (ordered_roots l). split; auto. split; auto.
  split; [|intros ->; congruence]. intros <-. apply key_inj.
  destruct (assign_bound _ _ _ _ _ HI) as [A|[A [B _]]]; destruct (assign_bound _ _ _ _ _ HJ) as [C|[C [D _]]].
  - eapply U2; eauto.
  - apply U1 in A. lia.
  - apply U1 in C. lia.
  - eapply assign_fresh_inj; eauto.
Qed.

Lemma assign_names l : forall g next, let g' := assign_ids g next l in
  (forall k, k < next \/ next + Z.of_nat (List.length l) <= k -> find_int (pr_names g') k = find_int (pr_names g) k) /\
  (forall s, In s l -> find_str (pr_ids g) (process_key s) = None -> exists i, find_str (pr_ids g') (process_key s) = Some i /\ find_int (pr_names g') i = Some (process_name s)).
Proof.
  induction l as [|t l IH]; intros g next; cbn [assign_ids]; cbv zeta; [split; auto; intros s []|]. cbn [List.length].
  destruct (find_str (pr_ids g) (process_key t)) eqn:F.
  - destruct (IH g next) as [A B]. cbv zeta in A, B. split; [intros; apply A; lia|]. intros s [->|I] N; [congruence|]. apply B; auto.
  - set (g' := mkregistry (pr_ids g ++ [(process_key t, next)]) ((next, process_name t) :: pr_names g)).
    destruct (IH g' (next + 1)) as [A B]. cbv zeta in A, B. split.
    + intros k H. rewrite A by lia. cbn. destruct (Z.eqb_spec next k); [lia|auto].
    + intros s I N. destruct (string_dec (process_key t) (process_key s)) as [Q|Q].
      * exists next. split; [apply assign_keeps; cbn; rewrite find_str_app, N; cbn; rewrite Q, String.eqb_refl; auto|].
        rewrite A by lia. cbn. rewrite Z.eqb_refl. apply key_inj in Q. subst. auto.
      * destruct I as [->|I]; [congruence|]. apply B; auto. cbn. rewrite find_str_app, N. cbn.
        destruct (String.eqb_spec (process_key t) (process_key s)); congruence.
Qed.

Theorem names_match pre l s : In s (roots l) -> process_id pre s = None ->
  exists i, process_id (register_processes pre l) s = Some i /\ 700 <= i < 700 + Z.of_nat (List.length (ordered_roots l)) /\
    find_int (pr_names (register_processes pre l)) i = Some (process_name s).
Proof.
  intros I N. destruct (ordered_roots_ok l) as [_ E]. apply E in I.
  destruct (assign_names (ordered_roots l) pre 700) as [_ B]. cbv zeta in B. destruct (B s I N) as [i [P Q]].
  exists i. split; auto. split; auto. apply assign_bound in P. unfold process_id in N. destruct P as [P|[_ [P _]]]; [congruence|auto].
Qed.

(** ** Weight sums *)
Open Scope R_scope.

Definition weight_of (t : saved) : R := match sv_weights t with [] => 1 | w :: _ => w end.
Fixpoint sumR (l : list R) : R := match l with [] => 0 | x :: r => x + sumR r end.
Definition from (k : Z) (l : list saved) : list saved := filter (fun t => (primary_type (sv_signature t) =? k)%Z) l.

Theorem sums_ok s l : let s' := sum_events s l in
  total_weight s' = total_weight s + sumR (map weight_of (kept l)) /\
  accepted s' = (accepted s + Z.of_nat (List.length (kept l)))%Z /\
  forall k, weight_by s' k = weight_by s k + sumR (map weight_of (from k (kept l))) /\
            accepted_by s' k = (accepted_by s k + Z.of_nat (List.length (from k (kept l))))%Z.
Proof.
  unfold sum_events. generalize (kept l). clear l. intros l. revert s. induction l as [|t l IH]; intros s; cbv zeta; cbn [fold_left].
  - cbn. split; [lra|]. split; [lia|]. intros k. split; [lra|lia].
  - destruct (IH (add_event s t)) as [A [B C]]. rewrite A, B. cbn [map sumR List.length].
    unfold add_event at 1 2. cbn [total_weight accepted]. fold (weight_of t).
    split; [lra|]. split; [lia|]. intros k. destruct (C k) as [D E]. rewrite D, E.
    unfold add_event. cbn [weight_by accepted_by from filter]. rewrite (Z.eqb_sym k). fold (weight_of t).
    destruct (primary_type (sv_signature t) =? k)%Z; cbn [map sumR List.length]; fold (from k l); split; try lra; lia.
Qed.
