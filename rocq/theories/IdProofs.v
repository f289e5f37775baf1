(** Proofs about particle id generation. *)
From Coq Require Import List Bool ZArith Lia.
From Verif Require Import IdModel.
Import ListNotations.
Open Scope Z_scope.

(** Positions that hold the lock. *)
Definition crit (p : pc) : bool :=
  match p with L2 | L3 | L4 | L5 | L6 | K2 | K3 | K4 => true | _ => false end.

(** Positions possible before the process id has been recorded and the counters reset. *)
Definition early (p : pc) : bool := match p with Idle | L1 | L2 | L3 => true | _ => false end.
Definition mid (p : pc) : bool := match p with Idle | L1 | M0 | K1 => true | _ => false end.

Record inv (pid : Z) (s : idstate) : Prop := {
  i_lock : forall t, crit (threads s t) = true <-> lock s = Some t;
  i_pid : last_pid s = 0 \/ last_pid s = pid;
  i_early : last_pid s = 0 -> (forall t, early (threads s t) = true) /\ issued s = [] /\ major s = 0;
  i_l3 : forall t, threads s t = L3 -> last_pid s = 0;
  i_mid : forall t, threads s t = L4 \/ threads s t = L5 ->
     (forall u, u <> t -> mid (threads s u) = true) /\ issued s = [] /\ major s = 0;
  i_minor : minor s = wrap32 (Z.of_nat (length (issued s)));
  i_ids : forall k id, nth_error (rev (issued s)) k = Some id -> snd id = wrap32 (Z.of_nat k)
}.

Lemma wrap32_0 : wrap32 0 = 0.
Proof. reflexivity. Qed.

Lemma wrap32_succ z : wrap32 (wrap32 z + 1) = wrap32 (z + 1).
Proof.
  unfold wrap32. replace ((z + 2147483648) mod 4294967296 - 2147483648 + 1 + 2147483648)
    with ((z + 2147483648) mod 4294967296 + 1) by lia.
  rewrite Zplus_mod_idemp_l. f_equal. f_equal. lia.
Qed.

Lemma wrap32_inj a b : 0 <= a < 4294967296 -> 0 <= b < 4294967296 -> wrap32 a = wrap32 b -> a = b.
Proof.
  unfold wrap32. intros Ha Hb E.
  pose proof (Z.div_mod (a + 2147483648) 4294967296 ltac:(lia)).
  pose proof (Z.div_mod (b + 2147483648) 4294967296 ltac:(lia)).
  pose proof (Z.mod_pos_bound (a + 2147483648) 4294967296 ltac:(lia)).
  assert ((a + 2147483648) / 4294967296 = (b + 2147483648) / 4294967296 \/
          (a + 2147483648) / 4294967296 <> (b + 2147483648) / 4294967296) as [|] by lia; try lia.
Qed.

Lemma inv_fresh pid : inv pid fresh.
Proof.
  split; cbn; auto; try (intros; discriminate).
  - intros t. split; discriminate.
  - intros [|k] id; discriminate.
Qed.

Lemma set_pc_same s t p : set_pc s t p t = p.
Proof. unfold set_pc. rewrite Nat.eqb_refl. auto. Qed.
Lemma set_pc_other s t p u : u <> t -> set_pc s t p u = threads s u.
Proof. intros. unfold set_pc. rewrite (proj2 (Nat.eqb_neq u t)); auto. Qed.

(** Moving thread [t] from [p] to [p'] with new globals. *)
Lemma inv_move pid s t p' lp mj mn lk iss :
  inv pid s ->
  (lk = if crit p' then Some t else if crit (threads s t) then None else lock s) ->
  (crit p' = true -> crit (threads s t) = true \/ lock s = None) ->
  (lp = 0 \/ lp = pid) ->
  (lp = 0 -> (forall u, u <> t -> early (threads s u) = true) /\ early p' = true /\ iss = [] /\ mj = 0) ->
  ((p' = L3 \/ exists u, u <> t /\ threads s u = L3) -> lp = 0) ->
  (p' = L4 \/ p' = L5 -> (forall u, u <> t -> mid (threads s u) = true) /\ iss = [] /\ mj = 0) ->
  (forall u, u <> t -> threads s u = L4 \/ threads s u = L5 -> mid p' = true /\ iss = [] /\ mj = 0) ->
  mn = wrap32 (Z.of_nat (length iss)) ->
  (forall k id, nth_error (rev iss) k = Some id -> snd id = wrap32 (Z.of_nat k)) ->
  inv pid (mkidstate lp mj mn lk (set_pc s t p') iss).
Proof.
  intros I HL HC HP HE H3 H4 H5 HM HI. split; cbn; auto.
  - intros u. destruct (Nat.eq_dec u t) as [->|N].
    + rewrite set_pc_same. subst lk. destruct (crit p') eqn:E; [tauto|]. split; [discriminate|].
      destruct (crit (threads s t)) eqn:E2; [discriminate|]. intros L. apply (i_lock _ _ I) in L. congruence.
    + rewrite set_pc_other by auto. rewrite (i_lock _ _ I u). subst lk. destruct (crit p') eqn:E.
      * split; [|intros X; inversion X; congruence]. intros L. destruct (HC eq_refl) as [K|K]; [|congruence].
        apply (i_lock _ _ I) in K. congruence.
      * destruct (crit (threads s t)) eqn:E2; [|tauto]. apply (i_lock _ _ I) in E2. rewrite E2.
        split; [|discriminate]. intros X; inversion X; congruence.
  - intros L. destruct (HE L) as [A [B [C D]]]. split; auto. intros u. destruct (Nat.eq_dec u t) as [->|N].
    + rewrite set_pc_same. auto.
    + rewrite set_pc_other; auto.
  - intros u Hu. apply H3. destruct (Nat.eq_dec u t) as [->|N].
    + rewrite set_pc_same in Hu. auto.
    + rewrite set_pc_other in Hu by auto. eauto.
  - intros u Hu. destruct (Nat.eq_dec u t) as [->|N].
    + rewrite set_pc_same in Hu. destruct (H4 Hu) as [A [B C]]. split; auto. intros v Nv. rewrite set_pc_other; auto.
    + rewrite set_pc_other in Hu by auto. destruct (H5 u N Hu) as [A [B C]]. split; auto.
      intros v Nv. destruct (Nat.eq_dec v t) as [->|Nv'].
      * rewrite set_pc_same. auto.
      * rewrite set_pc_other by auto. apply (i_mid _ _ I u Hu). auto.
Qed.

(** Another thread in the critical section excludes [t]. *)
Lemma crit_excl pid s t u : inv pid s -> u <> t -> crit (threads s u) = true -> crit (threads s t) = true -> False.
Proof. intros I N A B. apply (i_lock _ _ I) in A. apply (i_lock _ _ I) in B. congruence. Qed.

Lemma inv_step pid s t h s' : pid <> 0 -> inv pid s -> step pid s t h = Some s' -> inv pid s'.
Proof.
  intros NP I H. unfold step, go in H.
  pose proof (i_early _ _ I) as IE. pose proof (i_pid _ _ I) as IP. pose proof (i_mid _ _ I) as IM.
  pose proof (i_l3 _ _ I) as I3. pose proof (i_minor _ _ I) as IN. pose proof (i_ids _ _ I) as ID.
  (* facts about other threads in L3, L4, L5 *)
  assert (O3 : forall u, u <> t -> threads s u = L3 -> crit (threads s t) = false).
  { intros u N E. destruct (crit (threads s t)) eqn:C; auto. exfalso. eapply (crit_excl pid s t u); eauto. rewrite E; auto. }
  assert (O4 : forall u, u <> t -> threads s u = L4 \/ threads s u = L5 -> mid (threads s t) = true /\ issued s = [] /\ major s = 0).
  { intros u N E. destruct (IM u E) as [A [B C]]. auto. }
  assert (NE : early (threads s t) = false -> last_pid s = pid).
  { intros E. destruct IP as [L|L]; auto. destruct (IE L) as [A _]. rewrite A in E. discriminate. }
  destruct (threads s t) eqn:Et.
  all: try (destruct (lock s) eqn:El; [discriminate|]).
  all: injection H as <-.
  all: assert (C3 : forall u, u <> t -> threads s u = L3 -> last_pid s = 0) by (intros u _ E; eauto).
  - (* Idle *)
    apply inv_move; rewrite ?Et; auto.
    + cbn. destruct (pid =? last_pid s); auto.
    + destruct (pid =? last_pid s); discriminate.
    + intros L. destruct (IE L) as [A [B C]]. replace (pid =? last_pid s) with false by (symmetry; apply Z.eqb_neq; lia). auto.
    + intros [E|[u [N E]]]; eauto. destruct (pid =? last_pid s); discriminate.
    + intros [E|E]; destruct (pid =? last_pid s); discriminate.
    + intros u N E. destruct (O4 u N E) as [_ [B C]]. destruct (pid =? last_pid s); auto.
  - (* L1 *)
    apply inv_move; rewrite ?Et; auto.
    + intros L. destruct (IE L) as [A [B C]]. auto.
    + intros [E|[u [N E]]]; [discriminate|eauto].
    + intros [E|E]; discriminate.
    + intros u N E. exfalso. assert (crit (threads s u) = true) by (destruct E as [E|E]; rewrite E; auto).
      apply (i_lock _ _ I) in H. congruence.
  - (* L2 *)
    apply inv_move; rewrite ?Et; auto.
    + destruct (pid =? last_pid s); cbn; apply (i_lock _ _ I); rewrite Et; auto.
    + intros L. destruct (IE L) as [A [B C]]. replace (pid =? last_pid s) with false by (symmetry; apply Z.eqb_neq; lia). auto.
    + intros [E|[u [N E]]]; eauto. destruct (Z.eqb_spec pid (last_pid s)); [discriminate|]. destruct IP; [auto|congruence].
    + intros [E|E]; destruct (pid =? last_pid s); discriminate.
    + intros u N E. destruct (O4 u N E) as [D _]. discriminate.
  - (* L3 *)
    assert (L0 : last_pid s = 0) by eauto. destruct (IE L0) as [A [B C]].
    apply inv_move; rewrite ?Et; auto.
    + cbn. apply (i_lock _ _ I). rewrite Et. auto.
    + intros [E|[u [N E]]]; [discriminate|]. specialize (O3 u N E). discriminate.
    + intros _. split; auto. intros u N. specialize (A u). destruct (threads s u) eqn:Eu; try discriminate; auto; exfalso;
        (eapply (crit_excl pid s t u); eauto; [rewrite Eu; auto | rewrite Et; auto]).
  - (* L4 *)
    destruct (IM t (or_introl Et)) as [A [B C]].
    apply inv_move; rewrite ?Et; auto.
    all: try solve [ cbn; apply (i_lock _ _ I); rewrite Et; auto
      | destruct (major s =? 0); cbn; apply (i_lock _ _ I); rewrite Et; auto
      | destruct (major s =? 0); auto; discriminate
      | rewrite NE by auto; intros; lia
      | intros [E|[u [N E]]]; [|eauto]; try destruct (major s =? 0); discriminate
      | intros [E|E]; try destruct (major s =? 0); discriminate
      | intros u N E; destruct (O4 u N E) as [D _]; discriminate
      | intros u N E; destruct (O4 u N E) as [D [F G]]; rewrite G; auto
      | rewrite B; auto
      | intros u N E; exfalso; assert (crit (threads s u) = true) as HK by (destruct E as [E|E]; rewrite E; auto);
        apply (i_lock _ _ I) in HK; congruence ].
  - (* L5 *)
    destruct (IM t (or_intror Et)) as [A [B C]].
    apply inv_move; rewrite ?Et; auto.
    all: try solve [ cbn; apply (i_lock _ _ I); rewrite Et; auto
      | destruct (major s =? 0); cbn; apply (i_lock _ _ I); rewrite Et; auto
      | destruct (major s =? 0); auto; discriminate
      | rewrite NE by auto; intros; lia
      | intros [E|[u [N E]]]; [|eauto]; try destruct (major s =? 0); discriminate
      | intros [E|E]; try destruct (major s =? 0); discriminate
      | intros u N E; destruct (O4 u N E) as [D _]; discriminate
      | intros u N E; destruct (O4 u N E) as [D [F G]]; rewrite G; auto
      | rewrite B; reflexivity
      | intros u N E; exfalso; assert (crit (threads s u) = true) as HK by (destruct E as [E|E]; rewrite E; auto);
        apply (i_lock _ _ I) in HK; congruence ].
  - (* L6 *)
    apply inv_move; rewrite ?Et; auto.
    all: try solve [ cbn; apply (i_lock _ _ I); rewrite Et; auto
      | destruct (major s =? 0); cbn; apply (i_lock _ _ I); rewrite Et; auto
      | destruct (major s =? 0); auto; discriminate
      | rewrite NE by auto; intros; lia
      | intros [E|[u [N E]]]; [|eauto]; try destruct (major s =? 0); discriminate
      | intros [E|E]; try destruct (major s =? 0); discriminate
      | intros u N E; destruct (O4 u N E) as [D _]; discriminate
      | intros u N E; destruct (O4 u N E) as [D [F G]]; rewrite G; auto
      | rewrite B; auto
      | intros u N E; exfalso; assert (crit (threads s u) = true) as HK by (destruct E as [E|E]; rewrite E; auto);
        apply (i_lock _ _ I) in HK; congruence ].
  - (* M0 *)
    apply inv_move; rewrite ?Et; auto.
    all: try solve [ cbn; apply (i_lock _ _ I); rewrite Et; auto
      | destruct (major s =? 0); cbn; apply (i_lock _ _ I); rewrite Et; auto
      | destruct (major s =? 0); auto; discriminate
      | rewrite NE by auto; intros; lia
      | intros [E|[u [N E]]]; [|eauto]; try destruct (major s =? 0); discriminate
      | intros [E|E]; try destruct (major s =? 0); discriminate
      | intros u N E; destruct (O4 u N E) as [D _]; discriminate
      | intros u N E; destruct (O4 u N E) as [D [F G]]; rewrite G; auto
      | rewrite B; auto
      | intros u N E; exfalso; assert (crit (threads s u) = true) as HK by (destruct E as [E|E]; rewrite E; auto);
        apply (i_lock _ _ I) in HK; congruence ].
  - (* K1 *)
    apply inv_move; rewrite ?Et; auto.
    all: try solve [ cbn; apply (i_lock _ _ I); rewrite Et; auto
      | destruct (major s =? 0); cbn; apply (i_lock _ _ I); rewrite Et; auto
      | destruct (major s =? 0); auto; discriminate
      | rewrite NE by auto; intros; lia
      | intros [E|[u [N E]]]; [|eauto]; try destruct (major s =? 0); discriminate
      | intros [E|E]; try destruct (major s =? 0); discriminate
      | intros u N E; destruct (O4 u N E) as [D _]; discriminate
      | intros u N E; destruct (O4 u N E) as [D [F G]]; rewrite G; auto
      | rewrite B; auto
      | intros u N E; exfalso; assert (crit (threads s u) = true) as HK by (destruct E as [E|E]; rewrite E; auto);
        apply (i_lock _ _ I) in HK; congruence ].
  - (* K2 *)
    apply inv_move; rewrite ?Et; auto.
    all: try solve [ cbn; apply (i_lock _ _ I); rewrite Et; auto
      | destruct (major s =? 0); cbn; apply (i_lock _ _ I); rewrite Et; auto
      | destruct (major s =? 0); auto; discriminate
      | rewrite NE by auto; intros; lia
      | intros [E|[u [N E]]]; [|eauto]; try destruct (major s =? 0); discriminate
      | intros [E|E]; try destruct (major s =? 0); discriminate
      | intros u N E; destruct (O4 u N E) as [D _]; discriminate
      | intros u N E; destruct (O4 u N E) as [D [F G]]; rewrite G; auto
      | rewrite B; auto
      | intros u N E; exfalso; assert (crit (threads s u) = true) as HK by (destruct E as [E|E]; rewrite E; auto);
        apply (i_lock _ _ I) in HK; congruence ].
  - (* K3 *)
    apply inv_move; rewrite ?Et; auto.
    all: try solve [ cbn; apply (i_lock _ _ I); rewrite Et; auto
      | destruct (major s =? 0); cbn; apply (i_lock _ _ I); rewrite Et; auto
      | destruct (major s =? 0); auto; discriminate
      | rewrite NE by auto; intros; lia
      | intros [E|[u [N E]]]; [|eauto]; try destruct (major s =? 0); discriminate
      | intros [E|E]; try destruct (major s =? 0); discriminate
      | intros u N E; destruct (O4 u N E) as [D _]; discriminate
      | intros u N E; destruct (O4 u N E) as [D [F G]]; rewrite G; auto
      | rewrite B; auto
      | intros u N E; exfalso; assert (crit (threads s u) = true) as HK by (destruct E as [E|E]; rewrite E; auto);
        apply (i_lock _ _ I) in HK; congruence ].
  - (* K4 *)
    apply inv_move; rewrite ?Et; auto.
    all: try solve [ cbn; apply (i_lock _ _ I); rewrite Et; auto
      | destruct (major s =? 0); cbn; apply (i_lock _ _ I); rewrite Et; auto
      | destruct (major s =? 0); auto; discriminate
      | rewrite NE by auto; intros; lia
      | intros [E|[u [N E]]]; [|eauto]; try destruct (major s =? 0); discriminate
      | intros [E|E]; try destruct (major s =? 0); discriminate
      | intros u N E; destruct (O4 u N E) as [D _]; discriminate
      | intros u N E; destruct (O4 u N E) as [D [F G]]; rewrite G; auto
      | rewrite B; auto
      | intros u N E; exfalso; assert (crit (threads s u) = true) as HK by (destruct E as [E|E]; rewrite E; auto);
        apply (i_lock _ _ I) in HK; congruence ].
  - (* R0 *)
    apply inv_move; rewrite ?Et; auto.
    all: try solve [ cbn; apply (i_lock _ _ I); rewrite Et; auto
      | destruct (major s =? 0); cbn; apply (i_lock _ _ I); rewrite Et; auto
      | destruct (major s =? 0); auto; discriminate
      | rewrite NE by auto; intros; lia
      | intros [E|[u [N E]]]; [|eauto]; try destruct (major s =? 0); discriminate
      | intros [E|E]; try destruct (major s =? 0); discriminate
      | intros u N E; destruct (O4 u N E) as [D _]; discriminate
      | intros u N E; destruct (O4 u N E) as [D [F G]]; rewrite G; auto
      | rewrite B; auto
      | intros u N E; exfalso; assert (crit (threads s u) = true) as HK by (destruct E as [E|E]; rewrite E; auto);
        apply (i_lock _ _ I) in HK; congruence ].
  - (* R1 *)
    apply inv_move; rewrite ?Et; auto.
    + rewrite NE by auto. intros; lia.
    + intros [E|[u [N E]]]; [discriminate|eauto].
    + intros [E|E]; discriminate.
    + intros u N E. destruct (O4 u N E) as [D _]. discriminate.
    + rewrite IN, wrap32_succ. cbn [length]. f_equal. lia.
    + intros k id Hk. cbn [rev] in Hk.
      assert (k < length (rev (issued s)) \/ k = length (rev (issued s)))%nat as [Lk|Lk].
      { assert (k < length (rev (issued s) ++ [(m, minor s)]))%nat by (apply nth_error_Some; congruence).
        rewrite app_length in H. cbn in H. lia. }
      * rewrite nth_error_app1 in Hk by auto. auto.
      * rewrite nth_error_app2 in Hk by lia. rewrite Lk, Nat.sub_diag in Hk. cbn in Hk. inversion Hk; subst.
        cbn. rewrite rev_length. auto.
Qed.

Lemma inv_run pid sched : pid <> 0 -> forall s, inv pid s -> inv pid (run pid s sched).
Proof.
  intros NP. induction sched as [|[t h] r IH]; intros s I; cbn; auto. apply IH.
  destruct (step pid s t h) eqn:E; auto. eapply inv_step; eauto.
Qed.

Theorem ids_distinct pid sched : pid <> 0 ->
  Z.of_nat (length (issued (run pid fresh sched))) <= 4294967296 ->
  NoDup (map snd (issued (run pid fresh sched))).
Proof.
  intros NP L. pose proof (inv_run pid sched NP _ (inv_fresh pid)) as I.
  set (s := run pid fresh sched) in *.
  rewrite <- (rev_involutive (map snd (issued s))). apply NoDup_rev.
  rewrite <- map_rev. apply NoDup_nth_error. intros i j Hi E.
  rewrite map_length, rev_length in Hi. rewrite !nth_error_map in E.
  destruct (nth_error (rev (issued s)) i) as [a|] eqn:Ea; [|apply nth_error_None in Ea; rewrite rev_length in Ea; lia].
  destruct (nth_error (rev (issued s)) j) as [b|] eqn:Eb; [|discriminate].
  cbn in E. pose proof (i_ids _ _ I _ _ Ea). pose proof (i_ids _ _ I _ _ Eb).
  assert (j < length (issued s))%nat by (rewrite <- rev_length; apply nth_error_Some; congruence).
  assert (Z.of_nat i = Z.of_nat j); [|lia]. apply wrap32_inj; try lia. congruence.
Qed.

Lemma NoDup_map_inv' {A B} (f : A -> B) l : NoDup (map f l) -> NoDup l.
Proof. apply NoDup_map_inv. Qed.

Theorem ids_unique pid sched : pid <> 0 ->
  Z.of_nat (length (issued (run pid fresh sched))) <= 4294967296 ->
  NoDup (issued (run pid fresh sched)).
Proof. intros. eapply NoDup_map_inv'. eapply ids_distinct; eauto. Qed.

(** After a fork. *)
Definition ex_parent : list (nat * Z) := repeat (0%nat, 77) 14.

Definition ex_child : list (nat * Z) :=
  let a := (0%nat, 88) in let b := (1%nat, 88) in let c := (2%nat, 88) in let d := (3%nat, 88) in
  [a; a; a; a;              (* A stores its pid *)
   b; b; b; b;              (* B skips the reset and takes (77, 1) *)
   c; c; c; d; d; d;        (* C and D read the old major id *)
   a; a; a;                 (* A resets the counters *)
   c; d].                   (* C and D take (77, 0) and (77, 1) *)

Lemma fork_duplicates : exists p1 p2 parent child,
  p1 <> 0 /\ p2 <> 0 /\ p1 <> p2 /\
  issued (run p1 fresh parent) = [(77, 0)] /\
  issued (run p2 (forked (run p1 fresh parent)) child) = [(77, 1); (77, 0); (77, 1)].
Proof. exists 100, 200, ex_parent, ex_child. repeat split; try lia; vm_compute; reflexivity. Qed.

(** A fresh-process schedule in which three threads race. *)
Definition ex_race : list (nat * Z) :=
  concat (repeat [(0%nat, 5); (1%nat, 6); (2%nat, 7); (1%nat, 8)] 20).

Lemma ex_race_ids : issued (run 42 fresh ex_race) =
  [(8, 10); (8, 9); (8, 8); (8, 7); (8, 6); (8, 5); (8, 4); (8, 3); (8, 2); (8, 1); (8, 0)].
Proof. vm_compute. reflexivity. Qed.

(** ** One major id per process *)
Record inv2 (s : idstate) : Prop := {
  j_k3 : forall t, threads s t = K3 -> major s = 0;
  j_r0 : forall t, threads s t = R0 \/ threads s t = K4 -> major s <> 0;
  j_r1 : forall t m, threads s t = R1 m -> m = major s /\ m <> 0;
  j_ids : forall id, In id (issued s) -> fst id = major s /\ fst id <> 0
}.

Lemma inv2_move s t p' lp mn lk : inv2 s ->
  (p' = K3 -> major s = 0) -> (p' = R0 \/ p' = K4 -> major s <> 0) -> (forall m, p' = R1 m -> m = major s /\ m <> 0) ->
  inv2 (mkidstate lp (major s) mn lk (set_pc s t p') (issued s)).
Proof.
  intros [A B C D] H1 H2 H3. split; cbn [threads major issued]; auto.
  all: intros u; destruct (Nat.eq_dec u t) as [->|N]; [rewrite set_pc_same|rewrite set_pc_other by auto]; eauto.
Qed.

Lemma inv2_step pid s t h s' : h <> 0 -> inv pid s -> inv2 s -> step pid s t h = Some s' -> inv2 s'.
Proof.
  intros NH I J H. unfold step, go in H. destruct (threads s t) eqn:Et.
  all: try (destruct (lock s) eqn:El; [discriminate|]).
  all: injection H as <-.
  all: try solve [apply inv2_move; auto; try (destruct (pid =? last_pid s)); try (intros; discriminate); intros [E|E]; discriminate].
  - (* L4 *)
    destruct (i_mid _ _ I t (or_introl Et)) as [A [B C]]. rewrite <- C.
    apply inv2_move; auto; try (intros; discriminate). intros [E|E]; discriminate.
  - (* M0 *)
    apply inv2_move; auto; destruct (Z.eqb_spec (major s) 0); auto; try (intros; discriminate). intros [E|E]; discriminate.
  - (* K2 *)
    apply inv2_move; auto; destruct (Z.eqb_spec (major s) 0); auto; try (intros; discriminate). intros [E|E]; discriminate.
  - (* K3 *)
    pose proof (j_k3 _ J t Et) as M0. split; cbn [threads major issued].
    + intros u E. destruct (Nat.eq_dec u t) as [->|N]; [rewrite set_pc_same in E; discriminate|]. rewrite set_pc_other in E by auto.
      exfalso. eapply (crit_excl pid s t u); eauto; [rewrite E|rewrite Et]; auto.
    + intros; auto.
    + intros u m E. destruct (Nat.eq_dec u t) as [->|N]; [rewrite set_pc_same in E; discriminate|]. rewrite set_pc_other in E by auto.
      apply (j_r1 _ J) in E. destruct E; congruence.
    + intros id E. apply (j_ids _ J) in E. destruct E; congruence.
  - (* K4 *)
    apply inv2_move; auto; try (intros; discriminate). intros _. apply (j_r0 _ J t). auto.
  - (* R0 *)
    apply inv2_move; auto; try (intros; discriminate); [intros [E|E]; discriminate|].
    intros m E. injection E as <-. split; auto. apply (j_r0 _ J t). auto.
  - (* R1 *)
    destruct J as [A B C D]. split; cbn [threads major issued].
    + intros u E. destruct (Nat.eq_dec u t) as [->|N]; [rewrite set_pc_same in E; discriminate|]. rewrite set_pc_other in E by auto. eauto.
    + intros u E. destruct (Nat.eq_dec u t) as [->|N]; [rewrite set_pc_same in E; destruct E; discriminate|]. rewrite set_pc_other in E by auto. eauto.
    + intros u m' E. destruct (Nat.eq_dec u t) as [->|N]; [rewrite set_pc_same in E; discriminate|]. rewrite set_pc_other in E by auto. eauto.
    + intros id [<-|E]; auto. cbn. eauto.
Qed.

Theorem one_major pid sched : pid <> 0 -> Forall (fun th => snd th <> 0) sched ->
  exists m, forall id, In id (issued (run pid fresh sched)) -> fst id = m /\ m <> 0.
Proof.
  intros NP F.
  assert (G : forall s, inv pid s -> inv2 s -> inv2 (run pid s sched)).
  { induction F as [|[t h] r Hh F IH]; intros s I J; cbn; auto. destruct (step pid s t h) eqn:E; auto.
    apply IH; [eapply inv_step; eauto|eapply inv2_step; eauto]. }
  exists (major (run pid fresh sched)). intros id H.
  assert (J : inv2 (run pid fresh sched)).
  { apply G; [apply inv_fresh|]. split; cbn; try (intros; discriminate); [intros t [E|E]; discriminate|intros id' []]. }
  destruct (j_ids _ J id H) as [E N]. rewrite <- E. auto.
Qed.
