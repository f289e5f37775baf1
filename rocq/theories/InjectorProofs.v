(** Proofs about the event generator. *)
From Coq Require Import List Bool ZArith Permutation Lia.
From Verif Require Import TraversalModel TreeModel TreeSpec TreeProofs OrderModel InjectorModel InjectorSpec.
Import ListNotations.
Open Scope Z_scope.

Ltac inv H := inversion H; subst; clear H.

Section Event.
Variable D : Type.
Variable zero : D.
Variable W : Type.
Notation record := (interaction_record D).
Notation tree := (state (interaction_record D)).
Variable sample_primary : W -> called record * W.
Variable P : Type.
Variable sample_secondary : P -> nat * record -> W -> called record * W.
Variable stopping_condition : tree -> ptr -> nat -> W -> bool * W.
Variable generate_id : W -> particle_id * W.
Variable processes : list (Z * P).

Notation types d := (secondary_types (r_signature (d_record d))).
Definition reg (ty : Z) : bool := match map_find processes ty with Some _ => true | None => false end.

Fixpoint regslots (i : nat) (l : list Z) : list nat :=
  match l with
  | [] => []
  | ty :: r => (if reg ty then [i] else []) ++ regslots (S i) r
  end.

Fixpoint slots (k : nat) (l : list (list Z)) : list (nat * nat) :=
  match l with
  | [] => []
  | ts :: r => map (pair k) (regslots 0 ts) ++ slots (S k) r
  end.

Lemma regslots_in l : forall i j, In j (regslots i l) <-> exists ty, (i <= j)%nat /\ nth_error l (j - i) = Some ty /\ reg ty = true.
Proof.
  induction l as [|ty l IH]; intros i j; cbn.
  - split; [tauto|]. intros [ty [_ [H _]]]. destruct (j - i)%nat; discriminate.
  - rewrite in_app_iff, IH. split.
    + intros [H|[ty' [L [H R]]]].
      * destruct (reg ty) eqn:E; [|contradiction]. destruct H as [<-|[]]. exists ty. rewrite Nat.sub_diag. auto.
      * exists ty'. split; [lia|]. replace (j - i)%nat with (S (j - S i)) by lia. auto.
    + intros [ty' [L [H R]]]. destruct (Nat.eq_dec i j) as [->|N].
      * left. rewrite Nat.sub_diag in H. inv H. rewrite R. left. auto.
      * right. exists ty'. split; [lia|]. replace (j - i)%nat with (S (j - S i)) in H by lia. auto.
Qed.

Lemma regslots_nodup l : forall i, NoDup (regslots i l).
Proof.
  induction l as [|ty l IH]; intros i; cbn; [constructor|].
  destruct (reg ty); cbn; auto. constructor; auto.
  intros H. apply regslots_in in H. destruct H as [_ [H _]]. lia.
Qed.

Lemma slots_in L : forall k p i, In (p, i) (slots k L) <->
  exists ts, (k <= p)%nat /\ nth_error L (p - k) = Some ts /\ In i (regslots 0 ts).
Proof.
  induction L as [|ts L IH]; intros k p i; cbn.
  - split; [tauto|]. intros [ts [_ [H _]]]. destruct (p - k)%nat; discriminate.
  - rewrite in_app_iff, IH. split.
    + intros [H|[ts' [L' [H R]]]].
      * apply in_map_iff in H. destruct H as [j [E H]]. inv E. exists ts. rewrite Nat.sub_diag. auto.
      * exists ts'. split; [lia|]. replace (p - k)%nat with (S (p - S k)) by lia. auto.
    + intros [ts' [L' [H R]]]. destruct (Nat.eq_dec k p) as [->|N].
      * left. rewrite Nat.sub_diag in H. inv H. apply in_map. auto.
      * right. exists ts'. split; [lia|]. replace (p - k)%nat with (S (p - S k)) in H by lia. auto.
Qed.

Lemma NoDup_app_intro {A} (l1 l2 : list A) :
  NoDup l1 -> NoDup l2 -> (forall x, In x l1 -> In x l2 -> False) -> NoDup (l1 ++ l2).
Proof.
  induction 1 as [|x l1 NI ND IH]; cbn; auto. intros N2 H. constructor.
  - rewrite in_app_iff. intros [I|I]; [contradiction|]. eapply H; [left|]; eauto.
  - apply IH; auto. intros y I1 I2. eapply H; [right|]; eauto.
Qed.

Lemma slots_nodup L : forall k, NoDup (slots k L).
Proof.
  induction L as [|ts L IH]; intros k; cbn; [constructor|].
  apply NoDup_app_intro; auto.
  - apply FinFun.Injective_map_NoDup; [|apply regslots_nodup]. intros x y E. inv E. auto.
  - intros [p i] H1 H2. apply in_map_iff in H1. destruct H1 as [j [E _]]. inv E.
    apply slots_in in H2. destruct H2 as [_ [H _]]. lia.
Qed.

Lemma slots_app L1 L2 k : slots k (L1 ++ L2) = slots k L1 ++ slots (k + length L1) L2.
Proof.
  revert k. induction L1 as [|ts L1 IH]; intros k; cbn [app slots length].
  - rewrite Nat.add_0_r. auto.
  - rewrite IH, <- app_assoc. do 3 f_equal. lia.
Qed.

(** ** Traces *)
Lemma asked_app a b : asked (a ++ b) = asked a ++ asked b.
Proof. apply flat_map_app. Qed.
Lemma let_through_app a b : let_through (a ++ b) = let_through a ++ let_through b.
Proof. apply flat_map_app. Qed.
Lemma productions_app a b : productions (a ++ b) = productions a ++ productions b.
Proof. apply flat_map_app. Qed.

Lemma let_through_asked tr x : In x (let_through tr) -> In x (asked tr).
Proof.
  unfold let_through, asked. rewrite !in_flat_map. intros [e [I H]]. exists e. split; auto.
  destruct e as [p i [|]|p i c]; cbn in *; auto; contradiction.
Qed.

Lemma let_through_nodup tr : NoDup (asked tr) -> NoDup (let_through tr).
Proof.
  induction tr as [|e tr IH]; [auto|].
  change (e :: tr) with ([e] ++ tr). rewrite asked_app, let_through_app.
  destruct e as [p i [|]|p i c]; cbn; auto; intros H; inv H; auto.
  constructor; auto. intros I. apply H2, let_through_asked, I.
Qed.

(** ** One round of add_secondaries *)
Definition qslot (x : ptr * (nat * record)) : nat * nat := (fst x, fst (snd x)).

Lemma sbt_refl (a : record) : same_but_times a a.
Proof. exists (r_secondary_times a). destruct a; reflexivity. Qed.
Lemma sbt_trans (a b c : record) : same_but_times a b -> same_but_times b c -> same_but_times a c.
Proof. intros [l ->] [m ->]. exists l. reflexivity. Qed.
Lemma sbt_sym (a b : record) : same_but_times a b -> same_but_times b a.
Proof. intros [l ->]. exists (r_secondary_times b). destruct b; reflexivity. Qed.
Lemma sbt_with_time (a : record) i x : same_but_times (with_time a i x) a.
Proof. eexists. reflexivity. Qed.
Lemma sbt_if (b : bool) (a : record) i x : same_but_times (if b then with_time a i x else a) a.
Proof. destruct b; [apply sbt_with_time|apply sbt_refl]. Qed.

(** A queued secondary record comes from a slot of [par]. *)
Definition queued_from (par : record) (i : nat) (sec : record) : Prop :=
  exists w w', create_secondary zero generate_id par i w = (Some sec, w').

Lemma create_type par i w sec w' : create_secondary zero generate_id par i w = (Some sec, w') ->
  nth_error (secondary_types (r_signature par)) i = Some (primary_type (r_signature sec)).
Proof.
  unfold create_secondary. destruct (nth_error (r_secondary_ids par) i) as [id0|]; [|discriminate].
  destruct (if id_set id0 then (id0, w) else generate_id w) as [id w1].
  destruct (nth_error (secondary_types (r_signature par)) i); [|discriminate].
  destruct (nth_error (r_secondary_masses par) i); [|discriminate].
  destruct (nth_error (r_secondary_momenta par) i); [|discriminate].
  destruct (nth_error (r_secondary_helicities par) i); [|discriminate].
  intros H. inv H. reflexivity.
Qed.

Lemma add_secondaries_spec t parent par : forall ts i w q tr q2 tr2 w2,
  add_secondaries zero stopping_condition generate_id processes t parent par ts i w q tr = (Some (q2, tr2), w2) ->
  exists qs trs, q2 = q ++ qs /\ tr2 = tr ++ trs /\
    asked trs = map (pair parent) (regslots i ts) /\
    let_through trs = map qslot qs /\ productions trs = [] /\
    Forall (fun x => fst x = parent /\ queued_from par (fst (snd x)) (snd (snd x))) qs.
Proof.
  induction ts as [|ty ts IH]; intros i w q tr q2 tr2 w2 H; cbn in H.
  - inv H. exists [], []. rewrite !app_nil_r. cbn. repeat split; auto.
  - destruct (map_find processes ty) eqn:E.
    + destruct (stopping_condition t parent i w) as [stop w1]. destruct stop.
      * apply IH in H. destruct H as [qs [trs [-> [-> [HA [HL [HP HF]]]]]]].
        exists qs, (Asked parent i true :: trs). rewrite <- app_assoc. unfold asked, let_through, productions in *. cbn. unfold reg. rewrite E. cbn. rewrite HA. repeat split; auto.
      * destruct (create_secondary zero generate_id par i w1) as [[sec|] w3] eqn:EC; [|discriminate].
        apply IH in H. destruct H as [qs [trs [-> [-> [HA [HL [HP HF]]]]]]].
        exists ((parent, (i, sec)) :: qs), (Asked parent i false :: trs). rewrite <- !app_assoc. unfold asked, let_through, productions in *. cbn. unfold reg. rewrite E. cbn. rewrite HA, HL.
        repeat split; auto. constructor; auto. cbn. split; auto. exists w1, w3. auto.
    + apply IH in H. destruct H as [qs [trs [-> [-> [HA [HL [HP HF]]]]]]].
      exists qs, trs. cbn. unfold reg. rewrite E. cbn. repeat split; auto.
Qed.

(** ** One addition *)
Lemma add_record_child (t : tree) r p t1 c :
  (p < length (st_heap t))%nat -> add_record t r (Some p) = Ok (t1, c) ->
  c = length (st_heap t) /\ st_tree t1 = st_tree t ++ [Some c] /\
  length (st_heap t1) = S (length (st_heap t)) /\
  (exists dp, nth_error (st_heap t) p = Some dp /\
     nth_error (st_heap t1) c = Some (mkdatum r (to_u32 (Z.of_nat (length (st_tree t)))) (d_node_id dp) [] None [])) /\
  forall k d, nth_error (st_heap t) k = Some d ->
    exists d1, nth_error (st_heap t1) k = Some d1 /\ d_record d1 = d_record d /\
      d_node_id d1 = d_node_id d /\ d_parent d1 = d_parent d.
Proof.
  intros Hp H. unfold add_record, alloc in H. unfold add_ptr in H. cbn [st_heap st_tree] in H.
  set (n := length (st_heap t)) in *.
  assert (E0 : nth_error (st_heap t ++ [new_datum r]) n = Some (new_datum r)).
  { rewrite nth_error_app2 by lia. replace (n - length (st_heap t))%nat with 0%nat by (unfold n; lia). auto. }
  rewrite E0 in H. set (d1 := set_ids (new_datum r) _ _ _) in H.
  destruct (nth_error (st_heap t) p) as [dp|] eqn:Edp; [|apply nth_error_None in Edp; lia].
  assert (L0 : length (st_heap t ++ [new_datum r]) = S n) by (rewrite app_length; cbn; unfold n; lia).
  assert (E1 : nth_error (heap_set (st_heap t ++ [new_datum r]) n d1) p = Some dp).
  { rewrite heap_set_other by lia. rewrite nth_error_app1 by lia. auto. }
  rewrite E1 in H. rewrite heap_set_set in H. set (d2 := set_ids d1 _ _ _) in H.
  assert (E2 : nth_error (heap_set (st_heap t ++ [new_datum r]) n d2) p = Some dp).
  { rewrite heap_set_other by lia. rewrite nth_error_app1 by lia. auto. }
  rewrite E2 in H. inv H. cbn [st_heap st_tree].
  split; auto. split; auto. split; [rewrite !heap_set_length; auto|]. split.
  - exists dp. split; auto. rewrite heap_set_other by lia. rewrite heap_set_same by lia. reflexivity.
  - intros k d Hk. assert (k < n)%nat by (apply nth_error_Some; congruence).
    destruct (Nat.eq_dec k p) as [->|N].
    + rewrite heap_set_same by (rewrite heap_set_length; lia). rewrite Edp in Hk. inv Hk.
      eexists. split; [reflexivity|]. auto.
    + rewrite !heap_set_other by lia. rewrite nth_error_app1 by lia. eexists. split; [exact Hk|]. auto.
Qed.

Lemma list_set_length {A} (l : list A) i x : length (list_set l i x) = length l.
Proof. revert i; induction l; intros [|i]; cbn; auto. Qed.

Lemma list_set_nth {A} (l : list A) i j x :
  nth_error (list_set l i x) j = if Nat.eqb i j then (if Nat.ltb j (length l) then Some x else None) else nth_error l j.
Proof.
  revert i j; induction l as [|y l IH]; intros i j.
  - cbn. destruct (Nat.eqb i j); destruct j; reflexivity.
  - destruct i, j; cbn [list_set nth_error]; auto. rewrite IH. cbn [Nat.eqb length].
    destruct (Nat.eqb i j); auto.
Qed.

Lemma sync_time_spec (t t2 : tree) p i x :
  sync_time t p i x = Ok t2 ->
  st_tree t2 = st_tree t /\ length (st_heap t2) = length (st_heap t) /\
  exists dp, nth_error (st_heap t) p = Some dp /\
  forall k d, nth_error (st_heap t) k = Some d ->
    exists d2, nth_error (st_heap t2) k = Some d2 /\
      d_record d2 = (if Nat.eqb p k then with_time (d_record d) i x else d_record d) /\
      d_node_id d2 = d_node_id d /\ d_parent d2 = d_parent d.
Proof.
  unfold sync_time. destruct (nth_error (st_heap t) p) as [dp|] eqn:E; [|discriminate]. intros H. inv H. cbn.
  split; auto. rewrite heap_set_length. split; auto. exists dp. split; auto.
  intros k d Hk. destruct (Nat.eqb_spec p k) as [->|N].
  - rewrite heap_set_same by (apply nth_error_Some; congruence). rewrite E in Hk. inv Hk. eexists. split; eauto.
  - rewrite heap_set_other by auto. eexists. split; eauto.
Qed.

(** ** The invariant of the loops *)
Record GI (t : tree) (q : queue D) (tr : list step) : Prop := {
  g_tree : st_tree t = map Some (seq 0 (length (st_heap t)));
  g_pos : (1 <= length (st_heap t))%nat;
  g_built : built t (seq 0 (length (st_heap t)));
  g_id : forall k d, nth_error (st_heap t) k = Some d -> d_node_id d = to_u32 (Z.of_nat k);
  g_root : exists d, nth_error (st_heap t) 0 = Some d /\ d_parent d = kNoParent;
  g_asked : asked tr = slots 0 (map (fun d => types d) (st_heap t));
  g_children : map child_of (productions tr) = seq 1 (length (st_heap t) - 1);
  g_prods : forall p i c, In (p, i, c) (productions tr) -> (p < c)%nat /\
     exists d, nth_error (st_heap t) c = Some d /\ d_parent d = to_u32 (Z.of_nat p);
  g_perm : Permutation (map slot_of (productions tr) ++ map qslot q) (let_through tr);
  g_times : forall p i c dp dc, In (p, i, c) (productions tr) ->
     nth_error (st_heap t) p = Some dp -> nth_error (st_heap t) c = Some dc ->
     (i < length (r_secondary_times (d_record dp)))%nat ->
     nth_error (r_secondary_times (d_record dp)) i = Some (r_primary_initial_time (d_record dc));
  g_queue : Forall (fun x => (fst x < length (st_heap t))%nat) q;
  g_qsrc : forall p i sec, In (p, (i, sec)) q ->
     exists d par, nth_error (st_heap t) p = Some d /\ same_but_times par (d_record d) /\ queued_from par i sec;
  g_src : forall p i c, In (p, i, c) (productions tr) ->
     exists dp dc par sec pr made w3 w4, nth_error (st_heap t) p = Some dp /\ nth_error (st_heap t) c = Some dc /\
       same_but_times par (d_record dp) /\ queued_from par i sec /\
       map_find processes (primary_type (r_signature sec)) = Some pr /\
       sample_secondary pr (i, sec) w3 = (Done made, w4) /\ same_but_times (d_record dc) made
}.

Lemma map_types_eq (h1 h2 : heap record) :
  length h1 = length h2 ->
  (forall k d, nth_error h1 k = Some d -> exists d', nth_error h2 k = Some d' /\ types d' = types d) ->
  map (fun d => types d) h1 = map (fun d => types d) h2.
Proof.
  revert h2. induction h1 as [|d h1 IH]; intros [|d' h2] L H; cbn in *; try discriminate; auto.
  f_equal.
  - destruct (H 0%nat d eq_refl) as [d2 [E R]]. cbn in E. inv E. auto.
  - apply IH; [lia|]. intros k x Hk. exact (H (S k) x Hk).
Qed.

Lemma firstn_len_app {A} (l : list A) n : (n <= length l)%nat -> length (firstn n l) = n.
Proof. intros. apply firstn_length_le. auto. Qed.

Lemma nth_error_split_at {A} (q : list A) k x : nth_error q k = Some x ->
  q = firstn k q ++ x :: skipn (S k) q.
Proof.
  revert k. induction q as [|y q IH]; intros [|k] H; cbn in *; try discriminate.
  - inv H. auto.
  - f_equal. apply IH. auto.
Qed.

(** One production. *)
Lemma produce_inv t q tr k parent slot sec r t1 c t2 w1 w2 q2 tr2 :
  GI t q tr -> nth_error q k = Some (parent, (slot, sec)) ->
  (exists pr w3 w4, map_find processes (primary_type (r_signature sec)) = Some pr /\
     sample_secondary pr (slot, sec) w3 = (Done r, w4)) ->
  add_record t r (Some parent) = Ok (t1, c) ->
  sync_time t1 parent slot (r_primary_initial_time r) = Ok t2 ->
  add_secondaries zero stopping_condition generate_id processes t2 c r (secondary_types (r_signature r)) 0 w1
    (firstn k q ++ skipn (S k) q) (tr ++ [Produced parent slot c]) = (Some (q2, tr2), w2) ->
  GI t2 q2 tr2 /\ firstn k q2 = firstn k q.
Proof.
  intros G Hq HR HA HS HX.
  pose proof (nth_error_split_at _ _ _ Hq) as Q.
  assert (Hp : (parent < length (st_heap t))%nat).
  { pose proof (g_queue _ _ _ G) as F. rewrite Forall_forall in F. apply nth_error_In in Hq. apply (F _ Hq). }
  destruct (add_record_child _ _ _ _ _ Hp HA) as [-> [T1 [L1 [[dp [Edp Ec]] K1]]]].
  destruct (sync_time_spec _ _ _ _ _ HS) as [T2 [L2 [dp1 [Edp1 K2]]]].
  apply add_secondaries_spec in HX. destruct HX as [qs [trs [-> [-> [XA [XL [XP XF]]]]]]].
  set (n := length (st_heap t)) in *.
  assert (LT : length (st_tree t) = n).
  { rewrite (g_tree _ _ _ G), map_length, seq_length. auto. }
  assert (KK : forall k0 d, nth_error (st_heap t) k0 = Some d -> exists d2, nth_error (st_heap t2) k0 = Some d2 /\
     d_record d2 = (if Nat.eqb parent k0 then with_time (d_record d) slot (r_primary_initial_time r) else d_record d) /\
     d_node_id d2 = d_node_id d /\ d_parent d2 = d_parent d).
  { intros k0 d Hk. destruct (K1 _ _ Hk) as [d1 [E1 [R1 [N1 P1]]]]. destruct (K2 _ _ E1) as [d2 [E2 [R2 [N2 P2]]]].
    exists d2. rewrite R2, R1. repeat split; congruence. }
  assert (NC : exists dc, nth_error (st_heap t2) n = Some dc /\ d_record dc = r /\
     d_node_id dc = to_u32 (Z.of_nat n) /\ d_parent dc = d_node_id dp).
  { destruct (K2 _ _ Ec) as [d2 [E2 [R2 [N2 P2]]]]. exists d2. split; auto.
    assert (EN : Nat.eqb parent n = false) by (apply Nat.eqb_neq; lia).
    unfold n in *. rewrite EN in R2. cbn in *. rewrite LT in N2. auto. }
  assert (BACK : forall k0 d2, nth_error (st_heap t2) k0 = Some d2 ->
     (exists d, nth_error (st_heap t) k0 = Some d) \/ k0 = n).
  { intros k0 d2 H. assert (k0 < length (st_heap t2))%nat by (apply nth_error_Some; congruence).
    destruct (Nat.eq_dec k0 n); auto. left.
    destruct (nth_error (st_heap t) k0) eqn:E; eauto. apply nth_error_None in E. unfold n in *. lia. }
  destruct NC as [dc [Edc [Rdc [Ndc Pdc]]]].
  assert (LEN : length (st_heap t2) = S n) by (rewrite L2, L1; auto).
  assert (INC : forall p i c, In (p, i, c) (productions tr) -> (1 <= c < n)%nat).
  { intros p i c H. assert (I : In c (map child_of (productions tr))) by (apply (in_map child_of) in H; auto).
    rewrite (g_children _ _ _ G) in I. apply in_seq in I. unfold n. pose proof (g_pos _ _ _ G). lia. }
  split; [split|].
  - rewrite T2, T1, (g_tree _ _ _ G), LEN, seq_S, map_app. reflexivity.
  - rewrite LEN. lia.
  - rewrite LEN, seq_S. cbn [plus]. pose proof HS as HS'. unfold sync_time in HS'. rewrite Edp1 in HS'. injection HS' as <-.
    apply built_write; auto. apply (built_record t (seq 0 n) r (Some parent)); auto.
    + apply (g_built _ _ _ G).
    + right. exists parent. split; auto. apply in_seq. lia.
  - intros k0 d Hk. destruct (BACK _ _ Hk) as [[d0 H0]| ->].
    + destruct (KK _ _ H0) as [d2 [E2 [_ [N2 _]]]]. rewrite Hk in E2. inv E2. rewrite N2. apply (g_id _ _ _ G); auto.
    + rewrite Hk in Edc. inv Edc. auto.
  - destruct (g_root _ _ _ G) as [d [H0 P0]]. destruct (KK _ _ H0) as [d2 [E2 [_ [_ P2]]]]. exists d2. split; auto. congruence.
  - rewrite !asked_app, XA. cbn [asked flat_map app]. rewrite app_nil_r, (g_asked _ _ _ G).
    assert (HT : map (fun d => types d) (st_heap t2) = map (fun d => types d) (st_heap t) ++ [secondary_types (r_signature r)]).
    { rewrite <- (firstn_skipn n (st_heap t2)), map_app. f_equal.
      - symmetry. apply map_types_eq; [rewrite firstn_length_le; unfold n in *; lia|].
        intros k0 d Hk. assert (k0 < n)%nat by (apply nth_error_Some; congruence).
        destruct (KK _ _ Hk) as [d2 [E2 [R2 _]]].
        exists d2. split.
        + rewrite <- (firstn_skipn n (st_heap t2)) in E2. rewrite nth_error_app1 in E2; auto.
          rewrite firstn_length_le; lia.
        + rewrite R2. destruct (Nat.eqb parent k0); reflexivity.
      - assert (SK : skipn n (st_heap t2) = [dc]).
        { rewrite <- (firstn_skipn n (st_heap t2)) in Edc. rewrite nth_error_app2 in Edc by (rewrite firstn_length_le; lia).
          rewrite firstn_length_le in Edc by lia. rewrite Nat.sub_diag in Edc.
          assert (length (skipn n (st_heap t2)) = 1%nat) by (rewrite skipn_length; lia).
          destruct (skipn n (st_heap t2)) as [|a [|b l]]; cbn in *; try discriminate. inv Edc. auto. }
        rewrite SK. cbn. rewrite Rdc. auto. }
    rewrite HT, slots_app, map_length. cbn. rewrite app_nil_r. auto.
  - rewrite !productions_app, XP, app_nil_r, map_app, (g_children _ _ _ G), LEN. cbn.
    rewrite Nat.sub_0_r. pose proof (g_pos _ _ _ G) as Hpos.
    unfold n in *. fold n in Hpos |- *. replace n with (S (n - 1)) at 3 by lia. rewrite seq_S. do 2 f_equal.
    cbn. lia.
  - intros p i c. rewrite !productions_app, XP, app_nil_r, in_app_iff. cbn. intros [H|[H|[]]].
    + destruct (g_prods _ _ _ G _ _ _ H) as [L [d [E Pd]]]. split; auto.
      destruct (KK _ _ E) as [d2 [E2 [_ [_ P2]]]]. exists d2. split; auto. congruence.
    + inv H. split; auto. exists dc. split; auto. rewrite Pdc. apply (g_id _ _ _ G); auto.
  - rewrite !productions_app, XP, app_nil_r, !let_through_app, XL. cbn [let_through flat_map app].
    rewrite app_nil_r, !map_app. cbn.
    rewrite <- (g_perm _ _ _ G). rewrite Q at 3. rewrite !map_app. cbn.
    rewrite <- !app_assoc. apply Permutation_app_head. cbn.
    rewrite (Permutation_middle (map qslot (firstn k q))). apply Permutation_app_head.
    cbn. unfold slot_of, qslot. cbn. auto.
  - intros p i c dp2 dc2. rewrite !productions_app, XP, app_nil_r, in_app_iff. cbn. intros [H|[H|[]]] Hp2 Hc2 Hi.
    + destruct (g_prods _ _ _ G _ _ _ H) as [Lpc [dc0 [E0 _]]]. pose proof (INC _ _ _ H) as Hc.
      assert (Hdp : exists dp0, nth_error (st_heap t) p = Some dp0).
      { destruct (nth_error (st_heap t) p) eqn:E; eauto. apply nth_error_None in E. unfold n in Hc. lia. }
      destruct Hdp as [dp0 Hdp0].
      destruct (KK _ _ Hdp0) as [x [Ex [Rx _]]]. rewrite Hp2 in Ex. inv Ex.
      destruct (KK _ _ E0) as [y [Ey [Ry _]]]. rewrite Hc2 in Ey. inv Ey.
      assert (TI : r_primary_initial_time (d_record y) = r_primary_initial_time (d_record dc0)).
      { rewrite Ry. destruct (Nat.eqb parent c); reflexivity. }
      rewrite TI, Rx. rewrite Rx in Hi.
      destruct (Nat.eqb_spec parent p) as [->|N]; [|eapply (g_times _ _ _ G); eauto].
      cbn [with_time r_secondary_times] in *. rewrite list_set_length in Hi. rewrite list_set_nth.
      destruct (Nat.eqb_spec slot i) as [->|Ns]; [|eapply (g_times _ _ _ G); eauto].
      exfalso.
      (* the slot was still queued, so it cannot have been produced *)
      assert (ND : NoDup (let_through tr)).
      { apply let_through_nodup. rewrite (g_asked _ _ _ G). apply slots_nodup. }
      pose proof (Permutation_NoDup (Permutation_sym (g_perm _ _ _ G)) ND) as ND2.
      assert (I1 : In (p, i) (map slot_of (productions tr))) by (apply (in_map slot_of) in H; auto).
      assert (I2 : In (p, i) (map qslot q)).
      { apply nth_error_In in Hq. apply (in_map qslot) in Hq. auto. }
      clear -ND2 I1 I2. induction (map slot_of (productions tr)) as [|a l IH]; cbn in *; [contradiction|].
      inv ND2. destruct I1 as [->|I1]; auto. apply H1. apply in_or_app. auto.
    + inv H. rewrite Edc in Hc2. inv Hc2.
      destruct (nth_error (st_heap t) p) as [dp0|] eqn:Hdp0; [|discriminate].
      destruct (KK _ _ Hdp0) as [x [Ex [Rx _]]]. rewrite Hp2 in Ex. inv Ex.
      rewrite Rx in *. rewrite Nat.eqb_refl in *. cbn [with_time r_secondary_times] in *.
      rewrite list_set_length in Hi. rewrite list_set_nth, Nat.eqb_refl.
      apply Nat.ltb_lt in Hi. rewrite Hi. auto.
  - rewrite Forall_forall. intros x Hx. rewrite in_app_iff in Hx. rewrite LEN. destruct Hx as [Hx|Hx].
    + assert (I : In x q). { rewrite Q. apply in_app_or in Hx. apply in_or_app. cbn. tauto. }
      pose proof (g_queue _ _ _ G) as F. rewrite Forall_forall in F. apply F in I. unfold n. lia.
    + rewrite Forall_forall in XF. apply XF in Hx. cbn in Hx. lia.
  - intros p i sec0 Hx. apply in_app_or in Hx. destruct Hx as [Hx|Hx].
    + assert (I : In (p, (i, sec0)) q). { rewrite Q. apply in_app_or in Hx. apply in_or_app. cbn. tauto. }
      destruct (g_qsrc _ _ _ G _ _ _ I) as [d [par [E [S QF]]]].
      destruct (KK _ _ E) as [d2 [E2 [R2 _]]]. exists d2, par. split; auto. split; auto.
      rewrite R2. eapply sbt_trans; [exact S|]. apply sbt_sym, sbt_if.
    + rewrite Forall_forall in XF. apply XF in Hx. cbn in Hx. destruct Hx as [-> QF].
      exists dc, r. split; auto. rewrite Rdc. split; auto. apply sbt_refl.
  - intros p i c. rewrite !productions_app, XP, app_nil_r, in_app_iff. cbn. intros [H|[H|[]]].
    + destruct (g_src _ _ _ G _ _ _ H) as [dp0 [dc0 [par [sec0 [pr [made [w3 [w4 [Ep [Ecc [S1 [QF [MF [SS S2]]]]]]]]]]]]]].
      destruct (KK _ _ Ep) as [x [Ex [Rx _]]]. destruct (KK _ _ Ecc) as [y [Ey [Ry _]]].
      exists x, y, par, sec0, pr, made, w3, w4. repeat split; auto.
      * rewrite Rx. eapply sbt_trans; [exact S1|]. apply sbt_sym, sbt_if.
      * rewrite Ry. eapply sbt_trans; [apply sbt_if|exact S2].
    + injection H as <- <- <-. destruct HR as [pr [w3 [w4 [MF SS]]]].
      apply nth_error_In in Hq. destruct (g_qsrc _ _ _ G _ _ _ Hq) as [d [par [E [S QF]]]].
      destruct (KK _ _ E) as [x [Ex [Rx _]]].
      exists x, dc, par, sec, pr, r, w3, w4. repeat split; auto.
      * rewrite Rx. eapply sbt_trans; [exact S|]. apply sbt_sym, sbt_if.
      * rewrite Rdc. apply sbt_refl.
  - assert (k < length q)%nat by (apply nth_error_Some; congruence).
    rewrite <- app_assoc, firstn_app, firstn_length_le by lia. rewrite Nat.sub_diag. cbn. rewrite app_nil_r.
    rewrite firstn_firstn. f_equal. lia.
Qed.

Lemma sweep_inv : forall i t q w tr t2 q2 tr2 w2,
  GI t q tr ->
  sweep zero sample_secondary stopping_condition generate_id processes i t q w tr = (inl (t2, q2, tr2), w2) -> GI t2 q2 tr2.
Proof.
  induction i as [|k IH]; intros t q w tr t2 q2 tr2 w2 G H; cbn [sweep] in H.
  - inv H. auto.
  - destruct (nth_error q k) as [[parent [slot sec]]|] eqn:Hq; [|discriminate].
    destruct (map_find processes (primary_type (r_signature sec))) as [p|] eqn:HM; [|discriminate].
    destruct (sample_secondary p (slot, sec) w) as [[r| |] w1] eqn:HR; try discriminate.
    destruct (add_record t r (Some parent)) as [[t1 c]| |] eqn:HA; try discriminate.
    destruct (sync_time t1 parent slot (r_primary_initial_time r)) as [t3| |] eqn:HS; try discriminate.
    destruct (add_secondaries zero stopping_condition generate_id processes t3 c r _ _ w1 _ _) as [[[q3 tr3]|] w3] eqn:HX; [|discriminate].
    destruct (produce_inv _ _ _ _ _ _ _ _ _ _ _ _ _ _ _ G Hq (ex_intro _ p (ex_intro _ w (ex_intro _ w1 (conj HM HR)))) HA HS HX) as [G2 _].
    eapply IH; eauto.
Qed.

Lemma loop_inv : forall fuel t q w tr t2 tr2 w2,
  GI t q tr ->
  secondaries_loop zero sample_secondary stopping_condition generate_id processes fuel t q w tr = Some (Complete t2 tr2, w2) ->
  GI t2 [] tr2.
Proof.
  induction fuel as [|f IH]; intros t q w tr t2 tr2 w2 G H; cbn [secondaries_loop] in H.
  - destruct q; inv H. auto.
  - destruct q as [|x q]; [inv H; auto|].
    destruct (sweep _ _ _ _ _ _ _ _ _ _) as [[[[t1 q1] tr1]|e] w1] eqn:HS.
    + eapply IH; [|exact H]. eapply sweep_inv; eauto.
    + inv H.
      (* a sweep never reports a finished event *)
      exfalso. clear -HS. revert HS. generalize (x :: q) at 2 as q0. generalize (length (x :: q)) as i.
      intros i. revert t w tr. induction i as [|k IH]; intros t w tr q0 HS; cbn [sweep] in HS; [discriminate|].
      destruct (nth_error q0 k) as [[parent [slot sec]]|]; [|discriminate].
      destruct (map_find processes (primary_type (r_signature sec))) as [p|]; [|discriminate].
      destruct (sample_secondary p (slot, sec) w) as [[r| |] w1]; try discriminate.
      destruct (add_record t r (Some parent)) as [[t1 c]| |]; try discriminate.
      destruct (sync_time t1 parent slot (r_primary_initial_time r)) as [t3| |]; try discriminate.
      destruct (add_secondaries zero stopping_condition generate_id processes t3 c r _ _ w1 _ _) as [[[q3 tr3]|] w3]; [|discriminate].
      eapply IH; eauto.
Qed.

Lemma root_inv r w t root q tr w2 :
  add_record (mkstate [] []) r None = Ok (t, root) ->
  add_secondaries zero stopping_condition generate_id processes t root r (secondary_types (r_signature r)) 0 w [] [] = (Some (q, tr), w2) ->
  GI t q tr.
Proof.
  intros HA HX. apply add_secondaries_spec in HX. destruct HX as [qs [trs [-> [-> [XA [XL [XP XF]]]]]]].
  cbn [app] in *.
  pose proof HA as HA0. vm_compute in HA. inv HA.
  split; cbn; auto.
  - change [0%nat] with ([] ++ [0%nat]). apply (built_record (mkstate [] []) [] r None); auto.
    apply built_empty.
  - intros [|[|k]] d Hd; try discriminate. inv Hd. reflexivity.
  - eexists. split; reflexivity.
  - rewrite XA, app_nil_r. auto.
  - rewrite XP. auto.
  - rewrite XP. intros p i c [].
  - rewrite XP, XL. auto.
  - rewrite XP. intros p i c dp dc [].
  - eapply Forall_impl; [|exact XF]. cbn. intros x [-> _]. lia.
  - intros p i sec Hx. rewrite Forall_forall in XF. apply XF in Hx. cbn in Hx. destruct Hx as [-> QF].
    eexists _, r. split; [reflexivity|]. split; auto. apply sbt_refl.
  - rewrite XP. intros p i c [].
Qed.

(** ** No undefined behaviour *)
Lemma add_record_ok (t : tree) r p : (p < length (st_heap t))%nat ->
  exists t1 c, add_record t r (Some p) = Ok (t1, c).
Proof.
  intros Hp. unfold add_record, alloc.
  destruct (add_ptr_ok (mkstate (st_heap t ++ [new_datum r]) (st_tree t)) (length (st_heap t)) (Some p)) as [s' [E _]].
  - cbn. rewrite app_length. cbn. lia.
  - intros q Hq. inv Hq. cbn. rewrite app_length. lia.
  - eauto.
Qed.

Lemma sweep_safe : forall i t q w tr, GI t q tr -> (i <= length q)%nat ->
  match fst (sweep zero sample_secondary stopping_condition generate_id processes i t q w tr) with
  | inl _ => True
  | inr e => e <> Undefined
  end.
Proof.
  induction i as [|k IH]; intros t q w tr G L; cbn [sweep]; [exact I|].
  destruct (nth_error q k) as [[parent [slot sec]]|] eqn:Hq; [|apply nth_error_None in Hq; lia].
  destruct (map_find processes (primary_type (r_signature sec))) as [p|] eqn:HM; [|discriminate].
  destruct (sample_secondary p (slot, sec) w) as [[r| |] w1] eqn:HR; try discriminate.
  assert (Hp : (parent < length (st_heap t))%nat).
  { pose proof (g_queue _ _ _ G) as F. rewrite Forall_forall in F. apply nth_error_In in Hq. apply (F _ Hq). }
  destruct (add_record_ok t r parent Hp) as [t1 [c HA]]. rewrite HA.
  destruct (add_record_child _ _ _ _ _ Hp HA) as [_ [_ [L1 _]]].
  destruct (sync_time t1 parent slot (r_primary_initial_time r)) as [t3| |] eqn:HS.
  - destruct (add_secondaries zero stopping_condition generate_id processes t3 c r _ _ w1 _ _) as [[[q3 tr3]|] w3] eqn:HX; [|discriminate].
    destruct (produce_inv _ _ _ _ _ _ _ _ _ _ _ _ _ _ _ G Hq (ex_intro _ p (ex_intro _ w (ex_intro _ w1 (conj HM HR)))) HA HS HX) as [G2 F2].
    apply IH; auto. apply (f_equal (@length _)) in F2. rewrite !firstn_length in F2. lia.
  - discriminate.
  - exfalso. unfold sync_time in HS. destruct (nth_error (st_heap t1) parent) eqn:E; [discriminate|].
    apply nth_error_None in E. lia.
Qed.

Lemma loop_safe : forall fuel t q w tr e w2, GI t q tr ->
  secondaries_loop zero sample_secondary stopping_condition generate_id processes fuel t q w tr = Some (e, w2) ->
  e <> Undefined.
Proof.
  induction fuel as [|f IH]; intros t q w tr e w2 G H; cbn [secondaries_loop] in H.
  - destruct q; inv H. discriminate.
  - destruct q as [|x q]; [inv H; discriminate|].
    pose proof (sweep_safe (length (x :: q)) t (x :: q) w tr G (le_n _)) as SA.
    destruct (sweep _ _ _ _ _ _ _ _ _ _) as [[[[t1 q1] tr1]|e1] w1] eqn:HS; cbn [fst] in SA.
    + eapply IH; [|exact H]. eapply sweep_inv; eauto.
    + inv H. auto.
Qed.

Theorem event_defined fuel c w r c' w' :
  generate_event zero sample_primary sample_secondary stopping_condition generate_id processes fuel c w
    = Some (r, c', w') -> r <> EventUndefined.
Proof.
  unfold generate_event. destruct (events_to_inject c <=? injection_attempts c); [intros H; inv H; discriminate|].
  unfold build_event. destruct (sample_primary w) as [[r0| |] w1]; try (intros H; inv H; discriminate).
  destruct (add_record (mkstate [] []) r0 None) as [[t0 root]| |] eqn:HA; [| |vm_compute in HA; discriminate]; try (intros H; inv H; discriminate).
  destruct (add_secondaries zero stopping_condition generate_id processes t0 root r0 _ 0 w1 [] []) as [[[q tr0]|] w2] eqn:HX; [|intros H; inv H; discriminate].
  destruct (secondaries_loop _ _ _ _ _ fuel t0 q w2 tr0) as [[e w3]|] eqn:HL; [|discriminate].
  pose proof (loop_safe _ _ _ _ _ _ _ (root_inv _ _ _ _ _ _ _ HA HX) HL) as N.
  destruct e; intros H; inv H; congruence.
Qed.

Definition is_registered (ty : Z) : Prop := map_find processes ty <> None.

Theorem event_faithful fuel c w t number tr c' w' :
  generate_event zero sample_primary sample_secondary stopping_condition generate_id processes fuel c w
    = Some (Event t number tr, c', w') ->
  Z.of_nat (length (st_tree t)) <= kNoParent ->
  exists rows, shows t rows /\ faithful is_registered rows tr /\ times_agree rows tr /\
    made_from_slots (create_secondary zero generate_id) sample_secondary (map_find processes) rows tr.
Proof.
  unfold generate_event. destruct (events_to_inject c <=? injection_attempts c); [discriminate|].
  unfold build_event. destruct (sample_primary w) as [[r| |] w1]; try discriminate.
  destruct (add_record (mkstate [] []) r None) as [[t0 root]| |] eqn:HA; try discriminate.
  destruct (add_secondaries zero stopping_condition generate_id processes t0 root r _ 0 w1 [] []) as [[[q tr0]|] w2] eqn:HX; [|discriminate].
  destruct (secondaries_loop _ _ _ _ _ fuel t0 q w2 tr0) as [[[t1 tr1| | |] w3]|] eqn:HL; try discriminate.
  intros H L. inv H. pose proof (root_inv _ _ _ _ _ _ _ HA HX) as G0.
  pose proof (loop_inv _ _ _ _ _ _ _ _ G0 HL) as G. clear HL HA HX G0.
  assert (LT : length (st_tree t) = length (st_heap t)) by (rewrite (g_tree _ _ _ G), map_length, seq_length; auto).
  assert (KN : Z.of_nat (length (st_heap t)) <= kNoParent) by lia.
  destruct (built_well_formed _ _ (g_built _ _ _ G)) as [rows [SH [WF LR]]]; [rewrite seq_length; auto|].
  rewrite seq_length in LR.
  assert (SMALL : forall k, (k < length (st_heap t))%nat -> to_u32 (Z.of_nat k) = Z.of_nat k).
  { intros k Hk. apply to_u32_small. unfold kNoParent in *. lia. }
  assert (AT : forall k d, nth_error (st_heap t) k = Some d -> at_pos rows (Z.of_nat k) (d_record d, d_node_id d, d_parent d, d_daughters d)).
  { intros k d Hk. split; [lia|]. rewrite Nat2Z.id.
    assert (Hlt : (k < length (st_heap t))%nat) by (apply nth_error_Some; congruence).
    assert (HN : nth_error (st_tree t) k = Some (Some k)).
    { rewrite (g_tree _ _ _ G). rewrite nth_error_map.
      rewrite (nth_error_nth' (seq 0 (length (st_heap t))) 0%nat) by (rewrite seq_length; auto).
      rewrite seq_nth by auto. auto. }
    clear -SH HN Hk. unfold shows in SH. remember (st_tree t) as l. clear Heql. revert HN. generalize k at 1 3 as j.
    induction SH as [|e x l rows HE SH IH]; intros j HN; [destruct j; discriminate|].
    destruct j as [|j]; cbn in *; auto. inv HN. destruct HE as [p [d0 [E [E0 ->]]]]. inv E. congruence. }
  assert (AT2 : forall k x, at_pos rows (Z.of_nat k) x -> exists d, nth_error (st_heap t) k = Some d /\ x = (d_record d, d_node_id d, d_parent d, d_daughters d)).
  { intros k x A. pose proof (at_pos_range _ _ _ A) as R. destruct (nth_error (st_heap t) k) as [d|] eqn:E.
    - exists d. split; auto. eapply at_pos_fun; eauto.
    - apply nth_error_None in E. lia. }
  assert (RS : forall p i, In (p, i) (asked tr) <-> registered_slot is_registered rows p i).
  { intros p i. rewrite (g_asked _ _ _ G), slots_in. rewrite Nat.sub_0_r. unfold registered_slot. split.
    - intros [ts [_ [E I]]]. apply regslots_in in I. destruct I as [ty [_ [E2 R]]]. rewrite Nat.sub_0_r in E2.
      rewrite nth_error_map in E. destruct (nth_error (st_heap t) p) as [d|] eqn:Ed; [|discriminate]. inv E.
      exists (d_record d, d_node_id d, d_parent d, d_daughters d), ty. split; [apply AT; auto|]. split; auto.
      unfold is_registered. unfold reg in R. destruct (map_find processes ty); congruence.
    - intros [x [ty [A [E R]]]]. destruct (AT2 _ _ A) as [d [Ed ->]]. exists (types d). split; [lia|].
      rewrite nth_error_map, Ed. split; auto. apply regslots_in. exists ty. rewrite Nat.sub_0_r. split; [lia|]. split; auto.
      unfold reg. unfold is_registered in R. destruct (map_find processes ty); congruence. }
  assert (PM : Permutation (map slot_of (productions tr)) (let_through tr)).
  { rewrite <- (g_perm _ _ _ G). cbn. rewrite app_nil_r. auto. }
  assert (NA : NoDup (asked tr)) by (rewrite (g_asked _ _ _ G); apply slots_nodup).
  exists rows. split; auto. split.
  - split; auto.
    + destruct (g_root _ _ _ G) as [d [E Pd]]. exists (d_record d, d_node_id d, d_parent d, d_daughters d).
      split; [apply (AT 0%nat); auto|auto].
    + rewrite (g_children _ _ _ G), LR. auto.
    + intros p i c0 I. destruct (g_prods _ _ _ G _ _ _ I) as [Lpc [d [E Pd]]]. split; auto. split.
      * apply RS. apply let_through_asked. eapply Permutation_in; [exact PM|]. apply (in_map slot_of) in I. auto.
      * eexists. split; [apply AT; eauto|]. cbn. rewrite Pd. apply SMALL.
        assert (c0 < length (st_heap t))%nat by (apply nth_error_Some; congruence). lia.
    + eapply Permutation_NoDup; [apply Permutation_sym; exact PM|]. apply let_through_nodup. auto.
  - split.
    + intros p i c0 x y I A B Hi. destruct (AT2 _ _ A) as [dp [Ep ->]]. destruct (AT2 _ _ B) as [dc [Ec ->]]. cbn in *.
      eapply (g_times _ _ _ G); eauto.
    + intros p i c0 I.
      destruct (g_src _ _ _ G _ _ _ I) as [dp [dc [par [sec [pr [made [w3 [w4 [Ep [Ec [S1 [[w1' [w2' CR]] [MF [SS S2]]]]]]]]]]]]]].
      pose proof (create_type _ _ _ _ _ CR) as CT.
      eexists _, _, par, sec, made, (primary_type (r_signature sec)), pr, w1', w2', w3, w4.
      split; [apply AT; exact Ep|]. split; [apply AT; exact Ec|]. cbn.
      repeat split; auto. destruct S1 as [l S1]. rewrite S1 in CT. exact CT.
Qed.
End Event.

(** ** Counters *)
Definition counters_ok (c : counters) : Prop :=
  0 <= injected_events c <= injection_attempts c /\ injection_attempts c <= events_to_inject c < 4294967296.

Lemma history_ok c : counter_history c -> counters_ok c.
Proof.
  unfold counters_ok. induction 1 as [n|D zero W sp P ss stop gid procs fuel c w r c' w' H IH E|c H IH].
  - cbn. unfold u32. pose proof (Z.mod_pos_bound n 4294967296). lia.
  - unfold generate_event in E.
    destruct (Z.leb_spec (events_to_inject c) (injection_attempts c)) as [L|L]; [inv E; auto|].
    assert (A : u32 (injection_attempts c + 1) = injection_attempts c + 1) by (apply Z.mod_small; lia).
    assert (B : u32 (injected_events c + 1) = injected_events c + 1) by (apply Z.mod_small; lia).
    destruct (build_event _ _ _ _ _ _ _ _) as [[[t tr| | |] w1]|]; inv E; cbn; rewrite ?A, ?B; lia.
  - cbn. lia.
Qed.

Lemma refuses_iff D zero W sp P ss stop gid procs fuel c w :
  events_to_inject c <= injection_attempts c <->
  @generate_event D zero W sp P ss stop gid procs fuel c w = Some (Refused, c, w).
Proof.
  unfold generate_event. destruct (Z.leb_spec (events_to_inject c) (injection_attempts c)) as [L|L].
  - split; auto.
  - split; [lia|]. destruct (build_event _ _ _ _ _ _ _ _) as [[[t tr| | |] w1]|]; discriminate.
Qed.

Lemma refused_only D zero W sp P ss stop gid procs fuel c w c' w' :
  @generate_event D zero W sp P ss stop gid procs fuel c w = Some (Refused, c', w') ->
  events_to_inject c <= injection_attempts c.
Proof.
  unfold generate_event. destruct (Z.leb_spec (events_to_inject c) (injection_attempts c)) as [L|L]; auto.
  destruct (build_event _ _ _ _ _ _ _ _) as [[[t tr| | |] w1]|]; discriminate.
Qed.

Lemma counted D zero W sp P ss stop gid procs fuel c w r c' w' :
  counter_history c ->
  @generate_event D zero W sp P ss stop gid procs fuel c w = Some (r, c', w') ->
  r <> Refused ->
  injection_attempts c' = injection_attempts c + 1 /\ events_to_inject c' = events_to_inject c /\
  match r with
  | Event t n tr => n = injected_events c /\ injected_events c' = injected_events c + 1
  | _ => injected_events c' = injected_events c
  end.
Proof.
  intros H E N. apply history_ok in H. unfold counters_ok in H. unfold generate_event in E.
  destruct (Z.leb_spec (events_to_inject c) (injection_attempts c)) as [L|L]; [inv E; congruence|].
  assert (A : u32 (injection_attempts c + 1) = injection_attempts c + 1) by (apply Z.mod_small; lia).
  assert (B : u32 (injected_events c + 1) = injected_events c + 1) by (apply Z.mod_small; lia).
  destruct (build_event _ _ _ _ _ _ _ _) as [[[t tr| | |] w1]|]; inv E; cbn; rewrite ?A, ?B; auto.
Qed.

(** An injector whose only attempt fails. *)
Lemma bool_not_safe :
  exists (c : counters), counter_history c /\ can_inject c = true /\
  forall D zero W sp P ss stop gid procs fuel w,
    @generate_event D zero W sp P ss stop gid procs fuel c w = Some (Refused, c, w).
Proof.
  exists (mkcnt 1 1 0). split; [|split; [reflexivity|]].
  - eapply (ch_generate Z 0 unit (fun w => (Failed, w)) unit (fun _ _ w => (Failed, w)) (fun _ _ _ w => (true, w))
            (fun w => (mkid false 0 0, w)) [] 0 (new_counters 1) tt EmptyEvent).
    + apply (ch_new 1).
    + reflexivity.
  - intros. apply refuses_iff. cbn. lia.
Qed.

Lemma bool_zero_quota :
  counter_history (new_counters 0) /\ can_inject (new_counters 0) = true /\
  forall D zero W sp P ss stop gid procs fuel w,
    @generate_event D zero W sp P ss stop gid procs fuel (new_counters 0) w = Some (Refused, new_counters 0, w).
Proof. split; [constructor|]. split; [reflexivity|]. intros. apply refuses_iff. cbn. lia. Qed.

Lemma bool_safe_without_failures c :
  counter_history c -> injection_attempts c = injected_events c -> events_to_inject c <> 0 ->
  can_inject c = true ->
  forall D zero W sp P ss stop gid procs fuel w c' w',
    @generate_event D zero W sp P ss stop gid procs fuel c w <> Some (Refused, c', w').
Proof.
  intros H E N B D zero W sp P ss stop gid procs fuel w c' w' R. apply refused_only in R.
  unfold can_inject in B. apply orb_true_iff in B. destruct B as [B|B]; [apply Z.eqb_eq in B; lia|apply Z.ltb_lt in B; lia].
Qed.

Lemma bool_false_at_quota c :
  counter_history c -> can_inject c = false ->
  forall D zero W sp P ss stop gid procs fuel w,
    @generate_event D zero W sp P ss stop gid procs fuel c w = Some (Refused, c, w).
Proof.
  intros H B D zero W sp P ss stop gid procs fuel w. apply refuses_iff. apply history_ok in H. unfold counters_ok in H.
  unfold can_inject in B. apply orb_false_iff in B. destruct B as [_ B]. apply Z.ltb_ge in B. lia.
Qed.

(** ** Registries *)
Section Registry.
Context {Dist : Type} (is_vertex : Dist -> bool).

Lemma find_app {A} (f : A -> bool) l1 l2 :
  find f (l1 ++ l2) = match find f l1 with Some x => Some x | None => find f l2 end.
Proof. induction l1; cbn; auto. destruct (f a); auto. Qed.

Definition lookup_type (l : list (sec_process Dist)) ty : option (sec_process Dist) :=
  find (fun p => sp_type p =? ty) l.

Lemma map_find_insert {A} (m : list (Z * A)) k x j :
  map_find (map_insert m k x) j =
  match map_find m j with Some y => Some y | None => if k =? j then Some x else None end.
Proof.
  unfold map_insert. destruct (map_find m k) as [y|] eqn:E.
  - destruct (Z.eqb_spec k j) as [->|N]; [rewrite E; auto|]. destruct (map_find m j); auto.
  - unfold map_find in *. rewrite find_app. destruct (find (fun e => fst e =? j) m) eqn:F; auto.
    cbn. destruct (k =? j); auto.
Qed.

Definition reg_ok (g : registry Dist) : Prop :=
  map (find_vertex is_vertex) (rg_processes g) = map Some (rg_vertices g) /\
  (forall ty, map_find (rg_process_map g) ty = lookup_type (rg_processes g) ty) /\
  (forall ty, map_find (rg_vertex_map g) ty =
     match lookup_type (rg_processes g) ty with Some p => find_vertex is_vertex p | None => None end).

Lemma reg_ok_empty : reg_ok empty_registry.
Proof. split; [|split]; reflexivity. Qed.

Lemma add_ok g p g' : reg_ok g -> add_secondary_process is_vertex g p = Registered g' ->
  reg_ok g' /\ rg_processes g' = rg_processes g ++ [p].
Proof.
  intros [H1 [H2 H3]]. unfold add_secondary_process.
  destruct (find_vertex is_vertex p) as [v|] eqn:E; [|discriminate]. intros H. inv H. cbn. split; auto.
  split; [|split]; cbn.
  - rewrite !map_app, H1. cbn. rewrite E. auto.
  - intros ty. rewrite map_find_insert, H2. unfold lookup_type. rewrite find_app.
    destruct (find _ (rg_processes g)); auto.
  - intros ty. rewrite map_find_insert, H3. unfold lookup_type. rewrite find_app.
    destruct (find _ (rg_processes g)) as [q|] eqn:F.
    + assert (I : In q (rg_processes g)) by (apply find_some in F; tauto).
      assert (IN : In (find_vertex is_vertex q) (map Some (rg_vertices g))) by (rewrite <- H1; apply in_map; auto).
      apply in_map_iff in IN. destruct IN as [v' [<- _]]. auto.
    + cbn. destruct (sp_type p =? ty); auto.
Qed.

Lemma add_all_ok l : forall g g', reg_ok g -> add_all is_vertex g l = Registered g' ->
  reg_ok g' /\ rg_processes g' = rg_processes g ++ l.
Proof.
  induction l as [|p l IH]; intros g g' H E; cbn in E.
  - inv E. rewrite app_nil_r. auto.
  - destruct (add_secondary_process is_vertex g p) as [g1|] eqn:A; [|discriminate].
    destruct (add_ok _ _ _ H A) as [H1 E1]. destruct (IH _ _ H1 E) as [H2 E2]. split; auto.
    rewrite E2, E1, <- app_assoc. auto.
Qed.

Lemma run_calls_ok l : forall g g', reg_ok g -> run_calls is_vertex g l = Registered g' ->
  reg_ok g' /\ rg_processes g' =
    fold_left (fun acc c => match c with CallAdd p => acc ++ [p] | CallSet ps => ps end) l (rg_processes g).
Proof.
  induction l as [|c l IH]; intros g g' H E; cbn in E.
  - inv E. auto.
  - destruct c as [p|ps].
    + destruct (add_secondary_process is_vertex g p) as [g1|] eqn:A; [|discriminate].
      destruct (add_ok _ _ _ H A) as [H1 E1]. destruct (IH _ _ H1 E) as [H2 E2]. cbn. rewrite <- E1. auto.
    + unfold set_secondary_processes in E.
      destruct (add_all is_vertex empty_registry ps) as [g1|] eqn:A; [|discriminate].
      destruct (add_all_ok _ _ _ reg_ok_empty A) as [H1 E1]. destruct (IH _ _ H1 E) as [H2 E2].
      cbn in *. rewrite <- E1. auto.
Qed.

Lemma find_first {A} (f : A -> bool) l x : find f l = Some x ->
  exists l1 l2, l = l1 ++ x :: l2 /\ f x = true /\ Forall (fun y => f y = false) l1.
Proof.
  induction l as [|y l IH]; cbn; [discriminate|]. destruct (f y) eqn:E; intros H.
  - inv H. exists [], l. auto.
  - destruct (IH H) as [l1 [l2 [-> [F G]]]]. exists (y :: l1), l2. auto.
Qed.

Lemma lookup_first l ty p : lookup_type l ty = Some p <-> first_of_type l ty p.
Proof.
  unfold lookup_type, first_of_type. split.
  - intros H. apply find_first in H. destruct H as [l1 [l2 [-> [F G]]]]. exists l1, l2. apply Z.eqb_eq in F.
    repeat split; auto. eapply Forall_impl; [|exact G]. cbn. intros q Hq. apply Z.eqb_neq in Hq. auto.
  - intros [l1 [l2 [-> [F G]]]]. rewrite find_app. cbn.
    assert (N : find (fun p0 => sp_type p0 =? ty) l1 = None).
    { induction G as [|q l1 Hq G IH]; cbn; auto. apply Z.eqb_neq in Hq. rewrite Hq. auto. }
    rewrite N. apply Z.eqb_eq in F. rewrite F. auto.
Qed.

Theorem registries_ok l g : run_calls is_vertex empty_registry l = Registered g ->
  rg_processes g = in_force l /\
  Forall2 (vertex_of is_vertex) (rg_processes g) (rg_vertices g) /\
  (forall ty p, map_find (rg_process_map g) ty = Some p <-> first_of_type (in_force l) ty p) /\
  (forall ty v, map_find (rg_vertex_map g) ty = Some v <->
     exists p, first_of_type (in_force l) ty p /\ vertex_of is_vertex p v).
Proof.
  intros H. destruct (run_calls_ok _ _ _ reg_ok_empty H) as [[H1 [H2 H3]] E]. cbn in E.
  change (rg_processes g = in_force l) in E.
  assert (VO : forall p v, find_vertex is_vertex p = Some v <-> vertex_of is_vertex p v).
  { intros p v. unfold find_vertex, vertex_of. split.
    - apply find_first.
    - intros [l1 [l2 [-> [F G]]]]. rewrite find_app.
      assert (N : find is_vertex l1 = None) by (induction G as [|q l1 Hq G IH]; cbn; auto; rewrite Hq; auto).
      rewrite N. cbn. rewrite F. auto. }
  split; auto. split; [|split].
  - clear -H1 VO. revert H1. generalize (rg_vertices g). induction (rg_processes g) as [|p ps IH]; intros [|v vs] H; cbn in H; try discriminate; constructor.
    + apply VO. inv H. auto.
    + apply IH. inv H. auto.
  - intros ty p. rewrite H2, E. apply lookup_first.
  - intros ty v. rewrite H3, E. split.
    + destruct (lookup_type (in_force l) ty) as [p|] eqn:F; [|discriminate]. intros V. exists p.
      split; [apply lookup_first; auto|apply VO; auto].
    + intros [p [F V]]. apply lookup_first in F. rewrite F. apply VO. auto.
Qed.

(** A call sequence ends the program exactly when it offers a process without a
    vertex distribution. *)
Definition offered (c : reg_call Dist) : list (sec_process Dist) :=
  match c with CallAdd p => [p] | CallSet ps => ps end.

Lemma add_all_exit l : forall g, add_all is_vertex g l = Exited <-> Exists (fun p => forall v, ~ vertex_of is_vertex p v) l.
Proof.
  assert (NV : forall p, find_vertex is_vertex p = None <-> forall v, ~ vertex_of is_vertex p v).
  { intros p. unfold find_vertex, vertex_of. split.
    - intros H v [l1 [l2 [E [F G]]]]. assert (I : In v (sp_dists p)) by (rewrite E; apply in_elt).
      apply (find_none _ _ H) in I. congruence.
    - intros H. destruct (find is_vertex (sp_dists p)) as [v|] eqn:E; auto. apply find_first in E. exfalso. eapply H; eauto. }
  induction l as [|p l IH]; intros g; cbn.
  - split; [discriminate|]. intros H. inv H.
  - unfold add_secondary_process. destruct (find_vertex is_vertex p) as [v|] eqn:E.
    + rewrite IH. split; [right; auto|]. intros H. inv H; auto. apply NV in H1. congruence.
    + split; auto. intros _. left. apply NV. auto.
Qed.

Theorem registries_exit l : run_calls is_vertex empty_registry l = Exited <->
  Exists (fun p => forall v, ~ vertex_of is_vertex p v) (flat_map offered l).
Proof.
  generalize (@empty_registry Dist). induction l as [|c l IH]; intros g; cbn.
  - split; [discriminate|]. intros H. inv H.
  - rewrite Exists_app. destruct c as [p|ps]; cbn.
    + pose proof (add_all_exit [p] g) as X. cbn in X.
      destruct (add_secondary_process is_vertex g p) as [g1|] eqn:A.
      * rewrite IH. split; auto. intros [H|H]; auto. apply X in H. discriminate.
      * split; auto. intros _. left. apply X. auto.
    + unfold set_secondary_processes. pose proof (add_all_exit ps empty_registry) as X.
      destruct (add_all is_vertex empty_registry ps) as [g1|] eqn:A.
      * rewrite IH. split; auto. intros [H|H]; auto. apply X in H. discriminate.
      * split; auto. intros _. left. apply X. auto.
Qed.
End Registry.

(** ** A concrete event: a primary with secondaries of types 1, 2 and 1; type 1 is
    registered and decays into types 2 and 3; 3 is registered with no secondaries.
    The stopping condition stops slot 2 of the root. *)
Definition ex_rec (ty : Z) (secs : list Z) (tm : Z) : interaction_record Z :=
  mkrec (mksig ty 0 secs) (mkid true 1 1) [0; 0; 0] tm 0 [1; 0; 0; 1] 0 (mkid false 0 0) 0 0 [0; 0; 0] tm
        (map (fun _ => mkid true 1 2) secs) (map (fun _ => 0) secs) (map (fun _ => [1; 0; 0; 1]) secs)
        (map (fun _ => 0) secs) (map (fun _ => tm) secs) [].

Definition ex_event : option (event_result Z * counters * Z) :=
  generate_event 0 (fun w => (Done (ex_rec 9 [1; 2; 1] 5), w + 1))
    (fun p s w => (Done (ex_rec (primary_type (r_signature (snd s))) (if p =? 1 then [2; 3] else []) (w + 10)), w + 1))
    (fun t p i w => (Nat.eqb p 0 && Nat.eqb i 2, w)) (fun w => (mkid true 7 w, w + 1))
    [(1, 1); (3, 3)] 5 (new_counters 2) 0.
