(** The names of GDML definitions: the flattened map. *)
From Coq Require Import List Bool Arith Lia Ascii String.
From Verif Require Import GdmlModel GdmlProofs GdmlLoopModel InstModel InstSpec InstProofs InstStore.
Import ListNotations.
Open Scope char_scope.

Section Flat.
Context {T : Type}.
Variable set_name : T -> list ascii -> T.

Lemma spread_in : forall n vec i d j v, nth_error vec j = Some v ->
  spread set_name n i vec d (flat n (i + j)) = Some (set_name v (flat n (i + j))).
Proof.
  assert (O : forall n vec i d k, (forall j, (j < List.length vec)%nat -> k <> flat n (i + j)) -> spread set_name n i vec d k = d k).
  { intros n. induction vec as [|w vec IH]; intros i d k H; cbn [spread]; [reflexivity|].
    rewrite IH.
    - apply put_other. specialize (H 0%nat). rewrite Nat.add_0_r in H. apply H. cbn. lia.
    - intros j J. replace (S i + j)%nat with (i + S j)%nat by lia. apply H. cbn. lia. }
  intros n. induction vec as [|w vec IH]; intros i d j v H; [destruct j; discriminate|]. cbn [spread]. destruct j as [|j].
  - injection H as ->. rewrite Nat.add_0_r. rewrite O.
    + apply put_same.
    + intros j J E. apply flat_parts in E as [_ E]. lia.
  - replace (i + S j)%nat with (S i + j)%nat by lia. now apply IH.
Qed.
Lemma spread_out : forall n vec i d k, (forall j, (j < List.length vec)%nat -> k <> flat n (i + j)) -> spread set_name n i vec d k = d k.
Proof.
  intros n. induction vec as [|w vec IH]; intros i d k H; cbn [spread]; [reflexivity|].
  rewrite IH.
  - apply put_other. specialize (H 0%nat). rewrite Nat.add_0_r in H. apply H. cbn. lia.
  - intros j J. replace (S i + j)%nat with (i + S j)%nat by lia. apply H. cbn. lia.
Qed.

Lemma spread_all_out : forall st keys d k,
  (forall n j, In n keys -> (j < List.length (instances st n))%nat -> k <> flat n j) -> spread_all set_name st keys d k = d k.
Proof.
  intros st keys. unfold spread_all. induction keys as [|m keys IH]; intros d k H; cbn [fold_left]; [reflexivity|].
  rewrite IH by (intros; apply H; [now right|assumption]).
  apply spread_out. intros j J. apply H; [now left|exact J].
Qed.
Lemma spread_all_in : forall st keys d n j v, NoDup keys -> In n keys -> nth_error (instances st n) j = Some v ->
  spread_all set_name st keys d (flat n j) = Some (set_name v (flat n j)).
Proof.
  intros st keys. unfold spread_all. induction keys as [|m keys IH]; intros d n j v ND I E; [contradiction|].
  cbn [fold_left]. inversion ND as [|? ? N1 N2]. subst. destruct I as [->|I].
  - fold (spread_all set_name st keys (spread set_name n 0 (instances st n) d)).
    rewrite spread_all_out.
    + now apply (spread_in n (instances st n) 0).
    + intros m i I _ Q. apply flat_parts in Q as [-> _]. contradiction.
  - now apply IH.
Qed.

(** One rename touches two keys. *)
Lemma rename_one_out : forall d n k, k <> n -> k <> flat n 0 -> rename_one set_name d n k = d k.
Proof.
  intros d n k A B. unfold rename_one. destruct (d (flat n 0)); [|reflexivity].
  rewrite put_other by exact A. unfold erase. now rewrite seq_neq.
Qed.
Lemma rename_all_out : forall order d k, (forall n, In n order -> k <> n /\ k <> flat n 0) -> rename_all set_name order d k = d k.
Proof.
  unfold rename_all. induction order as [|m order IH]; intros d k H; cbn [fold_left]; [reflexivity|].
  rewrite IH by (intros; apply H; now right). destruct (H m) as [A B]; [now left|]. now apply rename_one_out.
Qed.
Lemma rename_all_in : forall order d n v, NoDup order -> (forall a b, In a order -> In b order -> a <> flat b 0) ->
  In n order -> d (flat n 0) = Some v -> rename_all set_name order d n = Some (set_name v n).
Proof.
  unfold rename_all. induction order as [|m order IH]; intros d n v ND C I E; [contradiction|].
  inversion ND as [|? ? N1 N2]. subst. cbn [fold_left]. destruct I as [->|I].
  - fold (rename_all set_name order (rename_one set_name d n)). rewrite rename_all_out.
    + unfold rename_one. rewrite E. apply put_same.
    + intros m I. split; [intros ->; contradiction|]. apply C; [now left|now right].
  - apply IH; [exact N2|intros; apply C; now right|exact I|].
    rewrite rename_one_out; [exact E| |].
    + intros Q. symmetry in Q. revert Q. apply C; [now left|now right].
    + intros Q. apply flat_parts in Q as [-> _]. contradiction.
Qed.

Variable same_item : T -> T -> bool.
Variable en : bool.
Variable al : list ascii -> option (list ascii).
Variable log : list (list ascii * T).
Variable st : tracker T.
Hypothesis H : holds same_item en al log st.
Hypothesis NC : no_clash en log.
Variable keys order : list (list ascii).
Hypothesis K : names_of en log keys.
Hypothesis O1 : NoDup order.
Hypothesis O2 : forall n, In n order <-> In n keys /\ List.length (instances st n) = 1%nat.
Hypothesis SN : forall t a b, set_name (set_name t a) b = set_name t b.

Lemma key_of : forall b, In b keys <-> instances st b <> [].
Proof. intros b. destruct K as [_ K2]. rewrite K2. exact (defined_instances _ _ _ _ _ b H). Qed.
Lemma apart : forall a b i, In a keys -> In b keys -> a <> flat b i.
Proof.
  intros a b i A B E. destruct K as [_ K2]. rewrite K2 in A, B. apply (NC b a B A). rewrite E. apply flat_numbered.
Qed.

Lemma flatten_sole : forall d b u, instances st b = [u] -> flatten set_name st keys order d b = Some (set_name u b).
Proof.
  intros d b u E. assert (B : In b keys) by (apply key_of; rewrite E; discriminate).
  unfold flatten. rewrite (rename_all_in order _ b (set_name u (flat b 0))).
  - now rewrite SN.
  - exact O1.
  - intros a c A C. apply O2 in A as [A _]. apply O2 in C as [C _]. now apply apart.
  - apply O2. split; [exact B|now rewrite E].
  - apply spread_all_in; [exact (proj1 K)|exact B|now rewrite E].
Qed.
Lemma flatten_many : forall d b i u, List.length (instances st b) <> 1%nat -> nth_error (instances st b) i = Some u ->
  flatten set_name st keys order d (flat b i) = Some (set_name u (flat b i)).
Proof.
  intros d b i u L E. assert (B : In b keys) by (apply key_of; intros Q; rewrite Q in E; destruct i; discriminate).
  unfold flatten. rewrite rename_all_out.
  - apply spread_all_in; [exact (proj1 K)|exact B|exact E].
  - intros n I. apply O2 in I as [I1 I2]. split.
    + intros Q. symmetry in Q. revert Q. now apply apart.
    + intros Q. apply flat_parts in Q as [-> _]. contradiction.
Qed.
Lemma flatten_other : forall d k, (forall b, defined en log b -> k <> b /\ ~ numbered b k) -> flatten set_name st keys order d k = d k.
Proof.
  intros d k F. unfold flatten. rewrite rename_all_out.
  - apply spread_all_out. intros n j I _ Q. destruct K as [_ K2]. apply K2 in I. destruct (F _ I) as [_ F2]. apply F2.
    rewrite Q. apply flat_numbered.
  - intros n I. apply O2 in I as [I _]. destruct K as [_ K2]. apply K2 in I. destruct (F _ I) as [F1 F2].
    split; [exact F1|]. intros Q. apply F2. rewrite Q. apply flat_numbered.
Qed.

Lemma rename_flat : forall b i, In b keys ->
  renames st keys (flat b i) = (if sole st b && (i =? 0)%nat then Some b else None).
Proof.
  intros b i B. unfold renames. destruct (sole st b && (i =? 0)%nat) eqn:Q.
  - apply andb_prop in Q as [Q1 Q2]. apply Nat.eqb_eq in Q2. subst i.
    destruct (List.find _ keys) as [m|] eqn:F.
    + apply find_some in F as [_ F]. apply andb_prop in F as [_ F]. apply str_eqb_eq in F.
      apply flat_parts in F as [-> _]. reflexivity.
    + exfalso. pose proof (find_none _ _ F b B) as X. cbn beta in X. rewrite Q1, seq_refl in X. discriminate.
  - destruct (List.find _ keys) as [m|] eqn:F; [|reflexivity].
    exfalso. apply find_some in F as [_ F]. apply andb_prop in F as [F1 F2]. apply str_eqb_eq in F2.
    apply flat_parts in F2 as [-> E]. rewrite F1, <- E in Q. discriminate.
Qed.

(** The key that a flattened name has in the end. *)
Lemma final_key : forall d b i u, nth_error (instances st b) i = Some u ->
  exists k, (match renames st keys (flat b i) with Some c => c | None => flat b i end) = k /\
    flatten set_name st keys order d k = Some (set_name u k) /\ (k = b \/ numbered b k).
Proof.
  intros d b i u E. assert (B : In b keys) by (apply key_of; intros Q; rewrite Q in E; destruct i; discriminate).
  rewrite rename_flat by exact B. unfold sole. destruct (List.length (instances st b) =? 1)%nat eqn:L; cbn [andb].
  - apply Nat.eqb_eq in L. destruct (instances st b) as [|v [|w l]] eqn:I; try discriminate.
    destruct i as [|i]; [|destruct i; discriminate]. injection E as ->. cbn [Nat.eqb]. exists b.
    split; [reflexivity|split; [now apply flatten_sole|now left]].
  - apply Nat.eqb_neq in L. exists (flat b i). split; [reflexivity|split; [now apply flatten_many|right; apply flat_numbered]].
Qed.

Lemma count_of : forall b, In b keys -> instance_counts st keys b = Some (List.length (instances st b)).
Proof.
  intros b B. unfold instance_counts. destruct (existsb (str_eqb b) keys) eqn:E; [reflexivity|].
  exfalso. assert (X : existsb (str_eqb b) keys = true) by (apply existsb_exists; exists b; split; [exact B|apply seq_refl]).
  congruence.
Qed.
Lemma count_none : forall b, ~ In b keys -> instance_counts st keys b = None.
Proof.
  intros b B. unfold instance_counts. destruct (existsb (str_eqb b) keys) eqn:E; [|reflexivity].
  apply existsb_exists in E as (x & I & E). apply str_eqb_eq in E. subst x. contradiction.
Qed.

(** A suffixed name is no numbered instance of its base. *)
Lemma suffix_not_flat : forall o i, strip en o <> o -> flat (strip en o) i <> o /\ strip en o <> o.
Proof.
  intros o i N. split; [|exact N]. destruct (strip_cons _ _ N) as [_ [h E]]. intros Q. unfold flat in Q.
  rewrite E in Q at 2. apply app_inv_head in Q. discriminate.
Qed.

Lemma reference_right : forall d raw t, raw <> [] -> (forall o, al o <> None -> strip en o <> o) -> latest log raw t ->
  match reference (flatten_aliases st keys) (instance_counts st keys) raw with
  | Val k => exists u, flatten set_name st keys order d k = Some (set_name u k) /\ same same_item u t
  | Thrown => exists o1 t1 o2 t2, In (o1, t1) log /\ In (o2, t2) log /\ base en o1 raw /\ base en o2 raw /\ same_item t1 t2 = false
  end.
Proof.
  intros d raw t NE AL L.
  assert (IL : In (raw, t) log) by (destruct L as (l1 & l2 & -> & _); apply in_or_app; right; now left).
  destruct (list_eq_dec ascii_dec (strip en raw) raw) as [S|S].
  - (* a bare name *)
    assert (A : flatten_aliases st keys raw = None).
    { unfold flatten_aliases. rewrite (h_other _ _ _ _ _ H raw S). destruct (al raw) eqn:Q; [|reflexivity].
      exfalso. apply (AL raw); [now rewrite Q|exact S]. }
    unfold reference. rewrite A, seq_refl. cbn [negb andb]. rewrite (seq_neq raw [] NE). cbn [negb].
    destruct (h_all _ _ _ _ _ H _ _ IL) as (u & U & SU). rewrite S in U.
    assert (B : In raw keys) by (apply key_of; intros Q; rewrite Q in U; contradiction).
    rewrite (count_of _ B). destruct (instances st raw) as [|v [|w l]] eqn:I; [contradiction| |].
    + cbn. destruct U as [->|[]]. exists u. split; [now apply flatten_sole|exact SU].
    + cbn [List.length Nat.ltb]. cbn.
      destruct (h_stored _ _ _ _ _ H raw v) as (o1 & A1 & A2); [rewrite I; now left|].
      destruct (h_stored _ _ _ _ _ H raw w) as (o2 & B1 & B2); [rewrite I; right; now left|].
      exists o1, v, o2, w. split; [exact A1|split; [exact B1|split; [now apply base_strip|split; [now apply base_strip|]]]].
      apply (h_apart _ _ _ _ _ H raw 0); rewrite I; reflexivity.
  - (* a pointer suffix *)
    destruct (h_alias _ _ _ _ _ H _ _ L S) as (i & u & A & B & C).
    destruct (final_key d _ _ _ B) as (k & K1 & K2 & K3).
    assert (A' : flatten_aliases st keys raw = Some k).
    { unfold flatten_aliases. rewrite A. destruct (renames st keys (flat (strip en raw) i)); now rewrite K1. }
    unfold reference. rewrite A'. assert (N : k <> raw).
    { destruct K3 as [->|(ds & E & _)]; [exact S|]. destruct (strip_cons _ _ S) as [_ [h Q]]. intros X. rewrite X in E.
      pose proof (eq_trans (eq_sym Q) E) as Y. apply app_inv_head in Y. discriminate. }
    rewrite (seq_neq _ _ N). cbn [negb andb]. exists u. now split.
Qed.

Lemma lookup_right : forall o t, (forall o, al o <> None -> strip en o <> o) -> latest log o t ->
  (strip en o = o -> latest_of en log o t) ->
  exists u, lookup en st o = Some u /\ same same_item u t.
Proof.
  intros o t AL L LO. unfold lookup. destruct (list_eq_dec ascii_dec (strip en o) o) as [S|S].
  - rewrite (h_other _ _ _ _ _ H o S). destruct (al o) eqn:Q; [exfalso; apply (AL o); [now rewrite Q|exact S]|].
    rewrite S, (h_counts _ _ _ _ _ H). destruct (h_last _ _ _ _ _ H _ _ (LO S)) as (u & U & SU).
    destruct (instances st o) as [|x l] eqn:I; [discriminate|]. exists u. split; [exact U|exact SU].
  - destruct (h_alias _ _ _ _ _ H _ _ L S) as (i & u & A & B & C). rewrite A.
    rewrite parse_back by exact (proj1 (strip_cons _ _ S)). rewrite B. exists u. now split.
Qed.

End Flat.
