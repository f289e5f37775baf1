(** The parsing of GDML solids: lemmas. *)
From Coq Require Import List Bool Arith Lia Ascii String.
From Verif Require Import GdmlModel GdmlProofs GdmlLoopModel InstModel InstSpec InstProofs InstStore DeferModel DeferSpec.
Import ListNotations.

Lemma in_combine_seq : forall A (l : list A) k i x, In (i, x) (combine (seq k (List.length l)) l) <-> (k <= i /\ nth_error l (i - k) = Some x).
Proof.
  induction l as [|y l IH]; intros k i x; cbn [List.length seq combine]; [cbn; split; [intros []|intros [_ H]; destruct (i - k); discriminate]|].
  cbn [In]. rewrite IH. split.
  - intros [E|[L H]]; [injection E as <- <-; split; [lia|now rewrite Nat.sub_diag]|].
    split; [lia|]. replace (i - k) with (S (i - S k)) by lia. exact H.
  - intros [L H]. destruct (Nat.eq_dec i k) as [->|N].
    + rewrite Nat.sub_diag in H. injection H as <-. now left.
    + right. split; [lia|]. replace (i - k) with (S (i - S k)) in H by lia. exact H.
Qed.
Lemma in_indexed : forall A (l : list A) i x, In (i, x) (combine (seq 0 (List.length l)) l) <-> nth_error l i = Some x.
Proof. intros A l i x. rewrite in_combine_seq, Nat.sub_0_r. split; [tauto|split; [lia|assumption]]. Qed.

Lemma done_spec : forall done i, is_done done i = true <-> In i done.
Proof.
  intros done i. unfold is_done. rewrite existsb_exists. split.
  - intros (j & I & E). apply Nat.eqb_eq in E. now subst.
  - intros I. exists i. split; [exact I|apply Nat.eqb_refl].
Qed.

Section Solids.
Context {T : Type}.
Variable eq : T -> T -> bool.
Variable en : bool.
Variable al : list ascii -> option (list ascii).
Variable doc : list (node T).
Hypothesis PLAIN : plain en doc.
Hypothesis ALIAS : forall o, al o <> None -> en = true /\ exists b, suffixed o b.

Lemma mention_strip : forall n, In n (flat_map mentions doc) -> strip en n = n /\ al n = None.
Proof.
  intros n I. pose proof (proj2 PLAIN n I) as B. split; [now apply base_strip|].
  destruct (al n) as [a|] eqn:E; [|reflexivity]. exfalso. destruct (ALIAS n) as (EN & b & S'); [now rewrite E|].
  destruct B as [[_ S2]|[_ NO]]; [|exact (NO EN b S')].
  assert (X : base en n b) by (left; auto). assert (Y : base en n n) by (left; auto).
  apply base_strip in X, Y. assert (Q : b = n) by congruence. rewrite Q in S'. unfold suffixed in S'. clear -S'.
  destruct S' as (hs & E & _ & L & _). apply (f_equal (@List.length _)) in E. rewrite !app_length in E. cbn in E. clear -E. lia.
Qed.

Lemma defines_mentions : forall n, In n (flat_map defines doc) -> In n (flat_map mentions doc).
Proof.
  intros n I. apply in_flat_map in I as (x & X & I). apply in_flat_map. exists x. split; [exact X|].
  destruct x as [[|c m] [g|]|[|c m] f s k|m]; cbn in *; tauto.
Qed.

(** The same name, the same node. *)
Lemma defined_once : forall (d : list (node T)), NoDup (flat_map defines d) -> forall x y n, In x d -> In y d -> In n (defines x) -> In n (defines y) -> x = y.
Proof.
  clear. induction d as [|z d IH]; intros N x y n X Y A B; [destruct X|]. cbn [flat_map] in N.
  assert (APART : forall u, In u d -> In n (defines z) -> In n (defines u) -> False).
  { intros u U D1 D2. revert N D1. generalize (defines z) as q. induction q as [|a q IHq]; cbn; intros N D1; [destruct D1|].
    inversion N as [|? ? N1 N2]. subst. destruct D1 as [->|D1]; [|now apply IHq]. apply N1. apply in_or_app. right.
    apply in_flat_map. now exists u. }
  assert (N2 : NoDup (flat_map defines d)).
  { revert N. generalize (defines z) as q. induction q as [|a q IHq]; cbn; intros N; [exact N|]. inversion N. subst. now apply IHq. }
  destruct X as [<-|X], Y as [<-|Y]; auto.
  - exfalso. eauto.
  - exfalso. eauto.
  - eapply IH; eauto.
Qed.
Lemma denotes_unique : forall n a, denotes doc n a -> forall b, denotes doc n b -> a = b.
Proof using PLAIN.
  assert (U := defined_once doc (proj1 PLAIN)).
  induction 1 as [n g I N|n f s mk a b I N D1 IH1 D2 IH2]; intros c H; inversion H as [n' g' I' N'|n' f' s' mk' a' b' I' N' D1' D2']; subst.
  - assert (E : Primitive n (Some g) = Primitive n (Some c)) by (apply (U _ _ n I I'); destruct n; cbn; auto; contradiction). congruence.
  - assert (E : Primitive n (Some g) = Boolean n f' s' mk') by (apply (U _ _ n I I'); destruct n; cbn; auto; contradiction). discriminate.
  - assert (E : Boolean n f s mk = Primitive n (Some c)) by (apply (U _ _ n I I'); destruct n; cbn; auto; contradiction). discriminate.
  - assert (E : Boolean n f s mk = Boolean n f' s' mk') by (apply (U _ _ n I I'); destruct n; cbn; auto; contradiction).
    injection E as <- <- <-. rewrite (IH1 _ D1'), (IH2 _ D2'). reflexivity.
Qed.

(** What holds of the tracker at any time. *)
Record good (st : tracker T) : Prop := {
  g_single : forall n, instances st n = [] \/ exists t, instances st n = [t] /\ denotes doc n t;
  g_counts : forall n, counts st n = match instances st n with [] => None | l => Some (List.length l) end;
  g_alias : aliases st = al
}.

Lemma fresh_good : good (fresh al).
Proof. constructor; cbn; auto. Qed.

Lemma store_good : forall st n t, good st -> strip en n = n -> instances st n = [] -> denotes doc n t ->
  good (store eq en st n t) /\ forall m, instances (store eq en st n t) m = if str_eqb m n then [t] else instances st m.
Proof.
  intros st n t G S' E D. unfold store. rewrite S', seq_refl, E. cbn [negb rev app List.length].
  assert (I : forall m, instances (mktracker (fun x => if str_eqb x n then [t] else instances st x) (put (counts st) n 1) (aliases st)) m
    = if str_eqb m n then [t] else instances st m) by reflexivity.
  split; [|exact I]. constructor.
  - intros m. rewrite I. destruct (str_eqb m n) eqn:Q; [|apply (g_single _ G)]. apply str_eqb_eq in Q. subst m. right. now exists t.
  - intros m. rewrite I. cbn [counts]. unfold put. destruct (str_eqb m n); [reflexivity|apply (g_counts _ G)].
  - apply (g_alias _ G).
Qed.

Lemma lookup_good : forall st n, good st -> strip en n = n -> al n = None -> lookup en st n = hd_error (instances st n).
Proof.
  intros st n G S' A. unfold lookup. rewrite (g_alias _ G), A, S', (g_counts _ G).
  destruct (g_single _ G n) as [E|(t & E & _)]; now rewrite E.
Qed.

(** ** The first pass *)

Record first_pass (pre : list (node T)) (st : tracker T) (ds : list (deferred T)) : Prop := {
  f_good : good st;
  f_names : forall n, instances st n <> [] -> In n (flat_map defines pre);
  f_primitive : forall n g, In (Primitive n (Some g)) pre -> n <> [] -> instances st n <> [];
  f_boolean : forall n f s mk, In (Boolean n f s mk) pre -> n <> [] -> instances st n <> [] \/ In (mkdeferred n f s 0 0 mk) ds;
  f_deferred : forall d, In d ds -> exists n f s mk, d = mkdeferred n f s 0 0 mk /\ n <> [] /\ In (Boolean n f s mk) pre /\ instances st n = [];
  f_once : NoDup (map d_name ds)
}.

Lemma nodup_prefix : forall A (a b : list A), NoDup (a ++ b) -> forall x, In x a -> ~ In x b.
Proof.
  induction a as [|y a IH]; cbn; intros b N x X Y; [destruct X|]. inversion N as [|? ? N1 N2]. subst.
  destruct X as [->|X]; [apply N1; apply in_or_app; now right|now apply (IH b N2 x)].
Qed.
Lemma nodup_last : forall A (l : list A) x, NoDup l -> ~ In x l -> NoDup (l ++ [x]).
Proof.
  intros A l x N I. induction N as [|y l Y N IH]; cbn; [constructor; [intros []|constructor]|]. constructor.
  - rewrite in_app_iff. intros [Q|[<-|[]]]; [contradiction|]. apply I. now left.
  - apply IH. intros Q. apply I. now right.
Qed.

(** A node that does nothing. *)
Lemma first_skip : forall pre st ds x, first_pass pre st ds -> defines x = [] -> first_pass (pre ++ [x]) st ds.
Proof.
  intros pre st ds x F D. destruct F as [F1 F2 F3 F4 F5 F6]. constructor; auto.
  - intros n I. rewrite flat_map_app, in_app_iff. left. auto.
  - intros n g I N. apply in_app_iff in I as [I|[->|[]]]; [eauto|]. destruct n; [contradiction|discriminate].
  - intros n f s mk I N. apply in_app_iff in I as [I|[->|[]]]; [eauto|]. destruct n; [contradiction|discriminate].
  - intros d I. destruct (F5 _ I) as (n & f & s & mk & E & N & B & Q). exists n, f, s, mk. repeat split; auto. apply in_or_app. now left.
Qed.
(** A node that is stored. *)
Lemma first_store : forall pre post st ds x n t, doc = pre ++ x :: post -> first_pass pre st ds -> defines x = [n] -> denotes doc n t -> n <> [] ->
  first_pass (pre ++ [x]) (store eq en st n t) ds.
Proof.
  intros pre post st ds x n t E F D DEN NE. destruct F as [F1 F2 F3 F4 F5 F6].
  assert (ND : NoDup (flat_map defines pre ++ flat_map defines (x :: post))) by (rewrite <- flat_map_app, <- E; apply PLAIN).
  assert (NEW : ~ In n (flat_map defines pre)).
  { intros I. apply (nodup_prefix _ _ _ ND n I). cbn. rewrite D. now left. }
  assert (EM : instances st n = []) by (destruct (instances st n) eqn:Q; [reflexivity|]; exfalso; apply NEW, F2; rewrite Q; discriminate).
  assert (ST : strip en n = n).
  { apply mention_strip, defines_mentions. rewrite E, flat_map_app. apply in_or_app. right. cbn. rewrite D. now left. }
  destruct (store_good st n t F1 ST EM DEN) as [G I]. constructor; auto.
  - intros m. rewrite I. rewrite flat_map_app, in_app_iff. cbn. rewrite D. cbn. destruct (str_eqb m n) eqn:Q; [apply str_eqb_eq in Q; auto|auto].
  - intros m g J N. rewrite I. destruct (str_eqb m n) eqn:Q; [discriminate|]. apply in_app_iff in J as [J|[->|[]]]; [eauto|].
    destruct m; [contradiction|]. cbn in D. injection D as <-. rewrite seq_refl in Q. discriminate.
  - intros m f s mk J N. rewrite I. destruct (str_eqb m n) eqn:Q; [left; discriminate|]. apply in_app_iff in J as [J|[->|[]]]; [eauto|].
    destruct m; [contradiction|]. cbn in D. injection D as <-. rewrite seq_refl in Q. discriminate.
  - intros d J. destruct (F5 _ J) as (m & f & s & mk & -> & N & B & Q). exists m, f, s, mk. repeat split; auto; [apply in_or_app; now left|].
    rewrite I. destruct (str_eqb m n) eqn:W; [|exact Q]. apply str_eqb_eq in W. subst m. exfalso. apply NEW. apply in_flat_map.
    exists (Boolean n f s mk). split; [exact B|]. destruct n; [contradiction|now left].
Qed.

Lemma first_node : forall pre post st ds x, doc = pre ++ x :: post -> first_pass pre st ds ->
  let '(st', ds') := parse_node eq en (st, ds) x in first_pass (pre ++ [x]) st' ds'.
Proof.
  intros pre post st ds x E F.
  assert (IX : In x doc) by (rewrite E; apply in_or_app; right; now left).
  destruct x as [[|c n] [g|]|[|c n] f s mk|n]; cbn [parse_node]; try (apply first_skip; [exact F|reflexivity]).
  - apply (first_store pre post); auto; [apply denotes_primitive; [exact IX|discriminate]|discriminate].
  - pose proof F as F'. destruct F' as [F1 F2 F3 F4 F5 F6].
    assert (MN : In (c :: n) (flat_map mentions doc) /\ In f (flat_map mentions doc) /\ In s (flat_map mentions doc)).
    { repeat split; apply in_flat_map; exists (Boolean (c :: n) f s mk); split; auto; cbn; auto. }
    destruct MN as (M1 & M2 & M3). apply mention_strip in M1, M2, M3. destruct M1 as [M1 _], M2 as [M2 A2], M3 as [M3 A3].
    rewrite (lookup_good st f F1 M2 A2), (lookup_good st s F1 M3 A3).
    assert (DEFER : instances st f = [] \/ instances st s = [] -> first_pass (pre ++ [Boolean (c :: n) f s mk]) st
      (ds ++ [mkdeferred (c :: n) (strip en f) (strip en s) (instance_of st (hd_error (instances st f)) (strip en f)) (instance_of st (hd_error (instances st s)) (strip en s)) mk])).
    { intros _. assert (Z : forall m, strip en m = m -> instance_of st (hd_error (instances st m)) (strip en m) = 0).
      { intros m M. rewrite M. unfold instance_of. rewrite (g_counts _ F1). destruct (g_single _ F1 m) as [Q|(t & Q & _)]; now rewrite Q. }
      rewrite (Z f M2), (Z s M3), M2, M3. clear Z.
      assert (ND : NoDup (flat_map defines pre ++ flat_map defines (Boolean (c :: n) f s mk :: post))) by (rewrite <- flat_map_app, <- E; apply PLAIN).
      assert (NEW : ~ In (c :: n) (flat_map defines pre)).
      { intros I. apply (nodup_prefix _ _ _ ND _ I). now left. }
      constructor; auto.
      - intros m I. rewrite flat_map_app, in_app_iff. left. auto.
      - intros m g I N. apply in_app_iff in I as [I|[I|[]]]; [eauto|discriminate].
      - intros m f' s' mk' I N. apply in_app_iff in I as [I|[I|[]]].
        + destruct (F4 _ _ _ _ I N) as [Q|Q]; [now left|right; apply in_or_app; now left].
        + injection I as <- <- <- <-. right. apply in_or_app. right. now left.
      - intros d I. apply in_app_iff in I as [I|[<-|[]]].
        + destruct (F5 _ I) as (m & f' & s' & mk' & Q1 & Q2 & Q3 & Q4). exists m, f', s', mk'. repeat split; auto. apply in_or_app. now left.
        + exists (c :: n), f, s, mk. split; [reflexivity|]. split; [discriminate|]. split; [apply in_or_app; right; now left|].
          destruct (instances st (c :: n)) eqn:Q; [reflexivity|]. exfalso. apply NEW, F2. rewrite Q. discriminate.
      - rewrite map_app. cbn [map d_name]. apply nodup_last; [exact F6|]. intros I. apply in_map_iff in I as (d & Q & I).
        destruct (F5 _ I) as (m & f' & s' & mk' & -> & Q2 & Q3 & _). cbn in Q. subst m. apply NEW. apply in_flat_map. eexists. split; [exact Q3|now left]. }
    destruct (g_single _ F1 f) as [Q1|(a & Q1 & D1)]; [rewrite Q1 in *; cbn [hd_error] in *; apply DEFER; now left|].
    destruct (g_single _ F1 s) as [Q2|(b & Q2 & D2)]; [rewrite Q1, Q2 in *; cbn [hd_error] in *; apply DEFER; now right|].
    rewrite Q1, Q2. cbn [hd_error]. apply (first_store pre post); auto; [|discriminate]. apply (denotes_boolean doc _ f s); auto. discriminate.
Qed.

Lemma first_all : forall st ds, fold_left (parse_node eq en) doc (fresh al, []) = (st, ds) -> first_pass doc st ds.
Proof.
  assert (G : forall post pre st ds st' ds', doc = pre ++ post -> first_pass pre st ds -> fold_left (parse_node eq en) post (st, ds) = (st', ds') -> first_pass doc st' ds').
  { induction post as [|x post IH]; intros pre st ds st' ds' E F H.
    - cbn in H. injection H as <- <-. rewrite app_nil_r in E. now subst pre.
    - cbn [fold_left] in H. pose proof (first_node pre post st ds x E F) as N. destruct (parse_node eq en (st, ds) x) as [st1 ds1].
      apply (IH (pre ++ [x]) st1 ds1); auto. now rewrite <- app_assoc. }
  intros st ds H. apply (G doc [] (fresh al) []); auto. constructor; cbn; auto; try tauto; [apply fresh_good|constructor].
Qed.

(** ** The loop *)

Section Loop.
Variable st0 : tracker T.
Variable ds : list (deferred T).
Hypothesis FIRST : first_pass doc st0 ds.

Record looping (ready done : list nat) (st : tracker T) : Prop := {
  l_good : good st;
  l_done : forall i, In i done -> exists d, nth_error ds i = Some d /\ instances st (d_name d) <> [];
  l_todo : forall i d, nth_error ds i = Some d -> ~ In i done -> instances st (d_name d) = [];
  l_more : forall n, instances st0 n <> [] -> instances st n <> [];
  l_ready : forall i d, nth_error ds i = Some d -> ~ In i done -> both st d = true -> In i ready;
  l_nodup : NoDup done
}.

Lemma deferred_zero : forall i d, nth_error ds i = Some d -> d_fi d = 0 /\ d_si d = 0 /\ In (Boolean (d_name d) (d_first d) (d_second d) (d_make d)) doc /\ d_name d <> [].
Proof.
  intros i d H. apply nth_error_In in H. destruct (f_deferred _ _ _ FIRST d H) as (n & f & s & mk & -> & N & B & _). cbn. auto.
Qed.
Lemma available_zero : forall (st : tracker T) n, available st n 0 = true <-> instances st n <> [].
Proof. intros st n. unfold available. destruct (instances st n); cbn; split; congruence. Qed.
Lemma both_zero : forall st i d, nth_error ds i = Some d -> (both st d = true <-> instances st (d_first d) <> [] /\ instances st (d_second d) <> []).
Proof.
  intros st i d H. destruct (deferred_zero _ _ H) as (Z1 & Z2 & _). unfold both. rewrite Z1, Z2, andb_true_iff, !available_zero. tauto.
Qed.

Lemma looping_start : looping (first_ready st0 ds) [] st0.
Proof.
  constructor; auto.
  - apply FIRST.
  - intros i [].
  - intros i d H _. apply nth_error_In in H. destruct (f_deferred _ _ _ FIRST d H) as (n & f & s & mk & -> & _ & _ & Q). exact Q.
  - intros i d H _ B. unfold first_ready. apply -> in_rev. apply in_map_iff. exists (i, d). split; [reflexivity|].
    apply filter_In. split; [now apply in_indexed|exact B].
  - constructor.
Qed.

Lemma in_waiting : forall i d n, nth_error ds i = Some d -> (n = d_first d \/ n = d_second d) -> instances st0 n = [] -> In (n, i) (waiting st0 ds).
Proof.
  intros i d n H C E. unfold waiting. apply in_flat_map. exists (i, d). split; [now apply in_indexed|].
  destruct (deferred_zero _ _ H) as (Z1 & Z2 & _).
  assert (NA : available st0 n 0 = false) by (apply not_true_is_false; rewrite available_zero; tauto).
  destruct (both st0 d) eqn:B.
  - apply (both_zero _ _ _ H) in B as [B1 B2]. destruct C as [->| ->]; contradiction.
  - rewrite Z1, Z2. apply in_or_app. destruct C as [->| ->]; rewrite NA; [left|right]; now left.
Qed.

Lemma loop_step : forall i rest done st d, looping (i :: rest) done st -> nth_error ds i = Some d -> ~ In i done ->
  forall a b, nth_error (instances st (d_first d)) (d_fi d) = Some a -> nth_error (instances st (d_second d)) (d_si d) = Some b ->
  looping (rev (wake ds (waiting st0 ds) (strip en (d_name d)) (i :: done) (store eq en st (d_name d) (d_make d a b))) ++ rest) (i :: done)
          (store eq en st (d_name d) (d_make d a b)).
Proof.
  intros i rest done st d L H ND a b A B. destruct L as [L1 L2 L3 L4 L5 L6].
  destruct (deferred_zero _ _ H) as (Z1 & Z2 & IB & NE). rewrite Z1 in A. rewrite Z2 in B.
  assert (DEN : denotes doc (d_name d) (d_make d a b)).
  { apply (denotes_boolean doc _ (d_first d) (d_second d)); auto.
    - destruct (g_single _ L1 (d_first d)) as [Q|(t & Q & D)]; rewrite Q in A; [discriminate|]. cbn in A. injection A as <-. exact D.
    - destruct (g_single _ L1 (d_second d)) as [Q|(t & Q & D)]; rewrite Q in B; [discriminate|]. cbn in B. injection B as <-. exact D. }
  assert (ST : strip en (d_name d) = d_name d).
  { apply mention_strip. apply in_flat_map. eexists. split; [exact IB|]. now left. }
  destruct (store_good st (d_name d) (d_make d a b) L1 ST (L3 _ _ H ND) DEN) as [G I]. rewrite ST.
  set (st' := store eq en st (d_name d) (d_make d a b)) in *.
  constructor; auto.
  - intros j [<-|J].
    + exists d. split; [exact H|]. rewrite I, seq_refl. discriminate.
    + destruct (L2 _ J) as (e & E1 & E2). exists e. split; [exact E1|]. rewrite I. destruct (str_eqb _ _); [discriminate|exact E2].
  - intros j e J NJ. rewrite I. destruct (str_eqb (d_name e) (d_name d)) eqn:Q.
    + apply str_eqb_eq in Q. exfalso. apply NJ. left.
      assert (X : NoDup (map d_name ds)) by apply FIRST. rewrite NoDup_nth_error in X.
      apply X.
      * rewrite map_length. apply nth_error_Some. now rewrite H.
      * rewrite !nth_error_map, H, J. cbn. now rewrite Q.
    + apply (L3 j); [exact J|]. intros K. apply NJ. now right.
  - intros n N. rewrite I. destruct (str_eqb _ _); [discriminate|now apply L4].
  - intros j e J NJ BJ. apply in_or_app.
    destruct (both st e) eqn:OLD.
    + right. assert (K : In j (i :: rest)) by (apply (L5 j e); auto; intros K; apply NJ; now right).
      destruct K as [<-|K]; [exfalso; apply NJ; now left|exact K].
    + left. apply -> in_rev. unfold wake. apply filter_In. split.
      * pose proof BJ as BB. apply (both_zero _ _ _ J) in BB as [B1 B2]. rewrite I in B1, B2.
        assert (W : exists n, (n = d_first e \/ n = d_second e) /\ n = d_name d /\ instances st n = []).
        { destruct (instances st (d_first e)) eqn:Q1.
          - exists (d_first e). split; [now left|]. split; [|exact Q1]. destruct (str_eqb (d_first e) (d_name d)) eqn:Q; [now apply str_eqb_eq in Q|contradiction].
          - destruct (instances st (d_second e)) eqn:Q2.
            + exists (d_second e). split; [now right|]. split; [|exact Q2]. destruct (str_eqb (d_second e) (d_name d)) eqn:Q; [now apply str_eqb_eq in Q|contradiction].
            + exfalso. assert (X : both st e = true) by (apply (both_zero _ _ _ J); rewrite Q1, Q2; split; discriminate). congruence. }
        destruct W as (n & C & -> & Q). apply in_map_iff. exists (d_name d, j). split; [reflexivity|]. apply filter_In. split; [|cbn; apply seq_refl].
        apply (in_waiting j e); auto. destruct (instances st0 (d_name d)) eqn:Q0; [reflexivity|]. exfalso. apply (L4 (d_name d)); [rewrite Q0; discriminate|exact Q].
      * rewrite J, BJ, andb_true_r. apply negb_true_iff. apply not_true_is_false. rewrite done_spec. exact NJ.
  - now constructor.
Qed.

Lemma loop_sound : forall fuel ready done st st' done', looping ready done st ->
  resolve_loop eq en fuel ds (waiting st0 ds) ready done st = Some (st', done') -> looping [] done' st'.
Proof.
  induction fuel as [|fuel IH]; intros ready done st st' done' L H; [discriminate|]. cbn [resolve_loop] in H.
  destruct ready as [|i rest]; [injection H as <- <-; exact L|].
  assert (SKIP : (forall d, nth_error ds i = Some d -> ~ In i done -> both st d = false) -> looping rest done st).
  { intros S'. destruct L as [L1 L2 L3 L4 L5 L6]. constructor; auto. intros j d J NJ B. destruct (L5 j d J NJ B) as [<-|K]; [|exact K].
    rewrite (S' d J NJ) in B. discriminate. }
  destruct (nth_error ds i) as [d|] eqn:E; [|apply (IH rest done st); auto; apply SKIP; intros; discriminate].
  destruct (is_done done i) eqn:D.
  { apply (IH rest done st); auto. apply SKIP. intros e _ N. apply done_spec in D. contradiction. }
  assert (ND : ~ In i done) by (rewrite <- done_spec; congruence).
  assert (NB : (nth_error (instances st (d_first d)) (d_fi d) = None \/ nth_error (instances st (d_second d)) (d_si d) = None) ->
    forall e, Some d = Some e -> ~ In i done -> both st e = false).
  { intros C e Q _. injection Q as <-. unfold both, available. destruct C as [C|C]; apply nth_error_None in C.
    - rewrite (proj2 (Nat.ltb_ge _ _) C). reflexivity.
    - rewrite (proj2 (Nat.ltb_ge _ _) C). apply andb_false_r. }
  destruct (nth_error (instances st (d_first d)) (d_fi d)) as [a|] eqn:A; [|apply (IH rest done st); auto; apply SKIP, NB; now left].
  destruct (nth_error (instances st (d_second d)) (d_si d)) as [b|] eqn:B; [|apply (IH rest done st); auto; apply SKIP, NB; now right].
  eapply IH; [|exact H]. now apply (loop_step i rest done st d L E ND a b).
Qed.

Lemma loop_ends : forall deps fuel ready done st, NoDup done -> (forall i, In i done -> i < List.length ds) ->
  List.length ready + (List.length ds - List.length done) * S (List.length deps) < fuel ->
  resolve_loop eq en fuel ds deps ready done st <> None.
Proof using ds.
  clear FIRST. intros deps. induction fuel as [|fuel IH]; intros ready done st N I L; [now apply Nat.nlt_0_r in L|]. cbn [resolve_loop].
  destruct ready as [|i rest]; [discriminate|]. cbn [List.length] in L.
  assert (SKIP : resolve_loop eq en fuel ds deps rest done st <> None) by (apply IH; auto; lia).
  destruct (nth_error ds i) as [d|] eqn:E; [|exact SKIP]. destruct (is_done done i) eqn:D; [exact SKIP|].
  destruct (nth_error (instances st (d_first d)) (d_fi d)); [|exact SKIP]. destruct (nth_error (instances st (d_second d)) (d_si d)); [|exact SKIP].
  assert (ND : ~ In i done) by (rewrite <- done_spec; congruence).
  assert (LI : i < List.length ds) by (apply nth_error_Some; now rewrite E).
  assert (N' : NoDup (i :: done)) by (now constructor).
  assert (I' : forall j, In j (i :: done) -> j < List.length ds) by (intros j [<-|J]; auto).
  assert (C : List.length (i :: done) <= List.length ds).
  { rewrite <- (seq_length (List.length ds) 0). apply NoDup_incl_length; [exact N'|]. intros j J. apply in_seq. specialize (I' _ J). lia. }
  apply IH; auto. rewrite app_length, rev_length. unfold wake.
  assert (FL : forall A (p : A -> bool) l, List.length (filter p l) <= List.length l).
  { intros A p l. induction l as [|x l IHl]; cbn; [lia|]. destruct (p x); cbn; lia. }
  match goal with |- List.length (filter ?p ?l) + _ + _ < _ => pose proof (FL _ p l) as W end.
  rewrite map_length in W. pose proof (FL _ (fun e => str_eqb (fst e) (strip en (d_name d))) deps) as W2.
  cbn [List.length] in *. nia.
Qed.

(** At the end. *)
Lemma end_complete : forall done st, looping [] done st -> forall n t, denotes doc n t -> instances st n <> [].
Proof.
  intros done st L n t D. destruct L as [L1 L2 L3 L4 L5 L6]. induction D as [n g I N|n f s mk a b I N D1 IH1 D2 IH2].
  - apply L4. now apply (f_primitive _ _ _ FIRST n g).
  - destruct (f_boolean _ _ _ FIRST _ _ _ _ I N) as [Q|Q]; [now apply L4|].
    apply In_nth_error in Q as [i Q]. destruct (in_dec Nat.eq_dec i done) as [K|K].
    + destruct (L2 _ K) as (e & E & X). rewrite Q in E. injection E as <-. exact X.
    + exfalso. apply (L5 i _ Q K). apply (both_zero _ _ _ Q). cbn. auto.
Qed.
End Loop.

Lemma parsed : forall fuel st skipped, parse_solids eq en fuel al doc = Some (st, skipped) ->
  (forall n t, instances st n = [t] <-> denotes doc n t) /\ (forall n, List.length (instances st n) <= 1) /\
  (forall n, In n skipped <-> exists f s mk, In (Boolean n f s mk) doc /\ n <> [] /\ forall t, ~ denotes doc n t).
Proof.
  intros fuel st skipped H. unfold parse_solids in H. destruct (fold_left (parse_node eq en) doc (fresh al, [])) as [st0 ds] eqn:F.
  apply first_all in F. destruct (resolve_loop eq en fuel ds (waiting st0 ds) (first_ready st0 ds) [] st0) as [[st1 done]|] eqn:L; [|discriminate].
  injection H as <- <-. apply (loop_sound st0 ds F) in L; [|now apply looping_start].
  pose proof (end_complete st0 ds F done st1 L) as C. pose proof (l_good _ _ _ _ _ L) as G.
  split; [|split].
  - intros n t. split.
    + intros E. destruct (g_single _ G n) as [Q|(u & Q & D)]; rewrite Q in E; [discriminate|]. injection E as <-. exact D.
    + intros D. pose proof (C _ _ D) as N. destruct (g_single _ G n) as [Q|(u & Q & D')]; [contradiction|].
      now rewrite (denotes_unique n t D u D').
  - intros n. destruct (g_single _ G n) as [Q|(u & Q & _)]; rewrite Q; cbn; lia.
  - intros n. rewrite in_map_iff. split.
    + intros ((i & d) & <- & J). apply filter_In in J as [J K]. apply in_indexed in J. cbn [fst snd] in *.
      apply negb_true_iff in K. assert (NK : ~ In i done) by (rewrite <- done_spec; congruence).
      destruct (deferred_zero st0 ds F _ _ J) as (_ & _ & B & NE). exists (d_first d), (d_second d), (d_make d).
      split; [exact B|]. split; [exact NE|]. intros t D. apply (C _ _ D). now apply (l_todo _ _ _ _ _ L i).
    + intros (f & s & mk & B & NE & ND). destruct (f_boolean _ _ _ F _ _ _ _ B NE) as [Q|Q].
      * exfalso. pose proof (l_more _ _ _ _ _ L _ Q) as Q'. destruct (g_single _ G n) as [Q2|(u & Q2 & D)]; [contradiction|]. exact (ND u D).
      * apply In_nth_error in Q as [i Q]. exists (i, mkdeferred n f s 0 0 mk). split; [reflexivity|]. apply filter_In. split; [now apply in_indexed|].
        cbn [fst]. apply negb_true_iff. apply not_true_is_false. rewrite done_spec. intros K. destruct (l_done _ _ _ _ _ L _ K) as (e & E & X).
        rewrite Q in E. injection E as <-. cbn in X. destruct (g_single _ G n) as [Q2|(u & Q2 & D)]; [contradiction|]. exact (ND u D).
Qed.

End Solids.

(** Enough rounds for any document. *)
Lemma parse_ends : forall (T : Type) (eq : T -> T -> bool) en al doc, exists fuel, forall more, parse_solids eq en (fuel + more) al doc <> None.
Proof.
  intros T eq en al doc. unfold parse_solids. destruct (fold_left (parse_node eq en) doc (fresh al, [])) as [st ds].
  exists (S (List.length (first_ready st ds) + List.length ds * S (List.length (waiting st ds)))). intros more.
  pose proof (loop_ends eq en ds (waiting st ds)
    (S (List.length (first_ready st ds) + List.length ds * S (List.length (waiting st ds))) + more) (first_ready st ds) [] st) as L.
  destruct (resolve_loop _ _ _ _ _ _ _ _) as [[st' done]|]; [discriminate|]. intros _. apply L; [constructor|intros i []| |reflexivity].
  cbn [List.length]. rewrite Nat.sub_0_r. lia.
Qed.
