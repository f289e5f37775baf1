(** Proofs about Boolean combinations and membership. *)
From Coq Require Import Reals Lra Lia List Bool Permutation Sorted Arith.
From Verif Require Import VectorModel QuatModel QuatSpec QuatProofs QuatPlace GeometryModel GeometrySpec GeometryProofs.
Import ListNotations.
Open Scope R_scope.

Definition tdist (h : tagged) : R := h_distance (fst h).
Definition set_side (s : bool * bool) (h : tagged) : bool * bool := if snd h then (h_entering (fst h), snd s) else (fst s, h_entering (fst h)).
Definition run (t : R) (l : list tagged) (s : bool * bool) : bool * bool := fold_left (fun s h => if Rlt_dec (tdist h) t then set_side s h else s) l s.
Definition reach (t : R) (l : list hit) (b : bool) : bool := fold_left (fun s h => if Rlt_dec (h_distance h) t then h_entering h else s) l b.
Definition lefts (l : list tagged) : list hit := map fst (filter snd l).
Definition rights (l : list tagged) : list hit := map fst (filter (fun h => negb (snd h)) l).

Lemma run_split t l : forall s, run t l s = (reach t (lefts l) (fst s), reach t (rights l) (snd s)).
Proof.
  unfold run, reach, lefts, rights. induction l as [|[h b] l IH]; intros [s1 s2]; cbn; auto. rewrite IH. clear IH. unfold tdist, set_side. cbn.
  destruct b; cbn; destruct (Rlt_dec (h_distance h) t); reflexivity.
Qed.

Definition tsorted : list tagged -> Prop := StronglySorted (fun a b => tdist a <= tdist b).
Definition clear (l : list tagged) (t : R) : Prop := forall a b, In a l -> In b l -> tdist a < t -> t <= tdist b -> precision <= tdist b - tdist a.

Lemma batch_ok from l : tsorted l -> (forall a, In a l -> from <= tdist a) -> forall b rest, batch from l = (b, rest) ->
  l = b ++ rest /\ (forall a, In a b -> tdist a - from < precision) /\ (forall a, In a rest -> precision <= tdist a - from) /\ tsorted rest.
Proof.
  induction l as [|h l IH]; intros S F b rest E; cbn in E.
  - injection E as <- <-. repeat split; try (intros ? []). constructor.
  - unfold tdist in *. destruct (Rlt_dec (h_distance (fst h) - from) precision) as [L|L].
    + destruct (batch from l) as [b0 r0] eqn:E0. injection E as <- <-. apply StronglySorted_inv in S as [S M].
      destruct (IH S (fun a A => F a (or_intror A)) _ _ eq_refl) as (E1 & E2 & E3 & E4). split; [cbn; f_equal; auto|]. split; [|split; auto].
      intros a [<-|A]; auto.
    + injection E as <- <-. split; [reflexivity|]. split; [intros ? []|]. split; [|exact S]. intros c [<-|A]; [lra|].
      apply StronglySorted_inv in S as [S M]. rewrite Forall_forall in M. specialize (M _ A). unfold tdist in M. lra.
Qed.
Lemma batch_prefix from l : forall b rest, batch from l = (b, rest) -> l = b ++ rest.
Proof.
  induction l as [|h l IH]; intros b rest E; cbn in E; [injection E as <- <-; auto|].
  destruct (Rlt_dec _ _); [destruct (batch from l) as [b0 r0]; injection E as <- <-; cbn; f_equal; auto|injection E as <- <-; auto].
Qed.
Lemma last_in {A} (l : list A) x : In (last (x :: l) x) (x :: l).
Proof. destruct (exists_last (l := x :: l) ltac:(discriminate)) as (u & y & E). rewrite E, last_last. apply in_or_app. right. left. auto. Qed.

Lemma run_all t l s : (forall a, In a l -> tdist a < t) -> run t l s = apply_batch l s.
Proof.
  unfold run, apply_batch. revert s. induction l as [|h l IH]; intros s F; cbn; auto.
  rewrite IH by (intros; apply F; right; auto). destruct (Rlt_dec (tdist h) t) as [L|L]; [reflexivity|]. elim L. apply F. left. auto.
Qed.
Lemma run_none t l s : (forall a, In a l -> t <= tdist a) -> run t l s = s.
Proof.
  unfold run. revert s. induction l as [|h l IH]; intros s F; cbn; auto.
  destruct (Rlt_dec (tdist h) t) as [L|L]; [pose proof (F h (or_introl eq_refl)); lra|]. apply IH. intros; apply F; right; auto.
Qed.
Lemma run_app t a b s : run t (a ++ b) s = run t b (run t a s).
Proof. apply fold_left_app. Qed.
Lemma reach_none t l b : (forall a, In a l -> t <= h_distance a) -> reach t l b = b.
Proof.
  unfold reach. revert b. induction l as [|h l IH]; intros s F; cbn; auto.
  destruct (Rlt_dec (h_distance h) t) as [L|L]; [pose proof (F h (or_introl eq_refl)); lra|]. apply IH. intros; apply F; right; auto.
Qed.

Lemma walk_from op : forall k l s was h, In h (bool_walk k op l s was) -> exists a, In a l /\ h_distance h = tdist a /\ h_position h = h_position (fst a).
Proof.
  induction k as [|k IH]; intros l s was h H; [destruct H|]. destruct l as [|a l]; [destruct H|]. cbn [bool_walk] in H.
  destruct (batch (h_distance (fst a)) l) as [b rest] eqn:E. pose proof (batch_prefix _ _ _ _ E) as El.
  apply in_app_or in H as [H|H].
  - destruct (Bool.eqb was _); [destruct H|]. destruct H as [<-|[]]. exists (last (a :: b) a). cbn [h_distance h_position]. split; [|auto].
    rewrite El. destruct (last_in b a) as [H|H]; [left; exact H|right; apply in_or_app; left; exact H].
  - destruct (IH _ _ _ _ H) as (c & C & D). exists c. split; [|auto]. rewrite El. right. apply in_or_app. auto.
Qed.

Lemma walk_state op : forall k l s was t, (length l <= k)%nat -> tsorted l -> was = inside_result op (fst s) (snd s) -> clear l t ->
  reach t (bool_walk k op l s was) was = (let s' := run t l s in inside_result op (fst s') (snd s')).
Proof.
  induction k as [|k IH]; intros l s was t Lk So Ew C; [destruct l; [auto|cbn in Lk; lia]|]. destruct l as [|a l]; [cbn; auto|].
  cbn [bool_walk]. destruct (batch (h_distance (fst a)) l) as [b rest] eqn:E.
  apply StronglySorted_inv in So as [So M]. rewrite Forall_forall in M.
  destruct (batch_ok _ _ So M _ _ E) as (El & Eb & Er & Sr). change (h_distance (fst a)) with (tdist a) in *.
  set (s' := apply_batch (a :: b) s). set (now := inside_result op (fst s') (snd s')).
  pose proof (last_in b a) as La. set (fin := last (a :: b) a) in *.
  destruct (Rlt_dec (tdist a) t) as [L|L].
  - assert (F : forall c, In c (a :: b) -> tdist c < t).
    { intros c [<-|Cb]; auto. apply Rnot_le_lt. intros G. pose proof (C a c (or_introl eq_refl)) as H.
      assert (Cl : In c (a :: l)) by (right; rewrite El; apply in_or_app; auto). specialize (H Cl L G). specialize (Eb c Cb). lra. }
    assert (Er' : run t (a :: l) s = run t rest s') by (rewrite El, app_comm_cons, run_app, (run_all t (a :: b)) by auto; reflexivity).
    rewrite Er'. unfold reach. rewrite fold_left_app.
    match goal with |- fold_left ?f _ (fold_left ?f ?e was) = _ => assert (Q : fold_left f e was = now) end.
    { destruct (Bool.eqb was now) eqn:B; [apply eqb_prop in B; cbn; auto|]. cbn [fold_left h_distance h_entering].
      change (h_distance (fst fin)) with (tdist fin). destruct (Rlt_dec (tdist fin) t) as [|X]; [reflexivity|elim X; auto]. }
    rewrite Q. apply IH; auto.
    + rewrite El in Lk. cbn in Lk. rewrite app_length in Lk. lia.
    + intros x y X Y. apply C; right; rewrite El; apply in_or_app; auto.
  - assert (F : forall c, In c (a :: l) -> t <= tdist c) by (intros c [<-|Cb]; [lra|specialize (M c Cb); lra]).
    rewrite (run_none t (a :: l)) by auto. cbn zeta. rewrite <- Ew.
    apply reach_none. intros h H. destruct (walk_from op (S k) (a :: l) s was h) as (c & Cc & Dc & _).
    + cbn [bool_walk]. change (h_distance (fst a)) with (tdist a). rewrite E. exact H.
    + rewrite Dc. auto.
Qed.

Lemma walk_alternates op : forall k l s was, alternating (negb was) (bool_walk k op l s was).
Proof.
  induction k as [|k IH]; intros l s was; [exact Logic.I|]. destruct l as [|a l]; [exact Logic.I|]. cbn [bool_walk].
  destruct (batch _ l) as [b rest]. destruct (Bool.eqb was _) eqn:B.
  - apply eqb_prop in B. cbn [app]. rewrite <- B. apply IH.
  - apply eqb_false_iff in B. cbn [app alternating h_entering].
    set (now := inside_result op _ _) in *. assert (N : now = negb was) by (destruct now, was; cbn; congruence). rewrite N. split; auto.
Qed.

Lemma walk_ordered op : forall k l s was, tsorted l -> ordered (bool_walk k op l s was).
Proof.
  induction k as [|k IH]; intros l s was So; [constructor|]. destruct l as [|a l]; [constructor|]. cbn [bool_walk].
  destruct (batch (h_distance (fst a)) l) as [b rest] eqn:E. apply StronglySorted_inv in So as [So M]. rewrite Forall_forall in M.
  destruct (batch_ok _ _ So M _ _ E) as (El & Eb & Er & Sr). change (h_distance (fst a)) with (tdist a) in *.
  destruct (Bool.eqb was _); cbn [app]; [apply IH; auto|]. constructor; [apply IH; auto|]. apply Forall_forall. intros h H.
  destruct (walk_from _ _ _ _ _ _ H) as (c & Cc & -> & _). specialize (Er _ Cc). cbn [h_distance].
  change (tdist (last (a :: b) a) <= tdist c). destruct (last_in b a) as [<-|X]; [pose proof precision_pos; lra|]. specialize (Eb _ X). lra.
Qed.

Lemma apply_app a b s : apply_batch (a ++ b) s = apply_batch b (apply_batch a s).
Proof. apply fold_left_app. Qed.
Lemma walk_parity op : forall k l s was, (length l <= k)%nat -> was = inside_result op (fst s) (snd s) ->
  Nat.even (length (bool_walk k op l s was)) = Bool.eqb was (let s' := apply_batch l s in inside_result op (fst s') (snd s')).
Proof.
  induction k as [|k IH]; intros l s was Lk Ew; [destruct l; [cbn; rewrite <- Ew; destruct was; auto|cbn in Lk; lia]|].
  destruct l as [|a l]; [cbn; rewrite <- Ew; destruct was; auto|]. cbn [bool_walk].
  destruct (batch (h_distance (fst a)) l) as [b rest] eqn:E. pose proof (batch_prefix _ _ _ _ E) as El.
  set (s' := apply_batch (a :: b) s). set (now := inside_result op (fst s') (snd s')).
  rewrite app_length, Nat.even_add. rewrite IH; [|rewrite El in Lk; cbn in Lk; rewrite app_length in Lk; lia|reflexivity].
  rewrite El, app_comm_cons, apply_app. fold s'. cbn zeta. set (w := inside_result op _ _).
  destruct was, now, w; reflexivity.
Qed.

(** Sorting the children's hits together keeps each child's order. *)
Definition tags (l r : list hit) : list tagged := map (fun h => (h, true)) l ++ map (fun h => (h, false)) r.

Lemma sub_sorted (f : tagged -> bool) l : tsorted l -> ordered (map fst (filter f l)).
Proof.
  induction 1 as [|a l S IH M]; cbn; [constructor|]. destruct (f a); auto. cbn. constructor; auto.
  rewrite Forall_forall in *. intros h H. apply in_map_iff in H as (c & <- & C). apply filter_In in C as [C _]. exact (M _ C).
Qed.
Lemma filter_filter {A} (f g : A -> bool) l : filter f (filter g l) = filter g (filter f l).
Proof. induction l as [|a l IH]; cbn; auto. destruct (g a) eqn:G, (f a) eqn:F; cbn; rewrite ?F, ?G, ?IH; auto. Qed.
Lemma filter_map {A B} (g : A -> B) (f : B -> bool) l : filter f (map g l) = map g (filter (fun a => f (g a)) l).
Proof. induction l as [|a l IH]; cbn; auto. destruct (f (g a)); cbn; rewrite IH; auto. Qed.
Lemma filter_ext' {A} (f g : A -> bool) l : (forall a, f a = g a) -> filter f l = filter g l.
Proof. intros H. induction l as [|a l IH]; cbn; auto. rewrite H, IH. auto. Qed.
Lemma filter_const {A} (b : bool) (l : list A) : filter (fun _ => b) l = if b then l else [].
Proof. induction l as [|a l IH]; cbn; destruct b; auto; f_equal; auto. Qed.

Lemma lefts_tags l r : lefts (tags l r) = l.
Proof.
  unfold lefts, tags. rewrite filter_app, !filter_map. cbn. rewrite !filter_const. cbn. rewrite app_nil_r.
  rewrite map_map. cbn. apply map_id.
Qed.
Lemma rights_tags l r : rights (tags l r) = r.
Proof. unfold rights, tags. rewrite filter_app, !filter_map. cbn. rewrite !filter_const. cbn. rewrite map_map. cbn. apply map_id. Qed.

Section Bool.
Variable sort : forall A : Type, (A -> R) -> list A -> list A.
Hypothesis So : sorts sort.

Lemma side_kept (f : tagged -> bool) l r m : map fst (filter f (tags l r)) = m -> stable sort \/ strict m -> ordered m ->
  map fst (filter f (sort tagged (fun h => h_distance (fst h)) (tags l r))) = m.
Proof.
  intros <- C O. destruct (So tagged (fun h => h_distance (fst h)) (tags l r)) as [P S]. destruct C as [St|St].
  - apply (sorted_by_filters h_distance); [apply sub_sorted; exact S|exact O|]. intros x.
    rewrite !filter_map. f_equal. rewrite filter_filter, (filter_filter _ f (tags l r)). f_equal. apply St.
  - apply (sorted_unique h_distance); [apply sub_sorted; exact S|exact St|]. apply Permutation_map. apply filter_perm. exact P.
Qed.

Definition keepable (l r : list hit) : Prop := ordered l /\ ordered r /\ (stable sort \/ (strict l /\ strict r)).
Definition merged (l r : list hit) : list tagged := sort tagged (fun h => h_distance (fst h)) (tags l r).
Lemma merged_ok l r : keepable l r -> tsorted (merged l r) /\ lefts (merged l r) = l /\ rights (merged l r) = r /\
  (forall a, In a (merged l r) <-> In a (tags l r)).
Proof.
  intros (Ol & Or & C). destruct (So tagged (fun h => h_distance (fst h)) (tags l r)) as [P S]. split; [exact S|].
  pose proof (lefts_tags l r) as El. pose proof (rights_tags l r) as Er. unfold lefts, rights in *.
  split; [|split].
  - apply (side_kept snd l r); [exact El|tauto|auto].
  - apply (side_kept (fun h => negb (snd h)) l r); [exact Er|tauto|auto].
  - intros a. split; apply Permutation_in; [exact P|apply Permutation_sym; exact P].
Qed.

Definition bclear (l r : list hit) (t : R) : Prop := forall a b, In a (l ++ r) -> In b (l ++ r) -> h_distance a < t -> t <= h_distance b ->
  precision <= h_distance b - h_distance a.
Lemma tags_in l r a : In a (tags l r) -> In (fst a) (l ++ r).
Proof.
  unfold tags. intros H. apply in_app_or in H as [H|H]; apply in_map_iff in H as (x & <- & H); apply in_or_app; auto.
Qed.

Lemma op_false op : inside_result op false false = false.
Proof. destruct op; reflexivity. Qed.

Lemma bool_state op l r t : keepable l r -> bclear l r t ->
  state (bool_hits sort op l r) t = inside_result op (state l t) (state r t).
Proof.
  intros K C. destruct (merged_ok _ _ K) as (S & El & Er & Em). unfold bool_hits. fold (tags l r). fold (merged l r).
  pose proof (walk_state op (length (merged l r)) (merged l r) (false, false) (inside_result op false false) t (le_n _) S eq_refl) as W.
  rewrite run_split, El, Er in W. cbn [fst snd] in W. rewrite op_false in *. apply W.
  intros a b A B. apply Em, tags_in in A. apply Em, tags_in in B. exact (C _ _ A B).
Qed.
Lemma bool_from op l r h : keepable l r -> In h (bool_hits sort op l r) -> exists a, In a (l ++ r) /\ h_distance h = h_distance a /\ h_position h = h_position a.
Proof.
  intros K H. destruct (merged_ok _ _ K) as (S & El & Er & Em). destruct (walk_from _ _ _ _ _ _ H) as (c & Cc & D).
  apply Em, tags_in in Cc. exists (fst c). auto.
Qed.
Lemma bool_order op l r : keepable l r -> ordered (bool_hits sort op l r) /\ alternating true (bool_hits sort op l r).
Proof.
  intros K. destruct (merged_ok _ _ K) as (S & El & Er & Em). split; [apply walk_ordered; exact S|].
  unfold bool_hits. pose proof (walk_alternates op (length (merged l r)) (merged l r) (false, false) (inside_result op false false)) as W.
  rewrite op_false in *. exact W.
Qed.

Lemma apply_split l : forall s, apply_batch l s = (fold_left (fun _ h => h_entering h) (lefts l) (fst s), fold_left (fun _ h => h_entering h) (rights l) (snd s)).
Proof.
  unfold apply_batch, lefts, rights. induction l as [|[h b] l IH]; intros [s1 s2]; cbn; auto. destruct b; cbn; rewrite IH; reflexivity.
Qed.
Lemma final_state l : forall b, alternating b l -> fold_left (fun _ h => h_entering h) l (negb b) = if Nat.even (length l) then negb b else b.
Proof.
  induction l as [|h l IH]; intros b A; [reflexivity|]. destruct A as [E A]. cbn [fold_left]. rewrite E. specialize (IH _ A).
  rewrite negb_involutive in IH. rewrite IH. cbn [length]. rewrite Nat.even_succ, <- Nat.negb_even. destruct (Nat.even (length l)); reflexivity.
Qed.
Lemma closed_final l : alternating true l -> closed l -> fold_left (fun _ h => h_entering h) l false = false.
Proof. intros A C. pose proof (final_state l true A) as F. cbn in F. rewrite F. apply Nat.even_spec in C. rewrite C. reflexivity. Qed.
Lemma bool_closed op l r : keepable l r -> alternating true l -> alternating true r -> closed l -> closed r -> closed (bool_hits sort op l r).
Proof.
  intros K Al Ar Cl Cr. destruct (merged_ok _ _ K) as (S & El & Er & Em). unfold bool_hits. fold (tags l r). fold (merged l r).
  apply Nat.even_spec. rewrite walk_parity by (auto; apply le_n). cbn zeta. rewrite apply_split, El, Er. cbn [fst snd].
  rewrite !closed_final by auto. rewrite op_false. reflexivity.
Qed.
End Bool.

(** ** Membership from the first crossing ahead *)
Lemma forward_state l : forall b, ordered l -> alternating (negb b) l -> Nat.even (length l) = negb b -> (forall h, In h l -> h_distance h < 0 \/ precision < h_distance h) ->
  first_forward l = reach 0 l b.
Proof.
  unfold reach. induction l as [|h l IH]; intros b S A C F; cbn [first_forward fold_left]; [destruct b; [discriminate|reflexivity]|].
  cbn [length] in C. rewrite Nat.even_succ, <- Nat.negb_even in C.
  destruct A as [E A]. apply StronglySorted_inv in S as [S M]. pose proof precision_pos. destruct (F h (or_introl eq_refl)) as [N|P].
  - destruct (Rlt_dec precision (h_distance h)); [lra|]. destruct (Rlt_dec (h_distance h) 0); [|lra]. rewrite E. apply IH; auto.
    + rewrite <- C. rewrite negb_involutive. reflexivity.
    + intros x X. apply F. right. auto.
  - destruct (Rlt_dec precision (h_distance h)); [|lra]. destruct (Rlt_dec (h_distance h) 0); [lra|]. rewrite E, negb_involutive.
    symmetry. apply reach_none. rewrite Forall_forall in M. intros a Ha. specialize (M _ Ha). lra.
Qed.
Lemma forward_inside l : ordered l -> alternating true l -> closed l -> (forall h, In h l -> h_distance h < 0 \/ precision < h_distance h) ->
  first_forward l = state l 0.
Proof. intros S A C F. apply (forward_state l false); auto. apply Nat.even_spec. exact C. Qed.
