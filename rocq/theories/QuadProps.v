(** Properties C99 and C100. *)
From Coq Require Import Reals List Bool Arith Permutation Lra Lia.
From Verif Require Import QuadModel QuadSpec QuadProofs.
Import ListNotations.
Open Scope R_scope.

Lemma split_filter {A} (f : A -> bool) (l : list A) : Permutation l (filter f l ++ filter (fun x => negb (f x)) l).
Proof.
  induction l as [|a t IH]; [reflexivity|]. cbn. destruct (f a); cbn; [constructor; exact IH|]. rewrite IH at 1. apply Permutation_middle.
Qed.

Lemma NoDup_left {A} (l m : list A) : NoDup (l ++ m) -> NoDup l.
Proof.
  induction l as [|a t IH]; intros H; [constructor|]. cbn in H. inversion H as [|x y N D]; subst. constructor; [|auto]. intros I. apply N, in_or_app. auto.
Qed.

(** ** C99 *)

(** After any legal calls, a query returns exactly the values held whose boxes overlap the one given, each as often as it is held. *)
Theorem C99_query : forall (T : Type) (get_box : T -> box) same, (forall a b, same a b = true <-> a = b) ->
  forall b os l, holds get_box b os l ->
  exists n, run get_box same b empty os = Some n /\
  forall q, overlap q b -> exists r rest, query get_box n b q = Some r /\ Permutation l (r ++ rest) /\
  Forall (fun v => overlap q (get_box v)) r /\ Forall (fun v => ~ overlap q (get_box v)) rest.
Proof.
  intros T get_box same S b os l H. destruct (run_ok get_box same S b os l H) as [n [E [W P]]]. exists n. split; [exact E|]. intros q O.
  unfold query. rewrite (proj2 (intersects_overlap q b) O). rewrite (query_contents get_box n max_depth b q W).
  set (f := fun v => intersects q (get_box v)). exists (filter f (contents n)), (filter (fun x => negb (f x)) (contents n)).
  split; [reflexivity|]. split; [rewrite <- P; apply split_filter|]. split; apply Forall_forall; intros v I; apply filter_In in I; destruct I as [_ I]; unfold f in I.
  - apply intersects_overlap, I.
  - apply negb_true_iff in I. apply intersects_apart, I.
Qed.
Print Assumptions C99_query.

(** The tree is never deeper than eight levels and only leaves at that depth hold more than 16 values. *)
Theorem C99_limited : forall (T : Type) (get_box : T -> box) same, (forall a b, same a b = true <-> a = b) ->
  forall b os l, holds get_box b os l -> exists n, run get_box same b empty os = Some n /\ limited 8 n.
Proof.
  intros T get_box same S b os l H. destruct (run_ok get_box same S b os l H) as [n [E [W _]]]. exists n. split; [exact E|].
  change 8%nat with max_depth. revert W. clear. generalize max_depth. intros room. revert room b. induction n as [l|l c1 c2 c3 c4 I1 I2 I3 I4] using tree_ind; intros room b [_ W].
  - destruct room; exact W.
  - destruct W as [R [_ [[W1 _] [[W2 _] [[W3 _] [W4 _]]]]]]. destruct room as [|k]; [lia|]. cbn in *. split; [eapply I1; eauto|]. split; [eapply I2; eauto|]. split; [eapply I3; eauto|eapply I4; eauto].
Qed.
Print Assumptions C99_limited.

(** A call is refused exactly if it is not legal: for a value outside the box of the tree, or a removal of a value not held. *)
Theorem C99_refused : forall (T : Type) (get_box : T -> box) same, (forall a b, same a b = true <-> a = b) ->
  forall b os l n v, holds get_box b os l -> run get_box same b empty os = Some n ->
  (step get_box same b n (Add v) = None <-> ~ inside (get_box v) b) /\
  (step get_box same b n (Remove v) = None <-> ~ In v l).
Proof.
  intros T get_box same S b os l n v H R. destruct (run_ok get_box same S b os l H) as [n' [E [W P]]]. assert (n' = n) by congruence. subst n'. split; split.
  - intros F I. destruct (add_ok get_box n max_depth b v I W) as [m [F' _]]. cbn [step] in F. congruence.
  - intros N. cbn [step]. assert (C : contains b (get_box v) = false). { destruct (contains b (get_box v)) eqn:C; auto. exfalso. apply N, contains_inside, C. }
    clear -C. destruct n as [vals [[[[c1 c2] c3] c4]|]]; cbn [add]; [rewrite C; reflexivity|]. cbn. rewrite C. reflexivity.
  - intros F I. destruct (remove_ok get_box same S n max_depth b v W) as [m [k [F' _]]]; [apply (Permutation_in v (Permutation_sym P) I)|]. cbn [step] in F. rewrite F' in F. discriminate.
  - intros N. cbn [step]. destruct (remove get_box same n b v) as [[m k]|] eqn:F; [|reflexivity]. exfalso. apply N. apply (Permutation_in v P).
    clear -F S. revert b m k F. induction n as [vals|vals c1 c2 c3 c4 I1 I2 I3 I4] using tree_ind; intros b m k F; cbn [remove] in F.
    + destruct (negb _); [discriminate|]. destruct (remove_value same vals v) eqn:E; [|discriminate]. cbn. clear F.
      revert l E. induction vals as [|a t IH]; intros l E; [discriminate|]. cbn in E. destruct (same v a) eqn:X; [left; symmetry; apply S, X|]. right.
      destruct (remove_value same t v) eqn:Y; [|discriminate]. eapply IH; eauto.
    + destruct (negb _); [discriminate|]. cbn [contents]. rewrite !in_app_iff. destruct (quadrant b (get_box v)) as [[]|].
      * destruct (remove get_box same c1 _ v) as [[c j]|] eqn:E; [|discriminate]. eauto.
      * destruct (remove get_box same c2 _ v) as [[c j]|] eqn:E; [|discriminate]. eauto.
      * destruct (remove get_box same c3 _ v) as [[c j]|] eqn:E; [|discriminate]. eauto 6.
      * destruct (remove get_box same c4 _ v) as [[c j]|] eqn:E; [|discriminate]. eauto 8.
      * left. destruct (remove_value same vals v) eqn:E; [|discriminate]. clear F.
        revert l E. induction vals as [|a t IH]; intros l E; [discriminate|]. cbn in E. destruct (same v a) eqn:X; [left; symmetry; apply S, X|]. right.
        destruct (remove_value same t v) eqn:Y; [|discriminate]. eapply IH; eauto.
Qed.
Print Assumptions C99_refused.

(** A query outside the box of the tree is a failed assertion, not an empty answer. *)
Theorem C99_outside_refuted : exists (b q : box) (n : node box), holds (fun v => v) b [Add b] [b] /\
  run (fun v => v) (fun _ _ => true) b empty [Add b] = Some n /\ ~ overlap q b /\ query (fun v => v) n b q = None.
Proof.
  set (b := mkbox 0 0 1 1). set (q := mkbox 2 2 0 0). exists b, q.
  assert (IN : inside b b) by (unfold inside; cbn; lra).
  assert (H : holds (fun v : box => v) b [Add b] [b]) by (apply (holds_add (fun v => v) b [] [] b); [constructor|exact IN]).
  destruct (add_leaf_ok (fun v : box => v) max_depth [] b b IN ltac:(constructor) ltac:(right; cbn; lia)) as [n [E _]].
  exists n. split; [exact H|]. split; [cbn [run step empty add]; rewrite E; reflexivity|].
  assert (N : ~ overlap q b) by (unfold overlap; cbn; lra). split; [exact N|]. unfold query. rewrite (proj2 (intersects_apart q b) N). reflexivity.
Qed.
Print Assumptions C99_outside_refuted.

(** Two boxes added, one removed, and a point query that finds the other. *)
Example C99_case : let r := mkbox 0 0 8 8 in let u := mkbox 1 1 2 2 in let v := mkbox 2 2 4 4 in
  forall same, (forall a b, same a b = true <-> a = b) ->
  exists n, run (fun x => x) same r empty [Add u; Add v; Remove u] = Some n /\
  exists l, query (fun x => x) n r (mkbox 3 3 0 0) = Some l /\ Permutation [v] l.
Proof.
  intros r u v same S.
  assert (H : holds (fun x : box => x) r [Add u; Add v; Remove u] [v]).
  { apply (holds_remove (fun x => x) r [Add u; Add v] [v; u] [v] u); [|apply perm_swap|unfold inside; cbn; lra].
    apply (holds_add (fun x => x) r [Add u] [u] v); [|unfold inside; cbn; lra]. apply (holds_add (fun x => x) r [] [] u); [constructor|unfold inside; cbn; lra]. }
  destruct (C99_query box (fun x => x) same S r _ _ H) as [n [E Q]]. exists n. split; [exact E|].
  destruct (Q (mkbox 3 3 0 0)) as [l [rest [F [P [A B]]]]]; [unfold overlap; cbn; lra|]. exists l. split; [exact F|].
  destruct rest as [|w rest]; [rewrite app_nil_r in P; exact P|]. exfalso. apply Permutation_sym in P. 
  assert (I : In w [v]) by (apply (Permutation_in w P); rewrite in_app_iff; right; left; reflexivity). destruct I as [<-|[]].
  inversion B as [|? ? N _]. apply N. unfold overlap; cbn; lra.
Qed.

(** ** C100 *)

(** The pairs reported are the pairs of values held whose boxes overlap, each once. *)
Theorem C100_pairs : forall (T : Type) (get_box : T -> box) same, (forall a b, same a b = true <-> a = b) ->
  forall b os l, holds get_box b os l ->
  exists n, run get_box same b empty os = Some n /\
  exists rest, Permutation (both (pairs l)) (both (all_pairs get_box n) ++ rest) /\
  Forall (fun p => overlap (get_box (fst p)) (get_box (snd p))) (all_pairs get_box n) /\
  Forall (fun p => ~ overlap (get_box (fst p)) (get_box (snd p))) rest.
Proof.
  intros T get_box same S b os l H. destruct (run_ok get_box same S b os l H) as [n [E [W P]]]. exists n. split; [exact E|].
  pose proof (all_pairs_ok get_box n max_depth b W) as A.
  exists (filter (fun p => negb (meet get_box p)) (both (pairs (contents n)))). split; [|split].
  - rewrite A, <- filter_both, <- (pairs_perm _ _ P). apply split_filter.
  - apply Forall_forall. intros p I. apply intersects_overlap. change (meet get_box p = true).
    assert (J : In p (both (filter (meet get_box) (pairs (contents n))))) by (apply (Permutation_in p A); unfold both; apply in_or_app; auto).
    rewrite <- filter_both in J. apply filter_In in J. apply J.
  - apply Forall_forall. intros p I. apply filter_In in I. destruct I as [_ I]. apply negb_true_iff in I. apply intersects_apart, I.
Qed.
Print Assumptions C100_pairs.

(** If no value is held twice, each overlapping pair is reported exactly once, in one order. *)
Theorem C100_once : forall (T : Type) (get_box : T -> box) same, (forall a b, same a b = true <-> a = b) ->
  forall b os l, holds get_box b os l -> NoDup l ->
  exists n, run get_box same b empty os = Some n /\ NoDup (all_pairs get_box n) /\
  forall x y, (In (x, y) (all_pairs get_box n) -> In x l /\ In y l /\ x <> y /\ overlap (get_box x) (get_box y) /\ ~ In (y, x) (all_pairs get_box n)) /\
    (In x l -> In y l -> x <> y -> overlap (get_box x) (get_box y) -> In (x, y) (all_pairs get_box n) \/ In (y, x) (all_pairs get_box n)).
Proof.
  intros T get_box same S b os l H D. destruct (C100_pairs T get_box same S b os l H) as [n [E [rest [P [O N]]]]]. exists n. split; [exact E|].
  pose proof (Permutation_NoDup P (nodup_both l D)) as ND. assert (DB : NoDup (both (all_pairs get_box n))) by (apply (NoDup_left _ _ ND)).
  set (r := all_pairs get_box n) in *. assert (DR : NoDup r) by (unfold both in DB; apply (NoDup_left _ _ DB)). split; [exact DR|].
  assert (X : forall x y, In (x, y) r -> ~ In (y, x) r).
  { intros x y I J. unfold both in DB. apply in_split in I. destruct I as [r1 [r2 ->]]. rewrite <- app_assoc in DB. cbn [app] in DB. apply NoDup_remove_2 in DB. apply DB.
    rewrite !in_app_iff. right. right. apply in_map_iff. exists (y, x). auto. }
  intros x y. split.
  - intros I. assert (J : In (x, y) (both (pairs l))). { apply (Permutation_in _ (Permutation_sym P)). apply in_or_app. left. apply in_both. auto. }
    assert (M : In x l /\ In y l) by (apply in_both in J; destruct J as [J|J]; apply in_pairs in J; tauto). rewrite Forall_forall in O. specialize (O _ I).
    split; [apply M|]. split; [apply M|]. split; [|split; [exact O|apply X, I]]. intros <-. apply (X x x I I).
  - intros I J NE OV. pose proof (pairs_in l x y I J NE) as K. apply (Permutation_in _ P) in K. apply in_app_or in K. destruct K as [K|K]; [apply in_both, K|].
    rewrite Forall_forall in N. specialize (N _ K). contradiction.
Qed.
Print Assumptions C100_once.

(** Two overlapping squares and one apart. *)
Example C100_case : let r := mkbox 0 0 8 8 in let u := mkbox 1 1 2 2 in let v := mkbox 2 2 4 4 in let w := mkbox 7 7 1 1 in
  forall same, (forall a b, same a b = true <-> a = b) ->
  exists n, run (fun x => x) same r empty [Add u; Add v; Add w] = Some n /\
  (In (u, v) (all_pairs (fun x => x) n) \/ In (v, u) (all_pairs (fun x => x) n)) /\ ~ In (u, w) (all_pairs (fun x => x) n).
Proof.
  intros r u v w same S.
  assert (H : holds (fun x : box => x) r [Add u; Add v; Add w] [w; v; u]).
  { apply (holds_add (fun x => x) r [Add u; Add v] [v; u] w); [|unfold inside; cbn; lra]. apply (holds_add (fun x => x) r [Add u] [u] v); [|unfold inside; cbn; lra].
    apply (holds_add (fun x => x) r [] [] u); [constructor|unfold inside; cbn; lra]. }
  assert (uv : u <> v) by (intros E; apply (f_equal b_left) in E; cbn in E; lra).
  destruct (C100_once box (fun x => x) same S r _ _ H) as [n [E [_ Q]]].
  { repeat constructor; cbn; intros X; repeat destruct X as [X|X]; try contradiction; apply (f_equal b_left) in X; cbn in X; lra. }
  exists n. split; [exact E|]. split.
  - apply (Q u v); cbn; auto. unfold overlap; cbn; lra.
  - intros I. apply (Q u w) in I. destruct I as [_ [_ [_ [O _]]]]. unfold overlap in O; cbn in O; lra.
Qed.
