(** Proofs about ray traversal. *)
From Coq Require Import List Bool ZArith Lia Permutation Sorting.Sorted.
From Verif Require Import TraversalModel TraversalSpec.
Import ListNotations.
Open Scope Z_scope.

Section Proofs.
Context {T : Type}.
Variable ltb : T -> T -> bool.
Hypothesis ltb_irrefl : forall x, ltb x x = false.
Hypothesis ltb_trans : forall x y z, ltb x y = true -> ltb y z = true -> ltb x z = true.
Hypothesis ltb_total : forall x y, ltb x y = false -> ltb y x = false -> x = y.

Notation lt := (fun x y => ltb x y = true).

Lemma teqb_eq x y : teqb ltb x y = true <-> x = y.
Proof.
  unfold teqb. split.
  - intros H. apply andb_true_iff in H. destruct H as [H1 H2].
    apply negb_true_iff in H1, H2. auto.
  - intros ->. rewrite ltb_irrefl. reflexivity.
Qed.

Lemma ltb_asym x y : ltb x y = true -> ltb y x = false.
Proof.
  intros H. destruct (ltb y x) eqn:E; auto.
  pose proof (ltb_trans _ _ _ H E) as C. rewrite ltb_irrefl in C. discriminate.
Qed.

Lemma ltb_cases x y : ltb x y = true \/ x = y \/ ltb y x = true.
Proof.
  destruct (ltb x y) eqn:E1; auto. destruct (ltb y x) eqn:E2; auto.
Qed.

Lemma leT_ltb x y : leT lt x y <-> ltb y x = false.
Proof. unfold leT. destruct (ltb y x); split; intros; congruence. Qed.

Lemma leT_refl x : leT lt x x.
Proof. apply leT_ltb, ltb_irrefl. Qed.

Lemma leT_trans x y z : leT lt x y -> leT lt y z -> leT lt x z.
Proof.
  rewrite !leT_ltb. intros H1 H2.
  destruct (ltb z x) eqn:E; auto.
  destruct (ltb_cases x y) as [L|[->|L]]; try congruence.
  pose proof (ltb_trans _ _ _ E L). congruence.
Qed.

Lemma lt_leT x y : ltb x y = true -> leT lt x y.
Proof. intros. apply leT_ltb, ltb_asym; auto. Qed.

Lemma lt_leT_trans x y z : ltb x y = true -> leT lt y z -> ltb x z = true.
Proof.
  rewrite leT_ltb. intros H1 H2. destruct (ltb_cases y z) as [L|[->|L]]; eauto; congruence.
Qed.

Lemma leT_lt_trans x y z : leT lt x y -> ltb y z = true -> ltb x z = true.
Proof.
  rewrite leT_ltb. intros H1 H2. destruct (ltb_cases x y) as [L|[->|L]]; eauto; congruence.
Qed.

(** ** The comparator *)

Definition rank (e : ix T) : Z := if entering e then - hier e else hier e.

Lemma comp_true_iff a b :
  comp ltb a b = true <->
  ltb (dist a) (dist b) = true \/
  (dist a = dist b /\
   ((entering a = false /\ entering b = true) \/
    (entering a = true /\ entering b = true /\ hier b < hier a) \/
    (entering a = false /\ entering b = false /\ hier a < hier b))).
Proof.
  unfold comp.
  destruct (ltb (dist a) (dist b)) eqn:L; [intuition|].
  destruct (teqb ltb (dist a) (dist b)) eqn:E.
  - apply teqb_eq in E.
    destruct (entering a), (entering b);
      rewrite ?Z.ltb_lt; split; intros H; intuition (try congruence; try lia).
  - assert (N : dist a <> dist b). { intros C. apply teqb_eq in C. congruence. }
    split; [discriminate|]. intros [H|[H _]]; congruence.
Qed.

Lemma comp_irrefl a : comp ltb a a = false.
Proof.
  destruct (comp ltb a a) eqn:E; auto.
  apply comp_true_iff in E. rewrite ltb_irrefl in E.
  destruct E as [E|[_ [[E1 E2]|[[E1 [E2 E3]]|[E1 [E2 E3]]]]]]; try congruence; lia.
Qed.

Lemma comp_trans a b c : comp ltb a b = true -> comp ltb b c = true -> comp ltb a c = true.
Proof.
  rewrite !comp_true_iff. intros [H1|[H1 H1']] [H2|[H2 H2']].
  - left. eauto.
  - left. rewrite <- H2. auto.
  - left. rewrite H1. auto.
  - right. split; [congruence|].
    intuition (try congruence; try lia).
Qed.

(** Incomparability is equality of the recorded fields. *)
Lemma comp_incomparable a b :
  comp ltb a b = false -> comp ltb b a = false -> a = b.
Proof.
  intros H1 H2.
  destruct (ltb_cases (dist a) (dist b)) as [L|[E|L]].
  - assert (comp ltb a b = true) by (apply comp_true_iff; auto). congruence.
  - destruct a as [da ha ea], b as [db hb eb]; cbn in *. subst db.
    destruct ea, eb.
    + destruct (Z.lt_trichotomy ha hb) as [L|[->|L]]; auto.
      * assert (C : comp ltb (mkix da hb true) (mkix da ha true) = true)
          by (apply comp_true_iff; cbn; intuition). congruence.
      * assert (C : comp ltb (mkix da ha true) (mkix da hb true) = true)
          by (apply comp_true_iff; cbn; intuition). congruence.
    + assert (C : comp ltb (mkix da hb false) (mkix da ha true) = true)
        by (apply comp_true_iff; cbn; intuition). congruence.
    + assert (C : comp ltb (mkix da ha false) (mkix da hb true) = true)
        by (apply comp_true_iff; cbn; intuition). congruence.
    + destruct (Z.lt_trichotomy ha hb) as [L|[->|L]]; auto.
      * assert (C : comp ltb (mkix da ha false) (mkix da hb false) = true)
          by (apply comp_true_iff; cbn; intuition). congruence.
      * assert (C : comp ltb (mkix da hb false) (mkix da ha false) = true)
          by (apply comp_true_iff; cbn; intuition). congruence.
  - assert (comp ltb b a = true) by (apply comp_true_iff; auto). congruence.
Qed.

Lemma comp_total a b : comp ltb a b = true \/ a = b \/ comp ltb b a = true.
Proof.
  destruct (comp ltb a b) eqn:E1; auto. destruct (comp ltb b a) eqn:E2; auto.
  right; left. apply comp_incomparable; auto.
Qed.

(** [std::sort]'s guarantee: no later element compares below an earlier one. *)
Definition sorted (l : list (ix T)) : Prop :=
  StronglySorted (fun a b => comp ltb b a = false) l.

Lemma insert_sorted_perm x l : Permutation (insert_sorted ltb x l) (x :: l).
Proof.
  induction l as [|y r IH]; cbn; auto.
  destruct (comp ltb y x); auto.
  rewrite IH. apply perm_swap.
Qed.

Lemma sort_perm l : Permutation (sort_intersections ltb l) l.
Proof.
  induction l as [|x r IH]; cbn; auto.
  rewrite insert_sorted_perm. auto.
Qed.

Lemma insert_sorted_sorted x l : sorted l -> sorted (insert_sorted ltb x l).
Proof.
  unfold sorted. induction 1 as [|y r Hr IH Hy]; cbn.
  - repeat constructor.
  - destruct (comp ltb y x) eqn:E.
    + constructor; auto.
      rewrite Forall_forall in *. intros z Hz.
      eapply Permutation_in in Hz; [|apply insert_sorted_perm].
      destruct Hz as [<-|Hz]; auto.
      destruct (comp ltb x y) eqn:E2; auto.
      pose proof (comp_trans _ _ _ E E2) as C. rewrite comp_irrefl in C. discriminate.
    + constructor; [constructor; auto|].
      constructor; auto.
      rewrite Forall_forall in *. intros z Hz. specialize (Hy z Hz).
      destruct (comp ltb z x) eqn:E2; auto.
      destruct (comp_total y z) as [L|[->|L]]; congruence || eauto.
      pose proof (comp_trans _ _ _ L E2). congruence.
Qed.

Lemma sort_sorted l : sorted (sort_intersections ltb l).
Proof.
  induction l as [|x r IH]; cbn; [constructor|]. apply insert_sorted_sorted; auto.
Qed.

Lemma sorted_perm_unique l1 : forall l2,
  sorted l1 -> sorted l2 -> Permutation l1 l2 -> l1 = l2.
Proof.
  unfold sorted.
  induction l1 as [|a r1 IH]; intros l2 S1 S2 P.
  - apply Permutation_nil in P. auto.
  - destruct l2 as [|b r2]. { apply Permutation_sym, Permutation_nil in P. discriminate. }
    assert (a = b) as ->.
    { inversion S1 as [|? ? S1' F1]; inversion S2 as [|? ? S2' F2]; subst.
      rewrite Forall_forall in F1, F2.
      assert (Ha : In a (b :: r2)) by (eapply Permutation_in; [exact P|left; auto]).
      assert (Hb : In b (a :: r1)) by (eapply Permutation_in; [apply Permutation_sym; exact P|left; auto]).
      destruct Ha as [Ha|Ha]; auto. destruct Hb as [Hb|Hb]; auto.
      apply comp_incomparable; auto. }
    f_equal. apply IH.
    + inversion S1; auto.
    + inversion S2; auto.
    + eapply Permutation_cons_inv; eauto.
Qed.

Lemma sorted_app_order p q a b :
  sorted (p ++ q) -> In a p -> In b q -> comp ltb b a = false.
Proof.
  unfold sorted. induction p as [|x p IH]; cbn; intros S Ha Hb; [tauto|].
  inversion S as [|? ? S' F]; subst. rewrite Forall_forall in F.
  destruct Ha as [<-|Ha]; auto. apply F. apply in_or_app. auto.
Qed.

(** ** Stack lemmas *)

Definition sok (s : @stack T) : Prop := StronglySorted Z.lt (map fst s).

Lemma stack_insert_in k (e : ix T) s x :
  sok s -> ~ In k (map fst s) ->
  (In x (stack_insert k e s) <-> x = (k, e) \/ In x s).
Proof.
  unfold sok. induction s as [|[k' e'] r IH]; cbn; intros S N.
  - intuition.
  - inversion S as [|? ? S' F]; subst.
    destruct (Z.ltb_spec k k').
    + cbn. intuition.
    + destruct (Z.eqb_spec k k').
      * subst. tauto.
      * cbn. rewrite IH; auto. intuition.
Qed.

Lemma stack_insert_keys k (e : ix T) s x :
  In x (map fst (stack_insert k e s)) <-> x = k \/ In x (map fst s).
Proof.
  induction s as [|[k' e'] r IH]; cbn.
  - intuition.
  - destruct (Z.ltb_spec k k'); cbn.
    + intuition.
    + destruct (Z.eqb_spec k k').
      * subst; cbn. intuition.
      * cbn. rewrite IH. intuition.
Qed.

Lemma stack_insert_sok k (e : ix T) s : sok s -> sok (stack_insert k e s).
Proof.
  unfold sok. induction s as [|[k' e'] r IH]; cbn; intros S.
  - repeat constructor.
  - inversion S as [|? ? S' F]; subst.
    destruct (Z.ltb_spec k k'); cbn.
    + constructor; auto. constructor; auto.
      rewrite Forall_forall in *. intros z Hz. specialize (F z Hz). lia.
    + destruct (Z.eqb_spec k k'); cbn; auto.
      constructor; auto. rewrite Forall_forall in *. intros z Hz.
      apply stack_insert_keys in Hz. destruct Hz as [->|Hz]; [lia|auto].
Qed.

Lemma stack_erase_in k (s : @stack T) x :
  sok s -> (In x (stack_erase k s) <-> In x s /\ fst x <> k).
Proof.
  unfold sok. induction s as [|[k' e'] r IH]; cbn; intros S.
  - intuition.
  - inversion S as [|? ? S' F]; subst. rewrite Forall_forall in F.
    destruct (Z.eqb_spec k k').
    + subst. split.
      * intros H. split; auto. intros E. apply (in_map fst) in H. rewrite E in H.
        specialize (F _ H). lia.
      * intros [[<-|H] N]; auto. cbn in N. tauto.
    + cbn. rewrite IH; auto. split.
      * intros [<-|[H1 H2]]; auto.
      * intros [[<-|H] N]; auto.
Qed.

Lemma stack_erase_sok k (s : @stack T) : sok s -> sok (stack_erase k s).
Proof.
  unfold sok. induction s as [|[k' e'] r IH]; cbn; intros S; auto.
  inversion S as [|? ? S' F]; subst.
  destruct (Z.eqb_spec k k'); auto. cbn. constructor; auto.
  rewrite Forall_forall in *. intros z Hz. apply F.
  apply in_map_iff in Hz. destruct Hz as [y [<- Hy]].
  apply stack_erase_in in Hy; auto. apply in_map. tauto.
Qed.

(** If every key is below [k] and the stack is non-empty, the element found is
    the one with the greatest key. *)
Lemma stack_below_max k (s : @stack T) :
  sok s -> s <> [] -> (forall x, In x s -> fst x < k) ->
  exists k' e', stack_below k s = Some e' /\ In (k', e') s /\ forall x, In x s -> fst x <= k'.
Proof.
  unfold sok. induction s as [|[k0 e0] r IH]; cbn; intros S N H; [congruence|].
  inversion S as [|? ? S' F]; subst. rewrite Forall_forall in F.
  assert (k0 < k) as L by (apply (H (k0, e0)); auto).
  apply Z.ltb_lt in L. rewrite L.
  destruct r as [|y r'].
  - cbn. exists k0, e0. split; [auto|]. split; [auto|]. intros x [<-|[]]. cbn. lia.
  - destruct IH as [k' [e' [E [I M]]]]; auto; try discriminate.
    rewrite E. exists k', e'. split; [auto|]. split; [auto|].
    intros x [<-|Hx]; [|auto]. cbn.
    apply (in_map fst) in I. specialize (F _ I). cbn in F. lia.
Qed.

Lemma sok_functional (s : @stack T) k e1 e2 : sok s -> In (k, e1) s -> In (k, e2) s -> e1 = e2.
Proof.
  unfold sok. induction s as [|[k0 e0] r IH]; cbn; intros S H1 H2; [tauto|].
  inversion S as [|? ? S' F]; subst. rewrite Forall_forall in F.
  destruct H1 as [H1|H1], H2 as [H2|H2].
  - congruence.
  - inversion H1; subst. apply (in_map fst) in H2. specialize (F _ H2). cbn in F. lia.
  - inversion H2; subst. apply (in_map fst) in H1. specialize (F _ H1). cbn in F. lia.
  - eauto.
Qed.

(** ** Any callback sees a prefix of the callbacks of the full traversal *)

Definition collect (acc : list (ix T * ix T * T)) (cur e : ix T) (last : T) :=
  (acc ++ [(cur, e, last)], false).

Lemma loop_collect_acc reverse rest : forall acc stk cur last segs,
  loop collect reverse acc stk cur last rest = Ok segs ->
  exists segs', segs = acc ++ segs' /\
    forall acc', loop collect reverse acc' stk cur last rest = Ok (acc' ++ segs').
Proof.
  induction rest as [|e rest IH]; cbn; intros acc stk cur last segs H.
  - inversion H; subst. exists []. rewrite app_nil_r. split; auto.
    intros. rewrite app_nil_r. auto.
  - destruct (xorb (entering e) reverse).
    + destruct (Z.ltb (hier cur) (hier e)).
      * apply IH in H. destruct H as [s' [-> H]].
        exists ((cur, e, last) :: s'). rewrite <- app_assoc. split; auto.
        intros acc'. rewrite H. rewrite <- app_assoc. auto.
      * apply IH in H. auto.
    + destruct (Z.leb (hier e) (hier cur)); [|discriminate].
      destruct (Z.eqb (hier e) (hier cur)).
      * destruct (stack_erase (hier e) stk) as [|y r] eqn:SE.
        -- inversion H; subst. exists [(cur, e, last)]. auto.
        -- destruct (stack_below (hier e) (y :: r)) as [c|]; [|discriminate].
           apply IH in H. destruct H as [s' [-> H]].
           exists ((cur, e, last) :: s'). rewrite <- app_assoc. split; auto.
           intros acc'. rewrite H. rewrite <- app_assoc. auto.
      * apply IH in H. auto.
Qed.

Lemma loop_feed {S} (cb : S -> ix T -> ix T -> T -> S * bool) reverse rest :
  forall s stk cur last segs,
  loop collect reverse [] stk cur last rest = Ok segs ->
  loop cb reverse s stk cur last rest = Ok (feed cb s segs).
Proof.
  induction rest as [|e rest IH]; cbn; intros s stk cur last segs H.
  - inversion H; subst. auto.
  - destruct (xorb (entering e) reverse).
    + destruct (Z.ltb (hier cur) (hier e)).
      * apply loop_collect_acc in H. destruct H as [s' [-> H]]. cbn.
        destruct (cb s cur e last) as [s1 done]. destruct done; auto.
        apply IH. apply (H []).
      * auto.
    + destruct (Z.leb (hier e) (hier cur)); [|discriminate].
      destruct (Z.eqb (hier e) (hier cur)).
      * destruct (stack_erase (hier e) stk) as [|y r] eqn:SE.
        -- inversion H; subst. cbn. destruct (cb s cur e last) as [s1 done]. destruct done; auto.
        -- destruct (stack_below (hier e) (y :: r)) as [c|] eqn:SB; [|discriminate].
           apply loop_collect_acc in H. destruct H as [s' [-> H]]. cbn.
           destruct (cb s cur e last) as [s1 done]. destruct done; auto.
           apply IH. apply (H []).
      * auto.
Qed.

Lemma sector_loop_feed {S} (cb : S -> ix T -> ix T -> T -> S * bool) s l reverse segs :
  all_callbacks l reverse = Ok segs ->
  sector_loop cb s l reverse = Ok (feed cb s segs).
Proof.
  unfold all_callbacks, sector_loop.
  destruct (if reverse then rev l else l) as [|c r]; intros H.
  - inversion H; subst. auto.
  - apply loop_feed; auto.
Qed.

(** ** Reverse traversal is forward traversal of the mirrored list *)

Section Mirror.
Variable neg : T -> T.

Definition mir (e : ix T) : ix T := mkix (neg (dist e)) (hier e) (negb (entering e)).

Lemma mirror_eq l : mirror neg l = map mir (rev l).
Proof. reflexivity. Qed.

Definition mirs (s : @stack T) : @stack T := map (fun p => (fst p, mir (snd p))) s.

Lemma mirs_insert k e s : mirs (stack_insert k e s) = stack_insert k (mir e) (mirs s).
Proof.
  induction s as [|[k' e'] r IH]; cbn; auto.
  destruct (Z.ltb k k'); cbn; auto. destruct (Z.eqb k k'); cbn; auto. f_equal. apply IH.
Qed.

Lemma mirs_erase k s : mirs (stack_erase k s) = stack_erase k (mirs s).
Proof.
  induction s as [|[k' e'] r IH]; cbn; auto.
  destruct (Z.eqb k k'); cbn; auto. f_equal. apply IH.
Qed.

Lemma mirs_below k s : stack_below k (mirs s) = option_map mir (stack_below k s).
Proof.
  induction s as [|[k' e'] r IH]; cbn; auto.
  destruct (Z.ltb k' k); cbn; auto. unfold mirs in IH. rewrite IH.
  destruct (stack_below k r); auto.
Qed.

Lemma loop_mirror {S} (cb cb' : S -> ix T -> ix T -> T -> S * bool) :
  (forall s c e t, cb' s (mir c) (mir e) (neg t) = cb s c e t) ->
  forall rest s stk cur last,
  loop cb true s stk cur last rest =
  loop cb' false s (mirs stk) (mir cur) (neg last) (map mir rest).
Proof.
  intros Hcb. induction rest as [|e rest IH]; cbn; intros s stk cur last; auto.
  rewrite Bool.xorb_true_r, Bool.xorb_false_r.
  destruct (entering e); cbn.
  - destruct (Z.leb (hier e) (hier cur)); auto.
    rewrite <- mirs_erase.
    destruct (Z.eqb (hier e) (hier cur)).
    + rewrite Hcb. destruct (cb s cur e last) as [s1 done]. destruct done; auto.
      destruct (stack_erase (hier e) stk) as [|y r] eqn:SE; auto.
      rewrite (mirs_below (hier e) (y :: r)).
      cbn [mirs map].
      destruct (stack_below (hier e) (y :: r)); cbn [option_map]; auto.
      rewrite IH. auto.
    + apply IH.
  - destruct (Z.ltb (hier cur) (hier e)).
    + rewrite Hcb. destruct (cb s cur e last) as [s1 done]. destruct done; auto.
      rewrite IH, mirs_insert. auto.
    + rewrite IH, mirs_insert. auto.
Qed.

Lemma sector_loop_mirror {S} (cb cb' : S -> ix T -> ix T -> T -> S * bool) s l :
  (forall s c e t, cb' s (mir c) (mir e) (neg t) = cb s c e t) ->
  sector_loop cb s l true = sector_loop cb' s (mirror neg l) false.
Proof.
  intros Hcb. unfold sector_loop. rewrite mirror_eq.
  destruct (rev l) as [|c r]; cbn; auto.
  rewrite (loop_mirror cb cb'); auto.
Qed.
End Mirror.

(** ** Main invariant *)

Section Main.
Variable ss : list (sector T).
Variable l : list (ix T).
Hypothesis Hgood : good_sectors lt ss.
Hypothesis Hperm : Permutation l (crossings ss).
Hypothesis Hsorted : sorted l.

Lemma crossing_iff e :
  In e l <-> exists s iv, In s ss /\ In iv (ivs s) /\
    (e = mkix (fst iv) (level s) true \/ e = mkix (snd iv) (level s) false).
Proof.
  split.
  - intros H. eapply Permutation_in in H; [|exact Hperm].
    apply in_flat_map in H. destruct H as [s [Hs H]].
    apply in_flat_map in H. destruct H as [iv [Hiv H]].
    exists s, iv. cbn in H. intuition.
  - intros [s [iv [Hs [Hiv H]]]].
    eapply Permutation_in; [apply Permutation_sym; exact Hperm|].
    apply in_flat_map. exists s. split; auto.
    apply in_flat_map. exists iv. split; auto. cbn. intuition.
Qed.

Lemma level_inj s1 s2 : In s1 ss -> In s2 ss -> level s1 = level s2 -> s1 = s2.
Proof.
  destruct Hgood as [_ N]. clear - N. induction ss as [|s r IH]; cbn in *; [tauto|].
  inversion N as [|? ? Nin N']; subst.
  intros [->|H1] [->|H2] E; auto.
  - exfalso. apply Nin. rewrite E. apply in_map; auto.
  - exfalso. apply Nin. rewrite <- E. apply in_map; auto.
Qed.

Lemma l_nodup : NoDup l.
Proof.
 eapply Permutation_NoDup; [apply Permutation_sym; exact Hperm|].
      clear - Hgood ltb_irrefl ltb_trans ltb_total.
      destruct Hgood as [G N]. unfold crossings. induction ss as [|s0 r IH]; cbn; [constructor|].
      inversion N as [|? ? Nin N']; subst. inversion G as [|? ? G0 G']; subst.
      assert (HR : NoDup (flat_map (fun s => flat_map (fun iv => [mkix (fst iv) (level s) true; mkix (snd iv) (level s) false]) (ivs s)) r)).
      { apply IH; auto. split; auto. }
      assert (HL : forall e, In e (flat_map (fun iv => [mkix (fst iv) (level s0) true; mkix (snd iv) (level s0) false]) (ivs s0)) -> hier e = level s0).
      { intros e He. apply in_flat_map in He. destruct He as [iv [_ He]]. cbn in He. intuition; subst; auto. }
      assert (H0 : NoDup (flat_map (fun iv => [mkix (fst iv) (level s0) true; mkix (snd iv) (level s0) false]) (ivs s0))).
      { destruct G0 as [F O]. clear - F O ltb_irrefl ltb_trans ltb_total. induction (ivs s0) as [|iv m IHm]; cbn; [constructor|].
        inversion F as [|? ? F1 F2]; subst. inversion O as [|? ? O1 O2]; subst.
        rewrite Forall_forall in O1, F2.
        constructor.
        - intros [H|H]; [discriminate|]. apply in_flat_map in H. destruct H as [j [Hj H]].
          cbn in H. destruct H as [H|[H|[]]]; [|discriminate]. inversion H as [H1].
          specialize (O1 _ Hj). apply leT_ltb in O1. rewrite H1 in O1. congruence.
        - constructor.
          + intros H. apply in_flat_map in H. destruct H as [j [Hj H]].
            cbn in H. destruct H as [H|[H|[]]]; [discriminate|]. inversion H as [H1].
            specialize (O1 _ Hj). specialize (F2 _ Hj). cbn in *. apply leT_ltb in O1. rewrite H1 in F2. congruence.
          + apply IHm; auto. apply Forall_forall; auto. }
      revert H0 HR HL Nin.
      generalize (flat_map (fun iv => [mkix (fst iv) (level s0) true; mkix (snd iv) (level s0) false]) (ivs s0)) as A.
      intros A H0 HR HL Nin. induction A as [|a A IHA]; cbn; auto.
      inversion H0; subst. constructor.
      - rewrite in_app_iff. intros [H|H]; [tauto|].
        apply in_flat_map in H. destruct H as [s [Hs H]]. apply in_flat_map in H. destruct H as [iv [Hiv H]].
        assert (hier a = level s) by (cbn in H; intuition; subst; auto).
        apply Nin. rewrite <- (HL a (or_introl eq_refl)), H1. apply in_map; auto.
      - apply IHA; auto. intros; apply HL; right; auto. 
Qed.

Lemma iv_lt s iv : In s ss -> In iv (ivs s) -> ltb (fst iv) (snd iv) = true.
Proof.
  destruct Hgood as [G _]. rewrite Forall_forall in G. intros Hs Hiv.
  destruct (G _ Hs) as [F _]. rewrite Forall_forall in F. apply F; auto.
Qed.

Lemma ordpairs_cases {A} (R : A -> A -> Prop) (m : list A) x y :
  ForallOrdPairs R m -> In x m -> In y m -> x = y \/ R x y \/ R y x.
Proof.
  induction 1 as [|a m F H IH]; cbn; [tauto|].
  rewrite Forall_forall in F.
  intros [->|Hx] [->|Hy]; auto.
Qed.

Lemma iv_disj s i j : In s ss -> In i (ivs s) -> In j (ivs s) ->
  i = j \/ leT lt (snd i) (fst j) \/ leT lt (snd j) (fst i).
Proof.
  destruct Hgood as [G _]. rewrite Forall_forall in G. intros Hs Hi Hj.
  destruct (G _ Hs) as [_ F].
  apply (ordpairs_cases _ _ _ _ F Hi Hj).
Qed.

(** A split of the sorted list: [p] visited, [q] still to visit. *)
Definition is_split (p q : list (ix T)) := p ++ q = l.

Lemma split_order p q a b : is_split p q -> In a p -> In b q -> comp ltb b a = false.
Proof. unfold is_split. intros H. apply sorted_app_order. rewrite H. exact Hsorted. Qed.

Lemma next_split p e q : is_split p (e :: q) -> is_split (p ++ [e]) q.
Proof. unfold is_split. intros <-. rewrite <- app_assoc. auto. Qed.

Lemma last_order p e q b : is_split (p ++ [e]) q -> In b q -> comp ltb b e = false.
Proof. intros H Hb. apply (split_order _ _ _ _ H); auto. apply in_or_app. right; left; auto. Qed.

Lemma split_in p q e : is_split p q -> (In e l <-> In e p \/ In e q).
Proof. unfold is_split. intros H. rewrite <- H, in_app_iff. tauto. Qed.

(** [iv] of [s] is open at the split: entered, not yet left. *)
Definition open_at (p q : list (ix T)) (s : sector T) (iv : T * T) : Prop :=
  In s ss /\ In iv (ivs s) /\
  In (mkix (fst iv) (level s) true) p /\ In (mkix (snd iv) (level s) false) q.

Lemma exit_after_touch s i j :
  In s ss -> In i (ivs s) -> In j (ivs s) -> leT lt (snd i) (fst j) ->
  comp ltb (mkix (snd i) (level s) false) (mkix (fst j) (level s) true) = true.
Proof.
  intros Hs Hi Hj L. apply comp_true_iff. cbn.
  apply leT_ltb in L.
  destruct (ltb_cases (snd i) (fst j)) as [?|[?|?]]; auto; congruence.
Qed.

Lemma enter_before_exit s i :
  In s ss -> In i (ivs s) ->
  comp ltb (mkix (fst i) (level s) true) (mkix (snd i) (level s) false) = true.
Proof.
  intros. apply comp_true_iff. cbn. left. eapply iv_lt; eauto.
Qed.

Lemma open_unique p q s i j :
  is_split p q -> open_at p q s i -> open_at p q s j -> i = j.
Proof.
  intros Hpq [Hs [Hi [Ei Xi]]] [_ [Hj [Ej Xj]]].
  destruct (iv_disj _ _ _ Hs Hi Hj) as [E|[L|L]]; auto; exfalso.
  - pose proof (exit_after_touch _ _ _ Hs Hi Hj L) as C.
    rewrite (split_order _ _ _ _ Hpq Ej Xi) in C. discriminate.
  - pose proof (exit_after_touch _ _ _ Hs Hj Hi L) as C.
    rewrite (split_order _ _ _ _ Hpq Ei Xj) in C. discriminate.
Qed.

(** Invariant of the traversal. *)
Record inv (p q : list (ix T)) (stk : stack) (cur : ix T) (last : T) : Prop := {
  inv_split : is_split p q;
  inv_sok : sok stk;
  inv_stk : forall h e, In (h, e) stk <->
    exists s iv, open_at p q s iv /\ h = level s /\ e = mkix (fst iv) (level s) true;
  inv_cur : In (hier cur, cur) stk;
  inv_max : forall x, In x stk -> fst x <= hier cur;
  inv_curdist : leT lt (dist cur) last;
  inv_past : forall e, In e p -> leT lt (dist e) last \/ hier e <= hier cur;
  inv_lastp : exists e, In e p /\ dist e = last
}.

(** What a callback at [e] covers. *)
Lemma callback_covers p e q stk cur last :
  inv p (e :: q) stk cur last ->
  leT lt last (dist e) /\
  (forall x, ltb last x = true -> ltb x (dist e) = true -> top_level (inside lt) ss x (hier cur)) /\
  (forall x, leT lt last x -> ltb x (dist e) = true -> top_level (inside_ho lt) ss x (hier cur)).
Proof.
  intros I.
  destruct (inv_lastp _ _ _ _ _ I) as [e0 [He0 D0]].
  assert (Hlast : leT lt last (dist e)).
  { subst last. pose proof (split_order _ _ e0 e (inv_split _ _ _ _ _ I) He0 (or_introl eq_refl)) as C.
    apply leT_ltb. destruct (ltb (dist e) (dist e0)) eqn:E; auto.
    assert (comp ltb e e0 = true) by (apply comp_true_iff; auto). congruence. }
  assert (HC : exists s iv, In s ss /\ In iv (ivs s) /\ level s = hier cur /\ leT lt (fst iv) last /\ leT lt (dist e) (snd iv)).
  { pose proof (inv_cur _ _ _ _ _ I) as C. apply (inv_stk _ _ _ _ _ I) in C.
    destruct C as [s [iv [[Hs [Hiv [E X]]] [EH EC]]]].
    exists s, iv. split; auto. split; auto. split; auto. split.
    + pose proof (inv_curdist _ _ _ _ _ I) as CD. rewrite EC in CD. exact CD.
    + destruct X as [X|X].
      * rewrite X. cbn. apply leT_refl.
      * pose proof (next_split _ _ _ (inv_split _ _ _ _ _ I)) as NS.
        pose proof (last_order _ _ _ _ NS X) as O.
        apply leT_ltb. destruct (ltb (snd iv) (dist e)) eqn:E2; auto.
        assert (comp ltb (mkix (snd iv) (level s) false) e = true) by (apply comp_true_iff; auto).
        congruence. }
  assert (HM : forall x s iv, leT lt last x -> ltb x (dist e) = true -> In s ss -> In iv (ivs s) ->
     leT lt (fst iv) x -> ltb x (snd iv) = true -> level s <= hier cur).
  { intros x s iv L1 L2 Hs Hiv La Lb.
    assert (HE : In (mkix (fst iv) (level s) true) p).
    { assert (HEl : In (mkix (fst iv) (level s) true) l) by (apply crossing_iff; eauto 6).
      apply (split_in _ _ _ (inv_split _ _ _ _ _ I)) in HEl. destruct HEl as [H|H]; auto.
      exfalso. destruct H as [H|H].
      - rewrite H in L2. cbn in L2. apply leT_ltb in La. congruence.
      - pose proof (next_split _ _ _ (inv_split _ _ _ _ _ I)) as NS.
        pose proof (last_order _ _ _ _ NS H) as C.
        assert (comp ltb (mkix (fst iv) (level s) true) e = true).
        { apply comp_true_iff. left. cbn. eapply leT_lt_trans; eauto. }
        congruence. }
    assert (HX : In (mkix (snd iv) (level s) false) l) by (apply crossing_iff; eauto 6).
    apply (split_in _ _ _ (inv_split _ _ _ _ _ I)) in HX. destruct HX as [HX|HX].
    + destruct (inv_past _ _ _ _ _ I _ HX) as [H|H]; cbn in H; auto.
      exfalso. apply leT_ltb in H.
      pose proof (leT_lt_trans _ _ _ L1 Lb). congruence.
    + apply (inv_max _ _ _ _ _ I (level s, mkix (fst iv) (level s) true)).
      apply (inv_stk _ _ _ _ _ I). exists s, iv. split; auto.
      split; auto. }
  split; auto. destruct HC as [s [iv [Hs [Hiv [HL [HA HB]]]]]].
  split; intros x L1 L2; split.
  - exists s. split; auto. split; auto. exists iv. split; auto. split.
    + eapply leT_lt_trans; eauto.
    + eapply lt_leT_trans; eauto.
  - intros s' Hs' [iv' [Hiv' [La Lb]]]. apply (HM x s' iv'); auto using lt_leT.
  - exists s. split; auto. split; auto. exists iv. split; auto. split.
    + eapply leT_trans; eauto.
    + eapply lt_leT_trans; eauto.
  - intros s' Hs' [iv' [Hiv' [La Lb]]]. apply (HM x s' iv'); auto.
Qed.

Lemma last_le_next p e q stk cur last :
  inv p (e :: q) stk cur last -> leT lt last (dist e).
Proof. intros I. apply (callback_covers _ _ _ _ _ _ I). Qed.

(** Entering a sector: its level is not on the stack. *)
Lemma enter_fresh p e q stk cur last :
  inv p (e :: q) stk cur last -> entering e = true -> ~ In (hier e) (map fst stk).
Proof.
  intros I He Hin. apply in_map_iff in Hin. destruct Hin as [[h e2] [Eh Hin]]. cbn in Eh. subst h.
  apply (inv_stk _ _ _ _ _ I) in Hin.
  destruct Hin as [s [iv [[Hs [Hiv [E X]]] [EH EC]]]].
  assert (Hel : In e l). { apply (split_in _ _ _ (inv_split _ _ _ _ _ I)). right; left; auto. }
  apply crossing_iff in Hel. destruct Hel as [s' [iv' [Hs' [Hiv' [Hee|Hee]]]]]; subst e; cbn in *; [|discriminate].
  assert (s' = s) by (apply level_inj; auto). subst s'.
  destruct (iv_disj _ _ _ Hs Hiv Hiv') as [->|[L|L]].
  - pose proof (split_order _ _ _ _ (inv_split _ _ _ _ _ I) E (or_introl eq_refl)) as C.
    (* same event both visited and next: the exit follows, contradiction with NoDup via order *)
    destruct X as [X|X]; [discriminate|].
    (* use uniqueness of positions *)
    pose proof l_nodup as ND.
    pose proof (inv_split _ _ _ _ _ I) as SP. unfold is_split in SP. rewrite <- SP in ND.
    apply NoDup_remove_2 in ND. apply ND. rewrite in_app_iff. auto.
  - pose proof (exit_after_touch _ _ _ Hs Hiv Hiv' L) as C.
    destruct X as [X|X]; [discriminate|].
    pose proof (next_split _ _ _ (inv_split _ _ _ _ _ I)) as NS.
    rewrite (last_order _ _ _ _ NS X) in C. discriminate.
  - pose proof (split_order _ _ _ _ (inv_split _ _ _ _ _ I) E (or_introl eq_refl)) as C.
    assert (comp ltb {| dist := fst iv'; hier := level s; entering := true |}
         {| dist := fst iv; hier := level s; entering := true |} = true).
    { apply comp_true_iff. left. cbn. pose proof (iv_lt _ _ Hs Hiv').
      eapply lt_leT_trans; eauto. }
    congruence.
Qed.

(** The stack after entering. *)
Lemma enter_stack p e q stk cur last :
  inv p (e :: q) stk cur last -> entering e = true ->
  sok (stack_insert (hier e) e stk) /\
  forall h e', In (h, e') (stack_insert (hier e) e stk) <->
    exists s iv, open_at (p ++ [e]) q s iv /\ h = level s /\ e' = mkix (fst iv) (level s) true.
Proof.
  intros I He. split. { apply stack_insert_sok, (inv_sok _ _ _ _ _ I). }
  pose proof (enter_fresh _ _ _ _ _ _ I He) as FR.
  intros h e'. rewrite stack_insert_in; [|apply (inv_sok _ _ _ _ _ I)|exact FR].
  pose proof (next_split _ _ _ (inv_split _ _ _ _ _ I)) as NS.
  split.
  - intros [H|H].
    + inversion H; subst h e'.
      assert (Hel : In e l). { apply (split_in _ _ _ (inv_split _ _ _ _ _ I)). right; left; auto. }
      apply crossing_iff in Hel. destruct Hel as [s [iv [Hs [Hiv [Hee|Hee]]]]]; subst e; cbn in *; [|discriminate].
      exists s, iv. split; [|auto]. split; [auto|]. split; [auto|]. split.
      * apply in_or_app. right; left; auto.
      * assert (HX : In (mkix (snd iv) (level s) false) l) by (apply crossing_iff; eauto 6).
        apply (split_in _ _ _ NS) in HX. destruct HX as [HX|HX]; auto. exfalso.
        apply in_app_iff in HX. destruct HX as [HX|[HX|[]]]; [|discriminate].
        pose proof (split_order _ _ _ _ (inv_split _ _ _ _ _ I) HX (or_introl eq_refl)) as C.
        rewrite enter_before_exit in C; auto. discriminate.
    + apply (inv_stk _ _ _ _ _ I) in H. destruct H as [s [iv [[Hs [Hiv [E X]]] [-> ->]]]].
      exists s, iv. split; [|auto]. split; [auto|]. split; [auto|]. split.
      * apply in_or_app; auto.
      * destruct X as [X|X]; auto. subst e. discriminate.
  - intros [s [iv [[Hs [Hiv [E X]]] [-> ->]]]].
    apply in_app_iff in E. destruct E as [E|[E|[]]].
    + right. apply (inv_stk _ _ _ _ _ I). exists s, iv. split; [|auto].
      split; [auto|]. split; [auto|]. split; [auto|right; auto].
    + left. subst e. auto.
Qed.

(** Leaving a sector: its level is on the stack. *)
Lemma exit_present p e q stk cur last :
  inv p (e :: q) stk cur last -> entering e = false ->
  exists s iv, open_at p (e :: q) s iv /\ hier e = level s /\ e = mkix (snd iv) (level s) false.
Proof.
  intros I He.
  assert (Hel : In e l). { apply (split_in _ _ _ (inv_split _ _ _ _ _ I)). right; left; auto. }
  apply crossing_iff in Hel. destruct Hel as [s [iv [Hs [Hiv [Hee|Hee]]]]]; subst e; cbn in *; [discriminate|].
  exists s, iv. split; [|auto]. split; [auto|]. split; [auto|]. split; [|left; auto].
  assert (HE : In (mkix (fst iv) (level s) true) l) by (apply crossing_iff; eauto 6).
  apply (split_in _ _ _ (inv_split _ _ _ _ _ I)) in HE. destruct HE as [HE|[HE|HE]]; auto; [discriminate|].
  pose proof (next_split _ _ _ (inv_split _ _ _ _ _ I)) as NS.
  pose proof (last_order _ _ _ _ NS HE) as C.
  rewrite enter_before_exit in C; auto. discriminate.
Qed.

Lemma exit_stack p e q stk cur last :
  inv p (e :: q) stk cur last -> entering e = false ->
  sok (stack_erase (hier e) stk) /\
  forall h e', In (h, e') (stack_erase (hier e) stk) <->
    exists s iv, open_at (p ++ [e]) q s iv /\ h = level s /\ e' = mkix (fst iv) (level s) true.
Proof.
  intros I He. split. { apply stack_erase_sok, (inv_sok _ _ _ _ _ I). }
  destruct (exit_present _ _ _ _ _ _ I He) as [s0 [iv0 [O0 [H0 E0]]]].
  intros h e'. rewrite stack_erase_in; [|apply (inv_sok _ _ _ _ _ I)]. cbn.
  rewrite (inv_stk _ _ _ _ _ I).
  split.
  - intros [[s [iv [[Hs [Hiv [E X]]] [-> ->]]]] N].
    exists s, iv. split; [|auto]. split; [auto|]. split; [auto|]. split.
    + apply in_or_app; auto.
    + destruct X as [X|X]; auto. subst e. cbn in *. congruence.
  - intros [s [iv [[Hs [Hiv [E X]]] [-> ->]]]].
    assert (O1 : open_at p (e :: q) s iv).
    { split; [auto|]. split; [auto|]. split; [|right; auto].
      apply in_app_iff in E. destruct E as [E|[E|[]]]; auto. subst e. discriminate. }
    split; [exists s, iv; auto|].
    intros C. rewrite H0 in C.
    assert (s = s0) by (apply level_inj; auto; apply O0). subst s0.
    assert (iv = iv0) by (eapply open_unique; eauto; apply (inv_split _ _ _ _ _ I)). subst iv0.
    (* the exit would occur twice *)
    assert (ND : ~ In e q).
    { intros Hq. pose proof (inv_split _ _ _ _ _ I) as SP.
      destruct O1 as [_ [_ [EE _]]].
      (* NoDup argument *)
      pose proof l_nodup as ND.
      unfold is_split in SP. rewrite <- SP in ND. apply NoDup_remove_2 in ND.
      apply ND. rewrite in_app_iff. auto. }
    apply ND. rewrite E0. auto.
Qed.

Lemma visited_dist p e q e' : is_split p (e :: q) -> In e' (p ++ [e]) -> leT lt (dist e') (dist e).
Proof.
  intros SP H. apply in_app_iff in H. destruct H as [H|[<-|[]]]; [|apply leT_refl].
  pose proof (split_order _ _ _ _ SP H (or_introl eq_refl)) as C.
  apply leT_ltb. destruct (ltb (dist e) (dist e')) eqn:E; auto.
  assert (comp ltb e e' = true) by (apply comp_true_iff; auto). congruence.
Qed.

(** Between any two consecutive crossings some sector is open. *)
Hypothesis Hconn : forall p q, is_split p q -> p <> [] -> q <> [] -> exists s iv, open_at p q s iv.

Variable D : T.
Hypothesis Hend : forall p e, l = p ++ [e] -> D = dist e.

(** What is known of each callback: it starts at its last point, its current
    sector's entry is not later, it covers only points of that top level. *)
Definition seg_ok (c : ix T * ix T * T) : Prop :=
  let '(cur, e, last) := c in
  leT lt (dist cur) last /\ leT lt last (dist e) /\ ltb (dist cur) (dist e) = true /\
  In cur l /\ In e l /\
  (exists s iv, In s ss /\ In iv (ivs s) /\ level s = hier cur /\ dist cur = fst iv /\
     leT lt (dist e) (snd iv) /\ entering cur = true) /\
  (forall x, ltb last x = true -> ltb x (dist e) = true -> top_level (inside lt) ss x (hier cur)) /\
  (forall x, leT lt last x -> ltb x (dist e) = true -> top_level (inside_ho lt) ss x (hier cur)).

Fixpoint joins (a : T) (cs : list (ix T * ix T * T)) (b : T) : Prop :=
  match cs with
  | [] => a = b
  | (cur, e, last) :: r => last = a /\ joins (dist e) r b
  end.

Lemma inv_seg_ok p e q stk cur last : inv p (e :: q) stk cur last ->
  (entering e = true /\ hier cur < hier e) \/ (entering e = false /\ hier e = hier cur) ->
  seg_ok (cur, e, last).
Proof.
  intros I HT. destruct (callback_covers _ _ _ _ _ _ I) as [H1 [H2 H3]].
  pose proof (inv_cur _ _ _ _ _ I) as C. apply (inv_stk _ _ _ _ _ I) in C.
  destruct C as [s [iv [[Hs [Hiv [E X]]] [EH EC]]]].
  split; [apply (inv_curdist _ _ _ _ _ I)|]. split; auto.
  split.
  { assert (LE : leT lt (dist cur) (dist e)).
    { eapply leT_trans; [apply (inv_curdist _ _ _ _ _ I)|exact H1]. }
    apply leT_ltb in LE.
    destruct (ltb_cases (dist cur) (dist e)) as [?|[EQ|?]]; auto; [exfalso|congruence].
    destruct HT as [[HT1 HT2]|[HT1 HT2]].
    - rewrite <- EC in E.
      pose proof (split_order _ _ _ _ (inv_split _ _ _ _ _ I) E (or_introl eq_refl)) as C.
      assert (comp ltb e cur = true).
      { apply comp_true_iff. right. split; auto. right; left. rewrite EC at 1. auto. }
      congruence.
    - destruct (exit_present _ _ _ _ _ _ I HT1) as [s' [iv' [O' [Hl' He']]]].
      assert (s' = s) by (apply level_inj; auto; [apply O'|congruence]). subst s'.
      assert (iv' = iv).
      { apply (open_unique p (e :: q) s iv' iv (inv_split _ _ _ _ _ I)); auto.
        split; auto. }
      subst iv'. pose proof (iv_lt _ _ Hs Hiv) as L.
      rewrite EC, He' in EQ. cbn in EQ. rewrite EQ, ltb_irrefl in L. discriminate. }
  split. { rewrite EC. apply crossing_iff. eauto 6. }
  split. { apply (split_in _ _ _ (inv_split _ _ _ _ _ I)). right; left; auto. }
  split; auto.
  exists s, iv. rewrite EC. cbn. repeat split; auto.
  destruct X as [X|X].
  - rewrite X. apply leT_refl.
  - pose proof (next_split _ _ _ (inv_split _ _ _ _ _ I)) as NS.
    pose proof (last_order _ _ _ _ NS X) as O.
    apply leT_ltb. destruct (ltb (snd iv) (dist e)) eqn:E2; auto.
    assert (comp ltb (mkix (snd iv) (level s) false) e = true) by (apply comp_true_iff; auto).
    congruence.
Qed.

Lemma loop_ok : forall q p stk cur last,
  inv p q stk cur last ->
  exists segs, loop collect false [] stk cur last q = Ok segs /\
    joins last segs D /\ Forall seg_ok segs.
Proof.
  induction q as [|e q IH]; intros p stk cur last I.
  - exfalso. pose proof (inv_cur _ _ _ _ _ I) as C. apply (inv_stk _ _ _ _ _ I) in C.
    destruct C as [s [iv [[_ [_ [_ []]]] _]]].
  - pose proof (inv_split _ _ _ _ _ I) as SP.
    pose proof (next_split _ _ _ SP) as NS.
    pose proof (inv_seg_ok _ _ _ _ _ _ I) as SO.
    assert (IHacc : forall stk' cur' last',
      inv (p ++ [e]) q stk' cur' last' ->
      exists segs, loop collect false [(cur, e, last)] stk' cur' last' q = Ok ((cur, e, last) :: segs) /\
        joins last' segs D /\ Forall seg_ok segs).
    { intros stk' cur' last' I'. destruct (IH _ _ _ _ I') as [segs [E [J F]]].
      exists segs. split; auto.
      apply loop_collect_acc in E. destruct E as [s' [-> E]]. apply (E [(cur, e, last)]). }
    cbn [loop]. rewrite Bool.xorb_false_r.
    destruct (entering e) eqn:Een.
    + destruct (enter_stack _ _ _ _ _ _ I Een) as [SOK ST].
      pose proof (enter_fresh _ _ _ _ _ _ I Een) as FR.
      destruct (Z.ltb_spec (hier cur) (hier e)) as [L|L].
      * unfold collect at 1. cbn [app].
        destruct (IHacc (stack_insert (hier e) e stk) e (dist e)) as [segs [E [J F]]].
        { constructor; auto.
          - apply stack_insert_in; auto. apply (inv_sok _ _ _ _ _ I).
          - intros x Hx. apply stack_insert_in in Hx; auto; [|apply (inv_sok _ _ _ _ _ I)].
            destruct Hx as [->|Hx]; cbn; [lia|].
            pose proof (inv_max _ _ _ _ _ I _ Hx). lia.
          - apply leT_refl.
          - intros e' He'. left. eapply visited_dist; eauto.
          - exists e. split; auto. apply in_or_app. right; left; auto. }
        exists ((cur, e, last) :: segs). split; auto. split; [cbn; auto|constructor; auto].
      * apply (IH (p ++ [e])). constructor; auto.
        -- apply stack_insert_in; auto; [apply (inv_sok _ _ _ _ _ I)|]. right. apply (inv_cur _ _ _ _ _ I).
        -- intros x Hx. apply stack_insert_in in Hx; auto; [|apply (inv_sok _ _ _ _ _ I)].
           destruct Hx as [->|Hx]; cbn; [lia|]. apply (inv_max _ _ _ _ _ I _ Hx).
        -- apply (inv_curdist _ _ _ _ _ I).
        -- intros e' He'. apply in_app_iff in He'. destruct He' as [He'|[<-|[]]].
           ++ apply (inv_past _ _ _ _ _ I _ He').
           ++ right. lia.
        -- destruct (inv_lastp _ _ _ _ _ I) as [e' [H1 H2]]. exists e'. split; auto.
           apply in_or_app; auto.
    + destruct (exit_stack _ _ _ _ _ _ I Een) as [SOK ST].
      destruct (exit_present _ _ _ _ _ _ I Een) as [s0 [iv0 [O0 [H0 E0]]]].
      assert (Hle : hier e <= hier cur).
      { rewrite H0. apply (inv_max _ _ _ _ _ I (level s0, mkix (fst iv0) (level s0) true)).
        apply (inv_stk _ _ _ _ _ I). eauto. }
      destruct (Z.leb_spec (hier e) (hier cur)) as [_|L]; [|lia].
      destruct (Z.eqb_spec (hier e) (hier cur)) as [EQ|NE].
      * unfold collect at 1. cbn [app].
        destruct (stack_erase (hier e) stk) as [|y r] eqn:SE.
        -- exists [(cur, e, last)]. split; auto. split; [|constructor; auto].
           cbn. split; auto.
           destruct q as [|e1 q1].
           ++ symmetry. apply (Hend p). symmetry. exact SP.
           ++ exfalso. destruct (Hconn _ _ NS) as [s [iv O]]; try discriminate.
              { destruct p; discriminate. }
              apply (proj2 (ST (level s) (mkix (fst iv) (level s) true))). eauto.
        -- rewrite <- SE in *.
           destruct (stack_below_max (hier e) (stack_erase (hier e) stk)) as [k' [c [EB [IC MX]]]]; auto.
           { rewrite SE. discriminate. }
           { intros x Hx. apply stack_erase_in in Hx; [|apply (inv_sok _ _ _ _ _ I)].
             destruct Hx as [Hx N]. pose proof (inv_max _ _ _ _ _ I _ Hx). lia. }
           rewrite EB.
           assert (Hk : k' = hier c).
           { apply ST in IC. destruct IC as [s [iv [_ [-> ->]]]]. auto. }
           subst k'.
           destruct (IHacc (stack_erase (hier e) stk) c (dist e)) as [segs [E [J F]]].
           { constructor; auto.
             - apply ST in IC. destruct IC as [s [iv [[_ [_ [HI _]]] [_ ->]]]].
               apply (visited_dist _ _ _ _ SP HI).
             - intros e' He'. left. eapply visited_dist; eauto.
             - exists e. split; auto. apply in_or_app. right; left; auto. }
           exists ((cur, e, last) :: segs). split; auto. split; [cbn; auto|constructor; auto].
      * apply (IH (p ++ [e])). constructor; auto.
        -- apply stack_erase_in; [apply (inv_sok _ _ _ _ _ I)|]. split; [apply (inv_cur _ _ _ _ _ I)|]. cbn. auto.
        -- intros x Hx. apply stack_erase_in in Hx; [|apply (inv_sok _ _ _ _ _ I)].
           apply (inv_max _ _ _ _ _ I). tauto.
        -- apply (inv_curdist _ _ _ _ _ I).
        -- intros e' He'. apply in_app_iff in He'. destruct He' as [He'|[<-|[]]].
           ++ apply (inv_past _ _ _ _ _ I _ He').
           ++ right. lia.
        -- destruct (inv_lastp _ _ _ _ _ I) as [e' [H1 H2]]. exists e'. split; auto.
           apply in_or_app; auto.
Qed.

(** The first crossing is an entry. *)
Lemma first_enters c q : l = c :: q -> entering c = true.
Proof.
  intros E. destruct (entering c) eqn:Ec; auto. exfalso.
  assert (Hc : In c l) by (rewrite E; left; auto).
  apply crossing_iff in Hc. destruct Hc as [s [iv [Hs [Hiv [Hee|Hee]]]]]; subst c; cbn in *; [discriminate|].
  assert (HE : In (mkix (fst iv) (level s) true) l) by (apply crossing_iff; eauto 6).
  rewrite E in HE. destruct HE as [HE|HE]; [discriminate|].
  assert (NS : is_split ([] ++ [mkix (snd iv) (level s) false]) q) by (unfold is_split; cbn; auto).
  pose proof (last_order _ _ _ _ NS HE) as C.
  rewrite enter_before_exit in C; auto. discriminate.
Qed.

Lemma init_inv c q : l = c :: q -> inv [c] q [(hier c, c)] c (dist c).
Proof.
  intros E. pose proof (first_enters _ _ E) as Ec.
  assert (NS : is_split [c] q) by (unfold is_split; cbn; auto).
  constructor; auto.
  - repeat constructor.
  - intros h e. split.
    + intros [H|[]]. inversion H; subst h e.
      assert (Hc : In c l) by (rewrite E; left; auto).
      apply crossing_iff in Hc. destruct Hc as [s [iv [Hs [Hiv [Hee|Hee]]]]]; subst c; cbn in *; [|discriminate].
      exists s, iv. split; [|auto]. split; [auto|]. split; [auto|]. split; [left; auto|].
      assert (HX : In (mkix (snd iv) (level s) false) l) by (apply crossing_iff; eauto 6).
      rewrite E in HX. destruct HX as [HX|HX]; auto. discriminate.
    + intros [s [iv [[Hs [Hiv [[HI|[]] X]]] [-> ->]]]]. subst c. left. auto.
  - left; auto.
  - intros x [<-|[]]. cbn. lia.
  - apply leT_refl.
  - intros e [<-|[]]. left. apply leT_refl.
  - exists c. split; auto. left; auto.
Qed.

Lemma all_callbacks_ok : forall c q, l = c :: q ->
  exists segs, all_callbacks l false = Ok segs /\ joins (dist c) segs D /\ Forall seg_ok segs.
Proof.
  intros c q E. unfold all_callbacks, sector_loop. rewrite E.
  apply (loop_ok q [c]). apply init_inv; auto.
Qed.

End Main.

(** An enclosing sector keeps something open. *)
Lemma enclosed_conn ss l u :
  good_sectors lt ss -> Permutation l (crossings ss) -> sorted l ->
  enclosed_by lt u ss ->
  forall p q, is_split l p q -> p <> [] -> q <> [] -> exists s iv, open_at ss p q s iv.
Proof.
  intros G P S [Hu [a [b [Eiv Henc]]]] p q SP Np Nq.
  assert (Hiv : In (a, b) (ivs u)) by (rewrite Eiv; left; auto).
  assert (HE : In (mkix a (level u) true) l).
  { apply (crossing_iff ss l P). exists u, (a, b). auto. }
  assert (HX : In (mkix b (level u) false) l).
  { apply (crossing_iff ss l P). exists u, (a, b). auto. }
  apply (split_in l _ _ _ SP) in HE, HX.
  destruct HE as [HE|HE].
  - destruct HX as [HX|HX].
    + (* universe already left: something in q; it must be an exit at b whose entry is in p *)
      destruct q as [|e q]; [congruence|].
      assert (Hel : In e l) by (apply (split_in l _ _ _ SP); right; left; auto).
      apply (crossing_iff ss l P) in Hel. destruct Hel as [s [iv [Hs [Hi [Hee|Hee]]]]].
      * exfalso. subst e.
        pose proof (split_order l S _ _ _ _ SP HX (or_introl eq_refl)) as C.
        destruct (Henc _ _ Hs Hi) as [_ L2].
        assert (comp ltb (mkix (fst iv) (level s) true) (mkix b (level u) false) = true).
        { apply comp_true_iff. left. cbn. eapply lt_leT_trans; [|exact L2]. apply (iv_lt ss G s); auto. }
        congruence.
      * exists s, iv. split; auto. split; auto. split; [|left; auto].
        assert (HEe : In (mkix (fst iv) (level s) true) l).
        { apply (crossing_iff ss l P). eauto 6. }
        apply (split_in l _ _ _ SP) in HEe. destruct HEe as [?|HEe]; auto. exfalso.
        pose proof (split_order l S _ _ _ _ SP HX HEe) as C.
        destruct (Henc _ _ Hs Hi) as [_ L2].
        assert (comp ltb (mkix (fst iv) (level s) true) (mkix b (level u) false) = true).
        { apply comp_true_iff. left. cbn. eapply lt_leT_trans; [|exact L2]. apply (iv_lt ss G s); auto. }
        congruence.
    + exists u, (a, b). split; auto.
  - (* universe not yet entered: anything in p was entered at a *)
    destruct p as [|e0 p0] using rev_ind; [congruence|]. clear IHp0.
    assert (He0 : In e0 (p0 ++ [e0])) by (apply in_or_app; right; left; auto).
    assert (Hel : In e0 l) by (apply (split_in l _ _ _ SP); left; auto).
    apply (crossing_iff ss l P) in Hel. destruct Hel as [s [iv [Hs [Hi [Hee|Hee]]]]].
    + exists s, iv. split; auto. split; auto. split; [rewrite <- Hee; auto|].
      assert (HXe : In (mkix (snd iv) (level s) false) l).
      { apply (crossing_iff ss l P). eauto 6. }
      apply (split_in l _ _ _ SP) in HXe. destruct HXe as [HXe|?]; auto. exfalso.
      pose proof (split_order l S _ _ _ _ SP HXe HE) as C.
      destruct (Henc _ _ Hs Hi) as [L1 _]. cbn in L1.
      assert (comp ltb (mkix a (level u) true) (mkix (snd iv) (level s) false) = true).
      { apply comp_true_iff. left. cbn. eapply leT_lt_trans; [exact L1|]. apply (iv_lt ss G s); auto. }
      congruence.
    + exfalso. pose proof (split_order l S _ _ _ _ SP He0 HE) as C.
      destruct (Henc _ _ Hs Hi) as [L1 _]. subst e0.
      assert (comp ltb (mkix a (level u) true) (mkix (snd iv) (level s) false) = true).
      { apply comp_true_iff. left. cbn. eapply leT_lt_trans; [exact L1|]. apply (iv_lt ss G s); auto. }
      congruence.
Qed.

(** First and last crossings are at the ends of the enclosing interval. *)
Lemma enclosed_ends ss l u a b c q p d :
  good_sectors lt ss -> Permutation l (crossings ss) -> sorted l ->
  In u ss -> ivs u = [(a, b)] ->
  (forall s iv, In s ss -> In iv (ivs s) -> leT lt a (fst iv) /\ leT lt (snd iv) b) ->
  l = c :: q -> l = p ++ [d] -> dist c = a /\ dist d = b.
Proof.
  intros G P S Hu Eiv Henc E1 E2.
  assert (Hiv : In (a, b) (ivs u)) by (rewrite Eiv; left; auto).
  assert (HE : In (mkix a (level u) true) l).
  { apply (crossing_iff ss l P). exists u, (a, b). auto. }
  assert (HX : In (mkix b (level u) false) l).
  { apply (crossing_iff ss l P). exists u, (a, b). auto. }
  assert (Hrange : forall e, In e l -> leT lt a (dist e) /\ leT lt (dist e) b).
  { intros e He. apply (crossing_iff ss l P) in He. destruct He as [s [iv [Hs [Hi [Hee|Hee]]]]]; subst e; cbn;
      destruct (Henc _ _ Hs Hi) as [L1 L2]; pose proof (lt_leT _ _ (iv_lt ss G s iv Hs Hi)) as L3;
      split; auto; eapply leT_trans; eauto. }
  split.
  - assert (Hc : leT lt (dist c) a).
    { rewrite E1 in HE. destruct HE as [->|HE]; [apply leT_refl|].
      assert (SP : is_split l [c] q) by (unfold is_split; cbn; auto).
      pose proof (split_order l S _ _ c _ SP (or_introl eq_refl) HE) as C.
      apply leT_ltb. destruct (ltb a (dist c)) eqn:E; auto.
      assert (comp ltb (mkix a (level u) true) c = true) by (apply comp_true_iff; auto). congruence. }
    destruct (Hrange c) as [L _]. { rewrite E1; left; auto. }
    apply leT_ltb in Hc, L. auto.
  - assert (Hd : leT lt b (dist d)).
    { assert (SP : is_split l p [d]) by (unfold is_split; auto).
      apply (split_in l _ _ _ SP) in HX. destruct HX as [HX|[->|[]]]; [|apply leT_refl].
      pose proof (split_order l S _ _ _ d SP HX (or_introl eq_refl)) as C.
      apply leT_ltb. destruct (ltb (dist d) b) eqn:E; auto.
      assert (comp ltb d (mkix b (level u) false) = true) by (apply comp_true_iff; auto). congruence. }
    destruct (Hrange d) as [_ L]. { rewrite E2. apply in_or_app; right; left; auto. }
    apply leT_ltb in Hd, L. auto.
Qed.

(** ** Main theorem, forward direction *)
Lemma traversal_forward ss l u a b :
  good_sectors lt ss -> Permutation l (crossings ss) -> sorted l ->
  enclosed_by lt u ss -> ivs u = [(a, b)] ->
  exists cs, all_callbacks l false = Ok cs /\ joins a cs b /\ Forall (seg_ok ss l) cs.
Proof.
  intros G P S [Hu [a' [b' [Eiv Henc]]]] Eab. rewrite Eab in Eiv. inversion Eiv; subst a' b'.
  assert (HE : In (mkix a (level u) true) l).
  { apply (crossing_iff ss l); auto. exists u, (a, b). rewrite Eab; cbn; auto. }
  assert (Hne : l <> []). { intros C. rewrite C in HE. destruct HE. }
  assert (Hcq : exists c q, l = c :: q). { destruct l as [|c q]; [congruence|eauto]. }
  destruct Hcq as [c [q El]].
  destruct (exists_last Hne) as [p [d Ed]].
  destruct (enclosed_ends ss l u a b c q p d G P S Hu Eab Henc El Ed) as [Ec Edd].
  assert (Hcn : forall p q, is_split l p q -> p <> [] -> q <> [] -> exists s iv, open_at ss p q s iv).
  { apply (enclosed_conn ss l u); auto. split; auto. exists a, b. auto. }
  assert (Hed : forall p e, l = p ++ [e] -> b = dist e).
  { intros p' e' E'. rewrite E' in Ed. apply app_inj_tail in Ed. destruct Ed as [_ ->]. auto. }
  destruct (all_callbacks_ok ss l G P S Hcn b Hed c q El) as [segs [E [J F]]].
  exists segs. rewrite Ec in J. auto.
Qed.


(** ** Containing sector from an intersection list *)
Lemma containing_ok ss l u a b x :
  good_sectors lt ss -> Permutation l (crossings ss) -> sorted l ->
  enclosed_by lt u ss -> ivs u = [(a, b)] ->
  leT lt a x -> ltb x b = true ->
  exists h, containing_sector ltb l x = Ok (Some h) /\ top_level (inside_ho lt) ss x h.
Proof.
  intros G P S Hu Eab La Lb.
  destruct (traversal_forward ss l u a b G P S Hu Eab) as [cs [E [J F]]].
  unfold containing_sector. rewrite (sector_loop_feed _ _ _ _ _ E).
  assert (H : exists h, feed (containing_cb ltb x) None cs = Some h /\ top_level (inside_ho lt) ss x h).
  { clear E Hu Eab. revert a La J. induction cs as [|[[cur e] last] r IH]; cbn; intros a La J.
    - subst a. apply leT_ltb in La. congruence.
    - destruct J as [-> J]. inversion F as [|? ? F1 F2]; subst.
      cbn in F1. destruct F1 as [C1 [C2 [C3 [_ [_ [_ [_ C4]]]]]]].
      unfold containing_cb at 1.
      destruct (ltb x (dist e)) eqn:Ex.
      + exists (hier cur).
        assert (Hc : (ltb (dist cur) x && true || teqb ltb (dist cur) x)%bool = true).
        { destruct (ltb_cases (dist cur) x) as [L|[L|L]].
          - rewrite L. auto.
          - apply teqb_eq in L. rewrite L. apply orb_true_r.
          - exfalso. apply leT_ltb in C1, La.
            pose proof (lt_leT_trans _ _ _ L (proj2 (leT_ltb _ _) C1)). congruence. }
        rewrite Hc. split; auto.
      + assert (Hc : (ltb (dist cur) x && false || teqb ltb (dist cur) x)%bool = false).
        { rewrite andb_false_r. cbn. destruct (teqb ltb (dist cur) x) eqn:Et; auto.
          apply teqb_eq in Et. congruence. }
        rewrite Hc. apply (IH F2 (dist e)); auto. apply leT_ltb; auto. }
  destruct H as [h [H1 H2]]. exists h. rewrite H1. auto.
Qed.

Lemma containing_outside ss l u a b x :
  good_sectors lt ss -> Permutation l (crossings ss) -> sorted l ->
  enclosed_by lt u ss -> ivs u = [(a, b)] ->
  ltb x a = true \/ leT lt b x ->
  containing_sector ltb l x = Ok None.
Proof.
  intros G P S Hu Eab Hx.
  destruct (traversal_forward ss l u a b G P S Hu Eab) as [cs [E [J F]]].
  unfold containing_sector. rewrite (sector_loop_feed _ _ _ _ _ E). f_equal.
  assert (Hr : forall e, In e l -> leT lt a (dist e) /\ leT lt (dist e) b).
  { destruct Hu as [Hu [a' [b' [Eab' Henc]]]]. rewrite Eab in Eab'. inversion Eab'; subst a' b'.
    intros e He. apply (crossing_iff ss l P) in He. destruct He as [s [iv [Hs [Hi [Hee|Hee]]]]]; subst e; cbn;
      destruct (Henc _ _ Hs Hi) as [L1 L2]; pose proof (lt_leT _ _ (iv_lt ss G s iv Hs Hi)) as L3;
      split; auto; eapply leT_trans; eauto. }
  clear E J. induction F as [|[[cur e] last] r F1 F2 IH]; cbn; auto.
  destruct F1 as [C1 [C2 [C3 [I1 [I2 _]]]]].
  unfold containing_cb at 1.
  assert (Hc : (ltb (dist cur) x && ltb x (dist e) || teqb ltb (dist cur) x)%bool = false).
  { destruct (Hr _ I1) as [R1 R2]. destruct (Hr _ I2) as [R3 R4]. rewrite leT_ltb in R1, R2, R3, R4.
    destruct Hx as [Hx|Hx].
    - pose proof (lt_leT_trans _ _ _ Hx (proj2 (leT_ltb _ _) R1)) as L.
      rewrite (ltb_asym _ _ L). cbn. destruct (teqb ltb (dist cur) x) eqn:Et; auto.
      apply teqb_eq in Et. congruence.
    - apply leT_ltb in Hx.
      destruct (ltb x (dist e)) eqn:Ex.
      + pose proof (lt_leT_trans _ _ _ Ex (proj2 (leT_ltb _ _) R4)). congruence.
      + rewrite andb_false_r. cbn. destruct (teqb ltb (dist cur) x) eqn:Et; auto.
        apply teqb_eq in Et. congruence. }
  rewrite Hc. apply IH.
Qed.

(** ** From callbacks to covered segments *)
Lemma joins_tiles ss l a cs b :
  joins a cs b -> Forall (seg_ok ss l) cs ->
  tiles lt a (map (covered ltb) cs) b /\
  Forall (fun g => let '(h, x, y) := g in
     forall z, ltb x z = true -> ltb z y = true -> top_level (inside lt) ss z h) (map (covered ltb) cs).
Proof.
  intros J F. revert a J. induction F as [|[[cur e] last] r F1 F2 IH]; cbn; intros a J.
  - auto.
  - destruct J as [-> J]. destruct F1 as [C1 [C2 [C3 [_ [_ [_ [C4 _]]]]]]].
    assert (Hs : (if ltb (dist cur) a then a else dist cur) = a).
    { destruct (ltb (dist cur) a) eqn:L; auto. apply ltb_total; auto. apply leT_ltb; auto. }
    rewrite Hs. destruct (IH _ J) as [T1 T2]. split; auto.
Qed.
End Proofs.

(** ** Reverse traversal *)
Section Reverse.
Context {T : Type}.
Variable ltb : T -> T -> bool.
Hypothesis ltb_irrefl : forall x, ltb x x = false.
Hypothesis ltb_trans : forall x y z, ltb x y = true -> ltb y z = true -> ltb x z = true.
Hypothesis ltb_total : forall x y, ltb x y = false -> ltb y x = false -> x = y.
Notation lt := (fun x y => ltb x y = true).

Definition gtb (x y : T) : bool := ltb y x.
Notation gt := (fun x y => gtb x y = true).

Definition flip (e : ix T) : ix T := mkix (dist e) (hier e) (negb (entering e)).

Lemma flip_flip e : flip (flip e) = e.
Proof. destruct e as [d h b]. unfold flip. cbn. rewrite negb_involutive. auto. Qed.

Lemma comp_flip a b : comp gtb (flip a) (flip b) = comp ltb b a.
Proof.
  unfold comp, flip, gtb, teqb. cbn.
  destruct (ltb (dist b) (dist a)); auto. cbn.
  destruct (ltb (dist a) (dist b)); cbn; auto.
  destruct (entering a), (entering b); cbn; auto.
Qed.

Lemma sorted_snoc (R : ix T -> ix T -> Prop) l x :
  StronglySorted R l -> Forall (fun y => R y x) l -> StronglySorted R (l ++ [x]).
Proof.
  induction 1 as [|y r H IH F]; cbn; intros G; [repeat constructor|].
  inversion G; subst. constructor; auto.
  apply Forall_app. split; auto.
Qed.

Lemma sorted_flip l : sorted ltb l -> sorted gtb (map flip (rev l)).
Proof.
  unfold sorted. induction 1 as [|x r H IH F]; cbn; [constructor|].
  rewrite map_app. cbn. apply sorted_snoc; auto.
  rewrite Forall_forall in *. intros y Hy. apply in_map_iff in Hy. destruct Hy as [z [<- Hz]].
  apply in_rev in Hz. rewrite comp_flip. auto.
Qed.

Definition swap_iv (iv : T * T) := (snd iv, fst iv).
Definition flip_sector (s : sector T) : sector T := mksector (level s) (rev (map swap_iv (ivs s))).

Lemma flip_perm ss l :
  Permutation l (crossings ss) -> Permutation (map flip (rev l)) (crossings (map flip_sector ss)).
Proof.
  intros P. rewrite <- (Permutation_rev l). rewrite P. clear P l.
  unfold crossings. induction ss as [|s r IH]; cbn; auto.
  rewrite map_app. apply Permutation_app; auto.
  induction (ivs s) as [|iv m IHm]; cbn; auto.
  rewrite flat_map_app. cbn.
  rewrite (perm_swap (mkix (fst iv) (level s) false)).
  rewrite IHm. apply (Permutation_app_comm [_; _]).
Qed.

Lemma ordpairs_snoc {A} (R : A -> A -> Prop) m x :
  ForallOrdPairs R m -> Forall (fun y => R y x) m -> ForallOrdPairs R (m ++ [x]).
Proof.
  induction 1 as [|y r F H IH]; cbn; intros G; [repeat constructor|].
  inversion G; subst. constructor; auto. apply Forall_app. split; auto.
Qed.

Lemma flip_good ss : good_sectors lt ss -> good_sectors gt (map flip_sector ss).
Proof.
  intros [G N]. split.
  - rewrite Forall_forall in *. intros s Hs. apply in_map_iff in Hs. destruct Hs as [s0 [<- Hs]].
    destruct (G _ Hs) as [F O]. clear - F O. unfold good_intervals, flip_sector. cbn.
    induction O as [|iv m F1 O IH]; cbn; [split; constructor|].
    inversion F as [|? ? Fa Fb]; subst. destruct (IH Fb) as [I1 I2]. split.
    + apply Forall_app. split; auto.
    + apply ordpairs_snoc; auto. rewrite Forall_forall in *. intros y Hy.
      apply in_rev, in_map_iff in Hy. destruct Hy as [z [<- Hz]].
      specialize (F1 _ Hz). unfold leT, gtb, swap_iv in *. cbn. auto.
  - rewrite map_map. cbn. auto.
Qed.

Lemma flip_ivs s iv : In iv (ivs (flip_sector s)) <-> In (swap_iv iv) (ivs s).
Proof.
  cbn. rewrite <- in_rev, in_map_iff. split.
  - intros [z [<- H]]. destruct z; auto.
  - intros H. exists (swap_iv iv). destruct iv; auto.
Qed.

Lemma flip_enclosed u ss : enclosed_by lt u ss -> enclosed_by gt (flip_sector u) (map flip_sector ss).
Proof.
  intros [Hu [a [b [E H]]]]. split; [apply in_map; auto|].
  exists b, a. split; [unfold flip_sector; cbn; rewrite E; auto|].
  intros s iv Hs Hiv. apply in_map_iff in Hs. destruct Hs as [s0 [<- Hs]].
  apply flip_ivs in Hiv. destruct (H _ _ Hs Hiv) as [H1 H2]. split; auto.
Qed.

Lemma flip_inside s x : inside gt (flip_sector s) x <-> inside lt s x.
Proof.
  unfold inside. split; intros [iv [H [H1 H2]]].
  - apply flip_ivs in H. exists (swap_iv iv). cbn. unfold gtb in *. auto.
  - exists (swap_iv iv). rewrite flip_ivs. destruct iv; cbn in *. unfold gtb. auto.
Qed.

Lemma flip_top ss x h : top_level (inside gt) (map flip_sector ss) x h -> top_level (inside lt) ss x h.
Proof.
  intros [[s [Hs [Hl Hi]]] HM]. apply in_map_iff in Hs. destruct Hs as [s0 [<- Hs]]. split.
  - exists s0. rewrite <- flip_inside. auto.
  - intros s' Hs' Hi'. apply (HM (flip_sector s')); [apply in_map; auto|]. apply flip_inside; auto.
Qed.

Lemma feed_map cs : forall acc,
  feed (fun acc c e t => (acc ++ [(flip c, flip e, t)], false)) acc cs =
  acc ++ map (fun c : ix T * ix T * T => let '(c, e, t) := c in (flip c, flip e, t)) cs.
Proof.
  induction cs as [|[[c e] t] r IH]; cbn; intros acc; [rewrite app_nil_r; auto|].
  rewrite IH, <- app_assoc. auto.
Qed.

Lemma traversal_reverse ss l u a b :
  good_sectors lt ss -> Permutation l (crossings ss) -> sorted ltb l ->
  enclosed_by lt u ss -> ivs u = [(a, b)] ->
  exists cs, all_callbacks l true = Ok cs /\
    tiles gt b (map (covered gtb) cs) a /\
    Forall (fun g => let '(h, x, y) := g in
      forall z, ltb y z = true -> ltb z x = true -> top_level (inside lt) ss z h) (map (covered gtb) cs).
Proof.
  intros G P S Hu Eab.
  assert (g1 : forall x, gtb x x = false) by (intros; apply ltb_irrefl).
  assert (g2 : forall x y z, gtb x y = true -> gtb y z = true -> gtb x z = true)
    by (unfold gtb; intros; eapply ltb_trans; eauto).
  assert (g3 : forall x y, gtb x y = false -> gtb y x = false -> x = y)
    by (unfold gtb; intros; apply ltb_total; auto).
  destruct (traversal_forward gtb g1 g2 g3 (map flip_sector ss) (map flip (rev l)) (flip_sector u) b a)
    as [cs [E [J F]]].
  - apply flip_good; auto.
  - apply flip_perm; auto.
  - apply sorted_flip; auto.
  - apply flip_enclosed; auto.
  - unfold flip_sector; cbn. rewrite Eab. auto.
  - exists (map (fun c : ix T * ix T * T => let '(c, e, t) := c in (flip c, flip e, t)) cs).
    assert (EM : map (covered gtb) (map (fun c : ix T * ix T * T => let '(c, e, t) := c in (flip c, flip e, t)) cs)
                 = map (covered gtb) cs).
    { rewrite map_map. apply map_ext. intros [[c e] t]. reflexivity. }
    rewrite EM. split.
    + unfold all_callbacks at 1.
      rewrite (sector_loop_mirror (fun x => x) _
        (fun acc c e t => (acc ++ [(flip c, flip e, t)], false))).
      * change (mirror (fun x => x) l) with (map flip (rev l)).
        rewrite (sector_loop_feed _ _ _ _ _ E). rewrite feed_map. auto.
      * intros s c e t. unfold mir. fold (flip c). fold (flip e). rewrite !flip_flip. auto.
    + destruct (joins_tiles gtb g1 g3 _ _ _ _ _ J F) as [T1 T2]. split; auto.
      eapply Forall_impl; [|exact T2]. intros [[h x] y] H z Z1 Z2. apply flip_top. apply H; auto.
Qed.
End Reverse.

(** ** Outer bounds *)
Section Outer.
Context {T : Type}.
Variable minh : Z.
Notation above := (fun e : ix T => Z.ltb minh (hier e)).

Lemma first_above_spec l : forall i,
  match first_above minh i l with
  | Some (j, f) => exists p r, l = p ++ f :: r /\ (j = i + length p)%nat /\ above f = true /\
                     filter above p = []
  | None => filter above l = []
  end.
Proof.
  induction l as [|e r IH]; intros i; cbn; auto.
  destruct (Z.ltb minh (hier e)) eqn:E.
  - exists [], r. cbn. split; auto.
  - specialize (IH (S i)). destruct (first_above minh (S i) r) as [[j f]|]; auto.
    destruct IH as [p [r' [-> [-> [Hf Hp]]]]]. exists (e :: p), r'. cbn.
    rewrite E. repeat split; auto; lia.
Qed.

Definition last_opt (m : list (ix T)) : option (ix T) :=
  match rev m with [] => None | x :: _ => Some x end.

Lemma skipn_snoc_le {A} n (l : list A) x : (n <= length l)%nat -> skipn n (l ++ [x]) = skipn n l ++ [x].
Proof. intros. rewrite skipn_app. replace (n - length l)%nat with 0%nat by lia. auto. Qed.

Lemma last_above_spec lo l :
  last_above minh lo (Nat.pred (length l)) (rev l) = last_opt (filter above (skipn (S lo) l)).
Proof.
  induction l as [|x l IH] using rev_ind; [reflexivity|].
  rewrite rev_app_distr, app_length. cbn [rev app length]. rewrite Nat.add_1_r. cbn [Nat.pred].
  cbn [last_above].
  destruct (Nat.ltb_spec lo (length l)) as [L|L].
  - rewrite skipn_snoc_le by lia. rewrite filter_app. cbn [filter].
    destruct (Z.ltb minh (hier x)) eqn:E.
    + unfold last_opt. rewrite rev_app_distr. auto.
    + rewrite app_nil_r. apply IH.
  - rewrite skipn_all2; auto. rewrite app_length. cbn. lia.
Qed.

Lemma outer_bounds_filter (l : list (ix T)) :
  outer_bounds minh l =
  match filter above l with
  | [] => []
  | f :: r => f :: match rev r with [] => [] | g :: _ => [g] end
  end.
Proof.
  unfold outer_bounds.
  pose proof (first_above_spec l 0) as H.
  destruct (first_above minh 0 l) as [[j f]|].
  - destruct H as [p [r [-> [-> [Hf Hp]]]]]. cbn [plus]. rewrite last_above_spec.
    replace (skipn (S (length p)) (p ++ f :: r)) with r.
    2: { rewrite skipn_app, skipn_all2 by lia. replace (S (length p) - length p)%nat with 1%nat by lia. auto. }
    rewrite filter_app, Hp. cbn [app filter]. rewrite Hf.
    unfold last_opt. destruct (rev (filter above r)); auto.
  - rewrite last_above_spec, H. assert (E : filter above (skipn 1 l) = []).
    { destruct l as [|x l]; auto. cbn in *. destruct (Z.ltb minh (hier x)); [discriminate|auto]. }
    rewrite E. auto.
Qed.
End Outer.

Section OuterSorted.
Context {T : Type}.
Variable ltb : T -> T -> bool.
Hypothesis ltb_irrefl : forall x, ltb x x = false.
Hypothesis ltb_trans : forall x y z, ltb x y = true -> ltb y z = true -> ltb x z = true.
Hypothesis ltb_total : forall x y, ltb x y = false -> ltb y x = false -> x = y.
Notation lt := (fun x y => ltb x y = true).

Lemma sorted_filter P l : sorted ltb l -> sorted ltb (filter P l).
Proof.
  unfold sorted. induction 1 as [|x r H IH F]; cbn; [constructor|].
  destruct (P x); auto. constructor; auto.
  rewrite Forall_forall in *. intros y Hy. apply filter_In in Hy. apply F. tauto.
Qed.

Lemma comp_false_dist a b : comp ltb b a = false -> leT lt (dist a) (dist b).
Proof.
  intros C. apply leT_ltb. destruct (ltb (dist b) (dist a)) eqn:E; auto.
  assert (comp ltb b a = true) by (apply comp_true_iff; auto). congruence.
Qed.

Lemma outer_bounds_ok minh ss l :
  good_sectors lt ss -> Permutation l (crossings ss) -> sorted ltb l ->
  ((forall s, In s ss -> ivs s <> [] -> level s <= minh) /\ outer_bounds minh l = []) \/
  (exists f g, outer_bounds minh l = [f; g] /\ In f l /\ In g l /\
     minh < hier f /\ minh < hier g /\ entering f = true /\ entering g = false /\
     forall s iv, In s ss -> minh < level s -> In iv (ivs s) ->
       leT lt (dist f) (fst iv) /\ leT lt (snd iv) (dist g)).
Proof.
  intros G P S. rewrite outer_bounds_filter.
  pose proof (sorted_filter (fun e => Z.ltb minh (hier e)) _ S) as SF.
  assert (HIn : forall e, In e (filter (fun e => Z.ltb minh (hier e)) l) <-> In e l /\ minh < hier e).
  { intros e. rewrite filter_In, Z.ltb_lt. tauto. }
  destruct (filter (fun e => Z.ltb minh (hier e)) l) as [|f r] eqn:Ef.
  - left. split; auto. intros s Hs Hne. destruct (ivs s) as [|iv m] eqn:Ei; [congruence|].
    destruct (Z.le_gt_cases (level s) minh) as [?|L]; auto. exfalso.
    apply (proj2 (HIn (mkix (fst iv) (level s) true))). split; [|cbn; lia].
    apply (crossing_iff ss l P). exists s, iv. rewrite Ei. cbn. auto.
  - right.
    assert (Hf : In f l /\ minh < hier f) by (apply HIn; left; auto).
    inversion SF as [|? ? SF' FF]; subst. rewrite Forall_forall in FF.
    (* first is an entry *)
    assert (Hfe : entering f = true).
    { destruct (entering f) eqn:E; auto. exfalso. destruct Hf as [Hf Hm].
      apply (crossing_iff ss l P) in Hf. destruct Hf as [s [iv [Hs [Hi [Hee|Hee]]]]]; subst f; [discriminate|]. cbn in Hm.
      assert (HE : In (mkix (fst iv) (level s) true) (mkix (snd iv) (level s) false :: r)).
      { apply HIn. split; auto. apply (crossing_iff ss l P). eauto 6. }
      destruct HE as [HE|HE]; [discriminate|]. specialize (FF _ HE).
      rewrite (enter_before_exit ltb ltb_irrefl ltb_total ss G) in FF; auto. discriminate. }
    assert (Hr : r <> []).
    { intros ->. destruct Hf as [Hf Hm].
      apply (crossing_iff ss l P) in Hf. destruct Hf as [s [iv [Hs [Hi [Hee|Hee]]]]]; subst f; [|discriminate]. cbn in Hm.
      assert (HX : In (mkix (snd iv) (level s) false) [mkix (fst iv) (level s) true]).
      { apply HIn. split; auto. apply (crossing_iff ss l P). eauto 6. }
      destruct HX as [HX|[]]. discriminate. }
    destruct (exists_last Hr) as [r0 [g Er]]. subst r. rewrite rev_app_distr. cbn [rev app].
    exists f, g.
    assert (Hg : In g l /\ minh < hier g).
    { apply HIn. right. apply in_or_app. right; left; auto. }
    assert (HL : forall e, In e l -> minh < hier e -> leT lt (dist f) (dist e) /\ leT lt (dist e) (dist g)).
    { intros e He Hm. assert (HI : In e (f :: r0 ++ [g])) by (apply HIn; auto). split.
      - destruct HI as [<-|HI]; [apply leT_refl; auto|]. apply comp_false_dist. apply FF; auto.
      - change (f :: r0 ++ [g]) with ((f :: r0) ++ [g]) in HI, SF.
        apply in_app_iff in HI. destruct HI as [HI|[<-|[]]]; [|apply leT_refl; auto].
        apply comp_false_dist. eapply sorted_app_order; [exact SF|exact HI|left; auto]. }
    split; auto. split; [tauto|]. split; [tauto|]. split; [tauto|]. split; [tauto|].
    split; auto. split.
    + destruct (entering g) eqn:E; auto. exfalso. destruct Hg as [Hg Hm].
      pose proof Hg as Hg'.
      apply (crossing_iff ss l P) in Hg. destruct Hg as [s [iv [Hs [Hi [Hee|Hee]]]]]; subst g; [|discriminate]. cbn in Hm.
      assert (HX : In (mkix (snd iv) (level s) false) l) by (apply (crossing_iff ss l P); eauto 6).
      destruct (HL _ HX Hm) as [_ L]. cbn in L. apply leT_ltb in L.
      pose proof (iv_lt ltb ss G s iv Hs Hi). congruence.
    + intros s iv Hs Hm Hi. split.
      * apply (HL (mkix (fst iv) (level s) true)); auto. apply (crossing_iff ss l P). eauto 6.
      * apply (HL (mkix (snd iv) (level s) false)); auto. apply (crossing_iff ss l P). eauto 6.
Qed.
End OuterSorted.
