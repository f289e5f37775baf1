(** Lemmas about the quadtree. *)
From Coq Require Import Reals List Bool Arith Permutation Lra Lia.
From Verif Require Import QuadModel QuadSpec.
Import ListNotations.
Open Scope R_scope.

Lemma le_true a b : le a b = true <-> a <= b.
Proof. unfold le. destruct (Rle_dec a b); split; intros; auto; discriminate. Qed.
Lemma le_false a b : le a b = false <-> b < a.
Proof. unfold le. destruct (Rle_dec a b); split; intros; try discriminate; lra. Qed.
Lemma lt_true a b : lt a b = true <-> a < b.
Proof. unfold lt. destruct (Rlt_dec a b); split; intros; auto; discriminate. Qed.
Lemma contains_inside a b : contains a b = true <-> inside b a.
Proof. unfold contains, inside. rewrite !andb_true_iff, !le_true. unfold b_right, b_bottom. tauto. Qed.
Lemma intersects_overlap a b : intersects a b = true <-> overlap a b.
Proof.
  unfold intersects, overlap. rewrite negb_true_iff, !orb_false_iff, !le_false. unfold b_right, b_bottom. tauto.
Qed.
Lemma intersects_apart a b : intersects a b = false <-> ~ overlap a b.
Proof. rewrite <- intersects_overlap. destruct (intersects a b); split; intros; auto; congruence. Qed.
Lemma overlap_sym a b : overlap a b -> overlap b a.
Proof. unfold overlap. tauto. Qed.
Lemma intersects_sym a b : intersects a b = intersects b a.
Proof.
  destruct (intersects a b) eqn:E; symmetry.
  - apply intersects_overlap. apply overlap_sym, intersects_overlap, E.
  - apply intersects_apart. intros H. apply overlap_sym in H. apply intersects_overlap in H. congruence.
Qed.
Lemma overlap_inside q a b : overlap q a -> inside a b -> overlap q b.
Proof. unfold overlap, inside. intros [? [? [? ?]]] [? [? [? ?]]]. repeat split; lra. Qed.

Lemma quadrant_inside b vb q : inside vb b -> quadrant b vb = Some q -> inside vb (compute_box b q).
Proof.
  unfold quadrant, inside, center_x, center_y, b_right, b_bottom, le, lt. intros [I1 [I2 [I3 I4]]] H.
  repeat match type of H with (if (if ?c then _ else _) then _ else _) = _ => destruct c end; try discriminate;
  injection H as <-; cbn; repeat split; lra.
Qed.
Lemma quadrant_apart b v v' q q' : quadrant b v = Some q -> quadrant b v' = Some q' -> q <> q' -> ~ overlap v v'.
Proof.
  unfold quadrant, overlap, center_x, center_y, b_right, b_bottom, le, lt. intros H H' N [O1 [O2 [O3 O4]]].
  repeat match type of H with (if (if ?c then _ else _) then _ else _) = _ => destruct c end; try discriminate H;
  repeat match type of H' with (if (if ?c then _ else _) then _ else _) = _ => destruct c end; try discriminate H';
  injection H as <-; injection H' as <-; first [congruence|lra].
Qed.

Section Tree.
Context {T : Type}.
Variable get_box : T -> box.
Variable same : T -> T -> bool.
Hypothesis same_eq : forall a b, same a b = true <-> a = b.

Fixpoint tree_ind (P : node T -> Prop) (HL : forall l, P (Node l None))
  (HN : forall l c1 c2 c3 c4, P c1 -> P c2 -> P c3 -> P c4 -> P (Node l (Some (c1, c2, c3, c4)))) (n : node T) : P n :=
  match n with
  | Node l None => HL l
  | Node l (Some (c1, c2, c3, c4)) =>
      HN l c1 c2 c3 c4 (tree_ind P HL HN c1) (tree_ind P HL HN c2) (tree_ind P HL HN c3) (tree_ind P HL HN c4)
  end.

(** All values below a node. *)
Fixpoint contents (n : node T) : list T :=
  match n with
  | Node l None => l
  | Node l (Some (c1, c2, c3, c4)) => l ++ contents c1 ++ contents c2 ++ contents c3 ++ contents c4
  end.

Definition at_quad (b : box) (q : quad) (v : T) : Prop := quadrant b (get_box v) = Some q.
Definition within (b : box) (v : T) : Prop := inside (get_box v) b.

Fixpoint wf (room : nat) (b : box) (n : node T) : Prop :=
  Forall (within b) (contents n) /\
  match n with
  | Node l None => room = O \/ (length l <= threshold)%nat
  | Node l (Some (c1, c2, c3, c4)) =>
      (0 < room)%nat /\ Forall (fun v => quadrant b (get_box v) = None) l /\
      (wf (pred room) (compute_box b NW) c1 /\ Forall (at_quad b NW) (contents c1)) /\
      (wf (pred room) (compute_box b NE) c2 /\ Forall (at_quad b NE) (contents c2)) /\
      (wf (pred room) (compute_box b SW) c3 /\ Forall (at_quad b SW) (contents c3)) /\
      (wf (pred room) (compute_box b SE) c4 /\ Forall (at_quad b SE) (contents c4))
  end.
Lemma wf_within room b n : wf room b n -> Forall (within b) (contents n).
Proof. destruct n as [l [[[[c1 c2] c3] c4]|]]; intros [H _]; exact H. Qed.

Lemma partition (b : box) (vals : list T) :
  Permutation vals (filter (stays get_box b) vals ++ filter (goes get_box b NW) vals ++ filter (goes get_box b NE) vals
                    ++ filter (goes get_box b SW) vals ++ filter (goes get_box b SE) vals).
Proof.
  induction vals as [|a t IH]; [reflexivity|]. cbn [filter].
  replace (stays get_box b a) with (match quadrant b (get_box a) with None => true | Some _ => false end) by reflexivity.
  replace (goes get_box b NW a) with (match quadrant b (get_box a) with Some NW => true | _ => false end) by (unfold goes; destruct (quadrant b (get_box a)) as [[]|]; reflexivity).
  replace (goes get_box b NE a) with (match quadrant b (get_box a) with Some NE => true | _ => false end) by (unfold goes; destruct (quadrant b (get_box a)) as [[]|]; reflexivity).
  replace (goes get_box b SW a) with (match quadrant b (get_box a) with Some SW => true | _ => false end) by (unfold goes; destruct (quadrant b (get_box a)) as [[]|]; reflexivity).
  replace (goes get_box b SE a) with (match quadrant b (get_box a) with Some SE => true | _ => false end) by (unfold goes; destruct (quadrant b (get_box a)) as [[]|]; reflexivity).
  set (k := filter (stays get_box b) t) in *. set (p1 := filter (goes get_box b NW) t) in *. set (p2 := filter (goes get_box b NE) t) in *.
  set (p3 := filter (goes get_box b SW) t) in *. set (p4 := filter (goes get_box b SE) t) in *.
  destruct (quadrant b (get_box a)) as [[]|].
  - cbn. rewrite IH at 1. apply Permutation_middle.
  - cbn. rewrite IH at 1. rewrite !app_assoc. rewrite <- !app_assoc. rewrite (app_assoc k p1 (a :: _)). rewrite (app_assoc k p1 (p2 ++ _)). apply Permutation_middle.
  - cbn. rewrite IH at 1. rewrite (app_assoc p1), (app_assoc k). rewrite (app_assoc p1 p2 (a :: _)), (app_assoc k _ (a :: _)). apply Permutation_middle.
  - cbn. rewrite IH at 1. rewrite (app_assoc p2), (app_assoc p1), (app_assoc k). rewrite (app_assoc p2 p3 (a :: _)), (app_assoc p1 _ (a :: _)), (app_assoc k _ (a :: _)). apply Permutation_middle.
  - cbn. constructor. exact IH.
Qed.
Lemma goes_at b q l : Forall (at_quad b q) (filter (goes get_box b q) l).
Proof.
  apply Forall_forall. intros v H. apply filter_In in H. destruct H as [_ H]. unfold goes, at_quad in *.
  destruct (quadrant b (get_box v)) as [[]|]; destruct q; congruence.
Qed.
Lemma goes_within b q l : Forall (within b) l -> Forall (within (compute_box b q)) (filter (goes get_box b q) l).
Proof.
  intros H. pose proof (goes_at b q l) as A. rewrite Forall_forall in *. intros v I. apply quadrant_inside; [|apply A, I].
  apply filter_In in I. apply H, I.
Qed.
Lemma filter_le {A} (f : A -> bool) l : (length (filter f l) <= length l)%nat.
Proof. induction l as [|a t IH]; cbn; [lia|]. destruct (f a); cbn; lia. Qed.
Lemma fresh_child room b q l : Forall (within b) l -> (length l <= threshold)%nat ->
  wf room (compute_box b q) (Node (filter (goes get_box b q) l) None) /\ Forall (at_quad b q) (contents (Node (filter (goes get_box b q) l) None)).
Proof.
  intros W L. split; [|apply goes_at]. split; [apply goes_within; auto|]. right. pose proof (filter_le (goes get_box b q) l). lia.
Qed.

Lemma move2 (l p r : list T) v : Permutation (l ++ p ++ v :: r) (v :: l ++ p ++ r).
Proof. symmetry. rewrite (app_assoc l p (v :: r)), (app_assoc l p r). apply Permutation_middle. Qed.
Lemma move3 (l p p' r : list T) v : Permutation (l ++ p ++ p' ++ v :: r) (v :: l ++ p ++ p' ++ r).
Proof. rewrite (app_assoc l p (p' ++ v :: r)), (app_assoc l p (p' ++ r)). apply move2. Qed.
Lemma move4 (l p p' p'' r : list T) v : Permutation (l ++ p ++ p' ++ p'' ++ v :: r) (v :: l ++ p ++ p' ++ p'' ++ r).
Proof. rewrite (app_assoc l p (p' ++ p'' ++ v :: r)), (app_assoc l p (p' ++ p'' ++ r)). apply move3. Qed.

Lemma add_leaf_ok : forall room vals b v, within b v -> Forall (within b) vals -> room = O \/ (length vals <= threshold)%nat ->
  exists n, add_leaf get_box room vals b v = Some n /\ wf room b n /\ Permutation (contents n) (v :: vals).
Proof.
  induction room as [|room IH]; intros vals b v V W L.
  - cbn. replace (contains b (get_box v)) with true by (symmetry; apply contains_inside, V). cbn. eexists. split; [reflexivity|]. split.
    + split; [cbn; apply Forall_app; auto|]. left. reflexivity.
    + cbn. symmetry. apply Permutation_cons_append.
  - destruct L as [?|L]; [discriminate|]. cbn [add_leaf]. replace (contains b (get_box v)) with true by (symmetry; apply contains_inside, V). cbn [negb].
    destruct (Nat.ltb_spec (length vals) threshold) as [H|H].
    + eexists. split; [reflexivity|]. split.
      * split; [cbn; apply Forall_app; auto|]. right. rewrite app_length. cbn. lia.
      * cbn. symmetry. apply Permutation_cons_append.
    + pose proof (partition b vals) as P. set (k := filter (stays get_box b) vals) in *.
      assert (WK : Forall (fun v => quadrant b (get_box v) = None) k).
      { apply Forall_forall. intros x I. apply filter_In in I. destruct I as [_ I]. unfold stays in I. destruct (quadrant b (get_box x)); congruence. }
      pose proof (fun q => fresh_child room b q vals W L) as F.
      destruct (quadrant b (get_box v)) as [q|] eqn:Q.
      * destruct (IH (filter (goes get_box b q) vals) (compute_box b q) v) as [c [E [C PC]]].
        { apply quadrant_inside; auto. } { apply goes_within; auto. } { right. pose proof (filter_le (goes get_box b q) vals). lia. }
        rewrite E. eexists. split; [reflexivity|].
        assert (CQ : Forall (at_quad b q) (contents c)). { rewrite PC. constructor; [exact Q|apply goes_at]. }
        assert (PP : forall c', c' = Node k (Some match q with
                  | NW => (c, Node (filter (goes get_box b NE) vals) None, Node (filter (goes get_box b SW) vals) None, Node (filter (goes get_box b SE) vals) None)
                  | NE => (Node (filter (goes get_box b NW) vals) None, c, Node (filter (goes get_box b SW) vals) None, Node (filter (goes get_box b SE) vals) None)
                  | SW => (Node (filter (goes get_box b NW) vals) None, Node (filter (goes get_box b NE) vals) None, c, Node (filter (goes get_box b SE) vals) None)
                  | SE => (Node (filter (goes get_box b NW) vals) None, Node (filter (goes get_box b NE) vals) None, Node (filter (goes get_box b SW) vals) None, c) end) ->
               Permutation (contents c') (v :: vals)).
        { intros c' ->. etransitivity; [|constructor; symmetry; exact P]. set (p1 := filter (goes get_box b NW) vals) in *. set (p2 := filter (goes get_box b NE) vals) in *.
          set (p3 := filter (goes get_box b SW) vals) in *. set (p4 := filter (goes get_box b SE) vals) in *.
          destruct q; cbn [contents]; rewrite PC; fold p1 p2 p3 p4; cbn [app].
          - symmetry. apply Permutation_middle.
          - symmetry. rewrite (app_assoc k p1 (v :: _)), (app_assoc k p1 (p2 ++ _)). apply Permutation_middle.
          - symmetry. rewrite (app_assoc p1 p2 (v :: _)), (app_assoc k _ (v :: _)), (app_assoc p1 p2 (p3 ++ _)), (app_assoc k _ (p3 ++ _)). apply Permutation_middle.
          - symmetry. rewrite (app_assoc p2 p3 (v :: _)), (app_assoc p1 _ (v :: _)), (app_assoc k _ (v :: _)), (app_assoc p2 p3 p4), (app_assoc p1 _ p4), (app_assoc k _ p4). apply Permutation_middle. }
        specialize (PP _ eq_refl). split; [|exact PP].
        split; [rewrite PP; constructor; auto|]. pose proof (F NW) as F1. pose proof (F NE) as F2. pose proof (F SW) as F3. pose proof (F SE) as F4.
        destruct q; (split; [lia|]); (split; [exact WK|]); cbn [pred]; auto.
      * eexists. split; [reflexivity|]. 
        assert (PP : Permutation (contents (Node (k ++ [v]) (Some (Node (filter (goes get_box b NW) vals) None, Node (filter (goes get_box b NE) vals) None, Node (filter (goes get_box b SW) vals) None, Node (filter (goes get_box b SE) vals) None)))) (v :: vals)).
        { cbn [contents]. rewrite <- app_assoc. cbn [app]. etransitivity; [|constructor; symmetry; exact P]. symmetry. apply Permutation_middle. }
        split; [|exact PP]. split; [rewrite PP; constructor; auto|]. split; [lia|]. split; [apply Forall_app; auto|]. cbn [pred]. auto.
Qed.

Lemma child_within b q v : within b v -> at_quad b q v -> within (compute_box b q) v.
Proof. intros W A. apply quadrant_inside; auto. Qed.

Lemma add_ok : forall n room b v, within b v -> wf room b n ->
  exists n', add get_box room n b v = Some n' /\ wf room b n' /\ Permutation (contents n') (v :: contents n).
Proof.
  intros n. induction n as [l|l c1 c2 c3 c4 I1 I2 I3 I4] using tree_ind; intros room b v V W.
  - destruct W as [W L]. cbn [add contents]. apply add_leaf_ok; auto.
  - pose proof (wf_within _ _ _ W) as WA. destruct W as [_ [R0 [WL [[W1 A1] [[W2 A2] [[W3 A3] [W4 A4]]]]]]].
    cbn [add]. replace (contains b (get_box v)) with true by (symmetry; apply contains_inside, V). cbn [negb].
    destruct (quadrant b (get_box v)) as [q|] eqn:Q.
    + assert (VQ : within (compute_box b q) v) by (apply child_within; auto).
      destruct q.
      * destruct (I1 (pred room) (compute_box b NW) v VQ W1) as [c [E [C P]]]. rewrite E. eexists. split; [reflexivity|].
        match goal with |- wf _ _ ?m /\ _ => assert (PP : Permutation (contents m) (v :: contents (Node l (Some (c1, c2, c3, c4))))) end.
        { cbn [contents]. rewrite P. cbn [app]. symmetry. apply Permutation_middle. }
        split; [|exact PP]. split; [rewrite PP; constructor; auto|]. split; auto. split; auto. split; [split; auto; rewrite P; constructor; auto|]. auto.
      * destruct (I2 (pred room) (compute_box b NE) v VQ W2) as [c [E [C P]]]. rewrite E. eexists. split; [reflexivity|].
        match goal with |- wf _ _ ?m /\ _ => assert (PP : Permutation (contents m) (v :: contents (Node l (Some (c1, c2, c3, c4))))) end.
        { cbn [contents]. rewrite P. cbn [app]. apply move2. }
        split; [|exact PP]. split; [rewrite PP; constructor; auto|]. split; auto. split; auto. split; auto. split; [split; auto; rewrite P; constructor; auto|]. auto.
      * destruct (I3 (pred room) (compute_box b SW) v VQ W3) as [c [E [C P]]]. rewrite E. eexists. split; [reflexivity|].
        match goal with |- wf _ _ ?m /\ _ => assert (PP : Permutation (contents m) (v :: contents (Node l (Some (c1, c2, c3, c4))))) end.
        { cbn [contents]. rewrite P. cbn [app]. apply move3. }
        split; [|exact PP]. split; [rewrite PP; constructor; auto|]. split; auto. split; auto. split; auto. split; auto. split; [split; auto; rewrite P; constructor; auto|]. auto.
      * destruct (I4 (pred room) (compute_box b SE) v VQ W4) as [c [E [C P]]]. rewrite E. eexists. split; [reflexivity|].
        match goal with |- wf _ _ ?m /\ _ => assert (PP : Permutation (contents m) (v :: contents (Node l (Some (c1, c2, c3, c4))))) end.
        { cbn [contents]. rewrite P. cbn [app]. apply move4. }
        split; [|exact PP]. split; [rewrite PP; constructor; auto|]. split; auto. split; auto. split; auto. split; auto. split; auto. split; auto. rewrite P. constructor; auto.
    + eexists. split; [reflexivity|].
      match goal with |- wf _ _ ?m /\ _ => assert (PP : Permutation (contents m) (v :: contents (Node l (Some (c1, c2, c3, c4))))) end.
      { cbn [contents]. rewrite <- app_assoc. symmetry. apply Permutation_middle. }
      split; [|exact PP]. split; [rewrite PP; constructor; auto|]. split; auto. split; [apply Forall_app; auto|]. auto.
Qed.

(** ** Removal *)
Lemma last_back (a : T) t : t <> [] -> Permutation t (last t a :: removelast t).
Proof. intros N. rewrite (app_removelast_last a N) at 1. symmetry. apply Permutation_cons_append. Qed.
Lemma remove_value_ok vals v : In v vals -> exists l, remove_value same vals v = Some l /\ Permutation vals (v :: l).
Proof.
  induction vals as [|a t IH]; intros I; [contradiction|]. cbn [remove_value]. destruct (same v a) eqn:S.
  - apply same_eq in S. subst a. eexists. split; [reflexivity|]. destruct t as [|b t]; [reflexivity|]. constructor. apply last_back. discriminate.
  - destruct I as [->|I]; [rewrite (proj2 (same_eq v v) eq_refl) in S; discriminate|]. destruct (IH I) as [l [E P]]. rewrite E. eexists. split; [reflexivity|].
    rewrite P. apply perm_swap.
Qed.

Lemma try_merge_ok room b l c1 c2 c3 c4 n m : wf room b (Node l (Some (c1, c2, c3, c4))) -> try_merge l c1 c2 c3 c4 = (n, m) ->
  wf room b n /\ contents n = contents (Node l (Some (c1, c2, c3, c4))).
Proof.
  intros W E. unfold try_merge in E. destruct (is_leaf c1 && is_leaf c2 && is_leaf c3 && is_leaf c4) eqn:L; [|injection E as <- <-; auto].
  rewrite !andb_true_iff in L. destruct L as [[[L1 L2] L3] L4].
  destruct c1 as [l1 [|]]; [discriminate|]. destruct c2 as [l2 [|]]; [discriminate|]. destruct c3 as [l3 [|]]; [discriminate|]. destruct c4 as [l4 [|]]; [discriminate|].
  cbn [vals_of] in E. destruct (Nat.leb_spec (length (l ++ l1 ++ l2 ++ l3 ++ l4)) threshold) as [H|H]; injection E as <- <-; [|auto].
  split; [|reflexivity]. split; [apply wf_within in W; exact W|]. right. exact H.
Qed.

Lemma remove_ok : forall n room b v, wf room b n -> In v (contents n) ->
  exists n' m, remove get_box same n b v = Some (n', m) /\ wf room b n' /\ Permutation (contents n) (v :: contents n').
Proof.
  intros n. induction n as [l|l c1 c2 c3 c4 I1 I2 I3 I4] using tree_ind; intros room b v W I.
  - pose proof (wf_within _ _ _ W) as WA. destruct W as [W L]. cbn [remove contents] in *.
    replace (contains b (get_box v)) with true by (symmetry; apply contains_inside; rewrite Forall_forall in WA; apply WA, I). cbn [negb].
    destruct (remove_value_ok l v I) as [l' [E P]]. rewrite E. exists (Node l' None), true. split; [reflexivity|]. split; [|exact P].
    split; [cbn; rewrite P in WA; inversion WA; auto|]. destruct L as [L|L]; [left; exact L|right]. apply Permutation_length in P. cbn in P. lia.
  - pose proof (wf_within _ _ _ W) as WA. assert (V : within b v) by (rewrite Forall_forall in WA; apply WA, I).
    destruct W as [_ [R0 [WL [[W1 A1] [[W2 A2] [[W3 A3] [W4 A4]]]]]]].
    cbn [remove]. replace (contains b (get_box v)) with true by (symmetry; apply contains_inside, V). cbn [negb].
    cbn [contents] in I. rewrite !in_app_iff in I. rewrite Forall_forall in A1, A2, A3, A4. pose proof WL as WL'. rewrite Forall_forall in WL'.
    destruct (quadrant b (get_box v)) as [q|] eqn:Q.
    + assert (J : In v (contents match q with NW => c1 | NE => c2 | SW => c3 | SE => c4 end)).
      { unfold at_quad in *. destruct I as [J|[J|[J|[J|J]]]].
        - apply WL' in J. congruence.
        - pose proof (A1 v J) as X. rewrite Q in X. injection X as ->. exact J.
        - pose proof (A2 v J) as X. rewrite Q in X. injection X as ->. exact J.
        - pose proof (A3 v J) as X. rewrite Q in X. injection X as ->. exact J.
        - pose proof (A4 v J) as X. rewrite Q in X. injection X as ->. exact J. }
      clear I. rewrite <- Forall_forall in A1, A2, A3, A4.
      assert (FIN : forall d1 d2 d3 d4 (m : bool), wf room b (Node l (Some (d1, d2, d3, d4))) ->
                Permutation (contents (Node l (Some (c1, c2, c3, c4)))) (v :: contents (Node l (Some (d1, d2, d3, d4)))) ->
                exists n' m', Some (if m then try_merge l d1 d2 d3 d4 else (Node l (Some (d1, d2, d3, d4)), false)) = Some (n', m') /\ wf room b n' /\
                  Permutation (contents (Node l (Some (c1, c2, c3, c4)))) (v :: contents n')).
      { intros d1 d2 d3 d4 [|] W' P'; [|eexists _, _; split; [reflexivity|]; auto].
        destruct (try_merge l d1 d2 d3 d4) as [n' m'] eqn:E. destruct (try_merge_ok room b l d1 d2 d3 d4 n' m' W' E) as [W'' C]. exists n', m'. split; [reflexivity|]. split; [exact W''|]. rewrite C. exact P'. }
      destruct q.
      * destruct (I1 _ _ v W1 J) as [c [m [E [C P]]]]. rewrite E. 
        assert (PP : Permutation (contents (Node l (Some (c1, c2, c3, c4)))) (v :: contents (Node l (Some (c, c2, c3, c4))))).
        { cbn [contents]. rewrite P. cbn [app]. symmetry. apply Permutation_middle. }
        apply FIN; auto. rewrite PP in WA. rewrite P in A1. split; [inversion WA; auto|]. split; auto. split; auto. split; [split; auto; inversion A1; auto|]. auto.
      * destruct (I2 _ _ v W2 J) as [c [m [E [C P]]]]. rewrite E. 
        assert (PP : Permutation (contents (Node l (Some (c1, c2, c3, c4)))) (v :: contents (Node l (Some (c1, c, c3, c4))))).
        { cbn [contents]. rewrite P. cbn [app]. apply move2. }
        apply FIN; auto. rewrite PP in WA. rewrite P in A2. split; [inversion WA; auto|]. split; auto. split; auto. split; auto. split; [split; auto; inversion A2; auto|]. auto.
      * destruct (I3 _ _ v W3 J) as [c [m [E [C P]]]]. rewrite E. 
        assert (PP : Permutation (contents (Node l (Some (c1, c2, c3, c4)))) (v :: contents (Node l (Some (c1, c2, c, c4))))).
        { cbn [contents]. rewrite P. cbn [app]. apply move3. }
        apply FIN; auto. rewrite PP in WA. rewrite P in A3. split; [inversion WA; auto|]. split; auto. split; auto. split; auto. split; auto. split; [split; auto; inversion A3; auto|]. auto.
      * destruct (I4 _ _ v W4 J) as [c [m [E [C P]]]]. rewrite E. 
        assert (PP : Permutation (contents (Node l (Some (c1, c2, c3, c4)))) (v :: contents (Node l (Some (c1, c2, c3, c))))).
        { cbn [contents]. rewrite P. cbn [app]. apply move4. }
        apply FIN; auto. rewrite PP in WA. rewrite P in A4. split; [inversion WA; auto|]. split; auto. split; auto. split; auto. split; auto. split; auto. split; auto. inversion A4; auto.
    + assert (J : In v l).
      { unfold at_quad in *. destruct I as [J|[J|[J|[J|J]]]]; auto; [apply A1 in J|apply A2 in J|apply A3 in J|apply A4 in J]; congruence. }
      rewrite <- Forall_forall in A1, A2, A3, A4. destruct (remove_value_ok l v J) as [l' [E P]]. rewrite E. eexists _, _. split; [reflexivity|].
      match goal with |- wf _ _ ?m /\ _ => assert (PP : Permutation (contents (Node l (Some (c1, c2, c3, c4)))) (v :: contents m)) end.
      { cbn [contents]. rewrite P. reflexivity. }
      split; [|exact PP]. rewrite PP in WA. rewrite P in WL. split; [inversion WA; auto|]. split; auto. split; [inversion WL; auto|]. auto.
Qed.

(** ** Queries *)
Lemma filter_none {A} (f : A -> bool) l : Forall (fun x => f x = false) l -> filter f l = [].
Proof. induction 1 as [|a t H _ IH]; cbn; [reflexivity|]. rewrite H. exact IH. Qed.
Lemma query_contents : forall n room b q, wf room b n ->
  query_node get_box n b q = filter (fun v => intersects q (get_box v)) (contents n).
Proof.
  intros n. induction n as [l|l c1 c2 c3 c4 I1 I2 I3 I4] using tree_ind; intros room b q W; [reflexivity|].
  destruct W as [_ [_ [_ [[W1 _] [[W2 _] [[W3 _] [W4 _]]]]]]]. cbn [query_node contents]. rewrite !filter_app. f_equal.
  assert (K : forall c i, wf (pred room) (compute_box b i) c -> query_node get_box c (compute_box b i) q = filter (fun v => intersects q (get_box v)) (contents c) ->
     (if intersects q (compute_box b i) then query_node get_box c (compute_box b i) q else []) = filter (fun v => intersects q (get_box v)) (contents c)).
  { intros c i W E. destruct (intersects q (compute_box b i)) eqn:X; [exact E|]. symmetry. apply filter_none. apply wf_within in W. rewrite Forall_forall in *. intros v I.
    apply intersects_apart. intros O. apply (proj1 (intersects_apart _ _) X). apply (overlap_inside q (get_box v)); auto. apply W, I. }
  rewrite (K c1 NW W1), (K c2 NE W2), (K c3 SW W3), (K c4 SE W4); eauto.
Qed.

(** ** Pairs *)
Lemma NoDup_app_intro {A} (l m : list A) : NoDup l -> NoDup m -> (forall x, In x l -> In x m -> False) -> NoDup (l ++ m).
Proof.
  induction 1 as [|x t N D IH]; intros M H; [exact M|]. cbn. constructor.
  - rewrite in_app_iff. intros [I|I]; [contradiction|]. apply (H x); auto. left. reflexivity.
  - apply IH; auto. intros y I J. apply (H y); auto. right. exact I.
Qed.
Definition meet (p : T * T) : bool := intersects (get_box (fst p)) (get_box (snd p)).

Lemma both_app {A} (l m : list (A * A)) : Permutation (both (l ++ m)) (both l ++ both m).
Proof.
  unfold both. rewrite map_app, <- !app_assoc. apply Permutation_app_head. rewrite !app_assoc. apply Permutation_app_tail. apply Permutation_app_comm.
Qed.
Lemma both_perm {A} (l m : list (A * A)) : Permutation l m -> Permutation (both l) (both m).
Proof. intros P. unfold both. apply Permutation_app; auto. apply Permutation_map; auto. Qed.
Lemma both_swap {A} (l : list (A * A)) : Permutation (both (map swap l)) (both l).
Proof.
  unfold both. rewrite map_map. rewrite (map_ext (fun x => swap (swap x)) (fun x => x)) by (intros []; reflexivity). rewrite map_id. apply Permutation_app_comm.
Qed.
Lemma filter_perm {A} (f : A -> bool) l m : Permutation l m -> Permutation (filter f l) (filter f m).
Proof.
  induction 1 as [|x l m P IH|x y l|l m k P1 I1 P2 I2]; cbn; auto.
  - destruct (f x); auto.
  - destruct (f x); destruct (f y); auto. apply perm_swap.
  - etransitivity; eauto.
Qed.
Lemma filter_map_swap (l : list (T * T)) : filter meet (map swap l) = map swap (filter meet l).
Proof.
  induction l as [|[a b] t IH]; [reflexivity|]. cbn [map filter].
  assert (M : meet (swap (a, b)) = meet (a, b)) by (unfold meet; cbn; apply intersects_sym). rewrite M.
  destruct (meet (a, b)); cbn [map]; rewrite IH; reflexivity.
Qed.
Lemma filter_both (l : list (T * T)) : filter meet (both l) = both (filter meet l).
Proof. unfold both. rewrite filter_app, filter_map_swap. reflexivity. Qed.
Lemma filter_line a (l : list T) : filter meet (map (fun b => (a, b)) l) = map (fun o => (a, o)) (filter (fun o => intersects (get_box a) (get_box o)) l).
Proof. induction l as [|b t IH]; [reflexivity|]. cbn. unfold meet at 1. cbn. destruct (intersects (get_box a) (get_box b)); cbn; rewrite IH; reflexivity. Qed.

Lemma pairs_app {A} (l m : list A) : Permutation (pairs (l ++ m)) (pairs l ++ list_prod l m ++ pairs m).
Proof.
  induction l as [|a t IH]; [reflexivity|]. cbn [app pairs list_prod]. rewrite map_app, IH, <- !app_assoc. apply Permutation_app_head.
  rewrite !app_assoc. apply Permutation_app_tail. rewrite <- !app_assoc. apply Permutation_app_swap_app.
Qed.
Lemma pairs_snoc {A} (l : list A) a : Permutation (both (pairs (l ++ [a]))) (both (pairs l) ++ both (map (fun o => (a, o)) l)).
Proof.
  rewrite (both_perm _ _ (pairs_app l [a])). rewrite both_app. apply Permutation_app_head. cbn [pairs]. rewrite app_nil_r. rewrite <- both_swap.
  apply both_perm. rewrite <- (map_id (map swap _)). induction l as [|b t IH]; [reflexivity|]. cbn. constructor. rewrite map_id in IH. rewrite map_id. exact IH.
Qed.
Lemma within_pairs : forall vals seen,
  Permutation (both (filter meet (pairs seen)) ++ both (pairs_within get_box seen vals)) (both (filter meet (pairs (seen ++ vals)))).
Proof.
  induction vals as [|a t IH]; intros seen; cbn [pairs_within].
  - rewrite !app_nil_r. reflexivity.
  - specialize (IH (seen ++ [a])). rewrite <- app_assoc in IH. cbn [app] in IH. rewrite <- IH. rewrite both_app, app_assoc. apply Permutation_app_tail.
    rewrite <- filter_line, <- !filter_both, <- filter_app. symmetry. apply filter_perm. apply pairs_snoc.
Qed.

Lemma below_contents n v : Permutation (below get_box n v) (map (fun o => (v, o)) (filter (fun o => intersects (get_box v) (get_box o)) (contents n))).
Proof.
  induction n as [l|l c1 c2 c3 c4 I1 I2 I3 I4] using tree_ind; [reflexivity|]. cbn [below contents]. rewrite !filter_app, !map_app, I1, I2, I3, I4. reflexivity.
Qed.
Lemma flat_below n vals : Permutation (flat_map (below get_box n) vals) (filter meet (list_prod vals (contents n))).
Proof.
  induction vals as [|a t IH]; [reflexivity|]. cbn. rewrite filter_app, filter_line, below_contents, IH. reflexivity.
Qed.
Lemma prod_app {A B} (l : list A) (m k : list B) : Permutation (list_prod l (m ++ k)) (list_prod l m ++ list_prod l k).
Proof.
  induction l as [|a t IH]; [reflexivity|]. cbn. rewrite map_app, IH, <- !app_assoc. apply Permutation_app_head. apply Permutation_app_swap_app.
Qed.
Lemma prod_apart b q q' l m : q <> q' -> Forall (at_quad b q) l -> Forall (at_quad b q') m -> filter meet (list_prod l m) = [].
Proof.
  intros N A B. apply filter_none, Forall_forall. intros [x y] I. apply in_prod_iff in I. rewrite Forall_forall in *. unfold meet. cbn. apply intersects_apart.
  apply (quadrant_apart b _ _ q q'); auto; [apply A|apply B]; apply I.
Qed.
Lemma all_pairs_ok : forall n room b, wf room b n -> Permutation (both (all_pairs get_box n)) (both (filter meet (pairs (contents n)))).
Proof.
  intros n. induction n as [l|l c1 c2 c3 c4 I1 I2 I3 I4] using tree_ind; intros room b W.
  - cbn [all_pairs contents]. apply (within_pairs l []).
  - destruct W as [_ [_ [_ [[W1 A1] [[W2 A2] [[W3 A3] [W4 A4]]]]]]]. cbn [all_pairs contents].
    set (k1 := contents c1) in *. set (k2 := contents c2) in *. set (k3 := contents c3) in *. set (k4 := contents c4) in *.
    assert (PK : Permutation (filter meet (pairs (k1 ++ k2 ++ k3 ++ k4))) (filter meet (pairs k1) ++ filter meet (pairs k2) ++ filter meet (pairs k3) ++ filter meet (pairs k4))).
    { rewrite (filter_perm meet _ _ (pairs_app k1 (k2 ++ k3 ++ k4))), !filter_app. apply Permutation_app_head.
      rewrite (filter_perm meet _ _ (prod_app k1 k2 (k3 ++ k4))), filter_app, (filter_perm meet _ _ (prod_app k1 k3 k4)), filter_app.
      rewrite (prod_apart b NW NE), (prod_apart b NW SW), (prod_apart b NW SE) by (auto; discriminate). cbn [app].
      rewrite (filter_perm meet _ _ (pairs_app k2 (k3 ++ k4))), !filter_app. apply Permutation_app_head.
      rewrite (filter_perm meet _ _ (prod_app k2 k3 k4)), filter_app. rewrite (prod_apart b NE SW), (prod_apart b NE SE) by (auto; discriminate). cbn [app].
      rewrite (filter_perm meet _ _ (pairs_app k3 k4)), !filter_app. apply Permutation_app_head. rewrite (prod_apart b SW SE) by (auto; discriminate). reflexivity. }
    assert (PL : Permutation (filter meet (list_prod l (k1 ++ k2 ++ k3 ++ k4))) (flat_map (below get_box c1) l ++ flat_map (below get_box c2) l ++ flat_map (below get_box c3) l ++ flat_map (below get_box c4) l)).
    { rewrite !flat_below. fold k1 k2 k3 k4. rewrite (filter_perm meet _ _ (prod_app l k1 (k2 ++ k3 ++ k4))), filter_app. apply Permutation_app_head.
      rewrite (filter_perm meet _ _ (prod_app l k2 (k3 ++ k4))), filter_app. apply Permutation_app_head.
      rewrite (filter_perm meet _ _ (prod_app l k3 k4)), filter_app. reflexivity. }
    rewrite (both_perm (filter meet (pairs (l ++ _))) _ (filter_perm meet _ _ (pairs_app l _))). rewrite !filter_app.
    rewrite (both_perm _ _ (Permutation_app_head _ (Permutation_app PL PK))).
    rewrite <- !app_assoc. rewrite !both_app. 
    pose proof (within_pairs l []) as WP. cbn [pairs filter both map app] in WP. rewrite WP.
    rewrite (I1 _ _ W1), (I2 _ _ W2), (I3 _ _ W3), (I4 _ _ W4). reflexivity.
Qed.

Lemma pairs_perm {A} (l m : list A) : Permutation l m -> Permutation (both (pairs l)) (both (pairs m)).
Proof.
  induction 1 as [|x l m P IH|x y l|l m k P1 I1 P2 I2]; cbn [pairs]; auto.
  - rewrite !both_app, IH. apply Permutation_app_tail. apply both_perm, Permutation_map, P.
  - cbn [map app]. change ((y, x) :: map (fun b => (y, b)) l ++ map (fun b => (x, b)) l ++ pairs l) with ([(y, x)] ++ map (fun b => (y, b)) l ++ map (fun b => (x, b)) l ++ pairs l).
    change ((x, y) :: map (fun b => (x, b)) l ++ map (fun b => (y, b)) l ++ pairs l) with ([(x, y)] ++ map (fun b => (x, b)) l ++ map (fun b => (y, b)) l ++ pairs l).
    rewrite !both_app. apply Permutation_app; [apply perm_swap|]. rewrite !app_assoc. apply Permutation_app_tail, Permutation_app_comm.
  - etransitivity; eauto.
Qed.
Lemma in_both {A} (r : list (A * A)) a b : In (a, b) (both r) <-> In (a, b) r \/ In (b, a) r.
Proof.
  unfold both. rewrite in_app_iff, in_map_iff. split; intros [H|H]; auto.
  - destruct H as [[x y] [E I]]. injection E as <- <-. auto.
  - right. exists (b, a). auto.
Qed.
Lemma in_pairs {A} (l : list A) a b : In (a, b) (pairs l) -> In a l /\ In b l.
Proof.
  induction l as [|x t IH]; [contradiction|]. cbn [pairs]. rewrite in_app_iff, in_map_iff. intros [[y [E I]]|I].
  - injection E as <- <-. cbn. auto.
  - destruct (IH I). cbn. auto.
Qed.
Lemma pairs_in {A} (l : list A) a b : In a l -> In b l -> a <> b -> In (a, b) (both (pairs l)).
Proof.
  induction l as [|x t IH]; [contradiction|]. intros HA HB N. apply in_both. cbn [pairs]. rewrite !in_app_iff, !in_map_iff.
  destruct HA as [<-|HA]; destruct HB as [<-|HB].
  - contradiction.
  - left. left. eauto.
  - right. left. eauto.
  - destruct (proj1 (in_both _ _ _) (IH HA HB N)); auto.
Qed.
Lemma nodup_both {A} (l : list A) : NoDup l -> NoDup (both (pairs l)).
Proof.
  induction 1 as [|x t N D IH]; [constructor|]. cbn [pairs].
  apply (Permutation_NoDup (l := both (map (fun b => (x, b)) t) ++ both (pairs t))); [symmetry; apply both_app|].
  apply (NoDup_app_intro).
  - unfold both. apply NoDup_app_intro.
    + apply FinFun.Injective_map_NoDup; auto. intros a b E. congruence.
    + rewrite map_map. apply FinFun.Injective_map_NoDup; auto. intros a b E. unfold swap in E; cbn in E; congruence.
    + intros [a b] I J. rewrite map_map in J. apply in_map_iff in I. apply in_map_iff in J. destruct I as [y [E I]]. destruct J as [z [E' J]]. unfold swap in E'; cbn in E'. injection E as <- <-. injection E' as -> ->. contradiction.
  - exact IH.
  - intros [a b] I J. apply in_both in I. apply in_both in J. assert (M : In a t /\ In b t) by (destruct J as [J|J]; apply in_pairs in J; tauto).
    destruct I as [I|I]; apply in_map_iff in I; destruct I as [y [E I]]; injection E as <- <-; destruct M; contradiction.
Qed.

(** ** Histories *)
Lemma run_app b os os' n : run get_box same b n (os ++ os') = match run get_box same b n os with None => None | Some n' => run get_box same b n' os' end.
Proof.
  revert n. induction os as [|o t IH]; intros n; [reflexivity|]. cbn. destruct (step get_box same b n o); auto.
Qed.
Lemma wf_empty room b : wf room b empty.
Proof. split; [constructor|]. right. cbn. lia. Qed.
Lemma run_ok b os l : holds get_box b os l -> exists n, run get_box same b empty os = Some n /\ wf max_depth b n /\ Permutation (contents n) l.
Proof.
  induction 1 as [|os l v H IH V|os l l' v H IH P V].
  - exists empty. split; [reflexivity|]. split; [apply wf_empty|reflexivity].
  - destruct IH as [n [E [W C]]]. destruct (add_ok n max_depth b v V W) as [n' [E' [W' C']]]. exists n'. rewrite run_app, E. cbn [run step]. rewrite E'.
    split; [reflexivity|]. split; [exact W'|]. rewrite C', C. reflexivity.
  - destruct IH as [n [E [W C]]]. destruct (remove_ok n max_depth b v W) as [n' [m [E' [W' C']]]].
    { apply (Permutation_in v (l := v :: l')); [rewrite C, P; reflexivity|left; reflexivity]. }
    exists n'. rewrite run_app, E. cbn [run step]. rewrite E'. split; [reflexivity|]. split; [exact W'|].
    apply (Permutation_cons_inv (a := v)). rewrite <- C', C. exact P.
Qed.
End Tree.
