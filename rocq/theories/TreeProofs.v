(** Proofs about the interaction tree. *)
From Coq Require Import List Bool ZArith Lia Relations.
From Verif Require Import TraversalModel TreeModel TreeSpec.
Import ListNotations.
Open Scope Z_scope.

Ltac inv H := inversion H; subst; clear H.

Section P.
Context {R : Type}.
Implicit Types (s : state R) (t : list (row R)) (h : heap R).

(** ** Heap *)
Lemma heap_set_length h p d : length (heap_set h p d) = length h.
Proof. revert p; induction h; intros [|p]; cbn; auto. Qed.

Lemma heap_set_same h p d : (p < length h)%nat -> nth_error (heap_set h p d) p = Some d.
Proof. revert p; induction h; intros [|p]; cbn; intros; try lia; auto. apply IHh; lia. Qed.

Lemma heap_set_other h p q d : p <> q -> nth_error (heap_set h p d) q = nth_error h q.
Proof. revert p q; induction h; intros [|p] [|q]; cbn; intros; auto; try congruence. Qed.

Lemma heap_set_set h p d e : heap_set (heap_set h p d) p e = heap_set h p e.
Proof. revert p; induction h; intros [|p]; cbn; auto. f_equal; auto. Qed.

Definition row_of (d : datum R) : row R := (d_record d, d_node_id d, d_parent d, d_daughters d).

(** ** Rows *)
Fixpoint set_nth {A} (l : list A) (i : nat) (x : A) : list A :=
  match l, i with
  | [], _ => []
  | _ :: r, O => x :: r
  | y :: r, S j => y :: set_nth r j x
  end.

Lemma set_nth_length {A} (l : list A) i x : length (set_nth l i x) = length l.
Proof. revert i; induction l; intros [|i]; cbn; auto. Qed.

Lemma set_nth_nth {A} (l : list A) i j x :
  nth_error (set_nth l i x) j =
  if Nat.eq_dec i j then (if lt_dec i (length l) then Some x else None) else nth_error l j.
Proof.
  revert i j; induction l as [|y l IH]; intros i j; cbn [length].
  - destruct (Nat.eq_dec i j), (lt_dec i 0); try lia; destruct i, j; auto.
  - destruct i as [|i], j as [|j]; cbn [set_nth nth_error]; try reflexivity.
    rewrite IH. destruct (Nat.eq_dec i j), (Nat.eq_dec (S i) (S j)); try lia; auto.
    destruct (lt_dec i (length l)), (lt_dec (S i) (S (length l))); auto; lia.
Qed.

Lemma at_pos_app t x i y :
  at_pos (t ++ [x]) i y <-> at_pos t i y \/ (i = Z.of_nat (length t) /\ y = x).
Proof.
  unfold at_pos. split.
  - intros [H0 H]. destruct (Z_lt_le_dec i (Z.of_nat (length t))) as [L|L].
    + rewrite nth_error_app1 in H by lia. auto.
    + rewrite nth_error_app2 in H by lia.
      destruct (Z.to_nat i - length t)%nat as [|k] eqn:E; cbn in H.
      * right. split; [lia|congruence].
      * destruct k; discriminate.
  - intros [[H0 H]|[-> ->]].
    + split; auto. rewrite nth_error_app1; auto. apply nth_error_Some; congruence.
    + split; [lia|]. rewrite nth_error_app2 by lia. replace (_ - _)%nat with O by lia. auto.
Qed.

Lemma at_pos_range t i x : at_pos t i x -> 0 <= i < Z.of_nat (length t).
Proof. intros [H E]. assert (Z.to_nat i < length t)%nat by (apply nth_error_Some; congruence). lia. Qed.

Lemma at_pos_set t (k : nat) z i y : (k < length t)%nat ->
  at_pos (set_nth t k z) i y <-> (i = Z.of_nat k /\ y = z) \/ (i <> Z.of_nat k /\ at_pos t i y).
Proof.
  intros Hk. unfold at_pos. rewrite set_nth_nth.
  destruct (Nat.eq_dec k (Z.to_nat i)) as [E|E].
  - destruct lt_dec; [|lia]. split.
    + intros [H0 H]. left. split; [lia|congruence].
    + intros [[-> ->]|[H [H0 _]]]; [split; auto; lia|lia].
  - split.
    + intros [H0 H]. right. split; auto; lia.
    + intros [[-> ->]|[H [H0 ?]]]; [lia|auto].
Qed.

Lemma at_pos_fun t i x y : at_pos t i x -> at_pos t i y -> x = y.
Proof. intros [_ A] [_ B]. congruence. Qed.

Definition push_daughter (x : row R) (n : Z) : row R :=
  let '(r, i, p, d) := x in (r, i, p, d ++ [n]).

Definition add_row t (r : R) (par : option (nat * row R)) : list (row R) :=
  let n := Z.of_nat (length t) in
  match par with
  | None => t ++ [(r, n, kNoParent, [])]
  | Some (k, x) => set_nth t k (push_daughter x n) ++ [(r, n, Z.of_nat k, [])]
  end.

Lemma count_occ_notin (l : list Z) j : (forall x, In x l -> x < j) -> count_occ Z.eq_dec l j = 0%nat.
Proof. intros H. apply count_occ_not_In. intros I. specialize (H _ I). lia. Qed.

Lemma wf_nil : @well_formed R [].
Proof.
  assert (N : forall i (x : row R), ~ at_pos [] i x).
  { intros i x [_ H]. destruct (Z.to_nat i); discriminate. }
  split; intros; exfalso; eapply N; eauto.
Qed.

Lemma wf_add t r par :
  well_formed t -> Z.of_nat (length t) < kNoParent ->
  (match par with None => True | Some (k, x) => nth_error t k = Some x end) ->
  well_formed (add_row t r par).
Proof.
  intros W L HP. destruct W as [WI WP WM WD]. destruct par as [[k x]|]; cbn [add_row].
  - assert (Hk : (k < length t)%nat) by (apply nth_error_Some; congruence).
    assert (Ax : at_pos t (Z.of_nat k) x) by (split; [lia|rewrite Nat2Z.id; auto]).
    set (n := Z.of_nat (length t)) in *.
    assert (SL : Z.of_nat (length (set_nth t k (push_daughter x n))) = n) by (rewrite set_nth_length; auto).
    assert (RI : row_id (push_daughter x n) = row_id x) by (destruct x as [[[? ?] ?] ?]; auto).
    assert (RP : row_parent (push_daughter x n) = row_parent x) by (destruct x as [[[? ?] ?] ?]; auto).
    assert (RD : row_daughters (push_daughter x n) = row_daughters x ++ [n]) by (destruct x as [[[? ?] ?] ?]; auto).
    assert (KN : Z.of_nat k <> kNoParent) by (unfold n in *; lia).
    split.
    + intros i y H. apply at_pos_app in H. rewrite SL in H. destruct H as [H|[-> ->]]; [|auto].
      apply at_pos_set in H; auto. destruct H as [[-> ->]|[_ H]]; [rewrite RI|]; auto.
    + intros i y H. apply at_pos_app in H. rewrite SL in H. destruct H as [H|[-> ->]].
      * apply at_pos_set in H; auto. destruct H as [[-> ->]|[_ H]]; [rewrite RP|]; auto.
      * cbn. right. lia.
    + intros i j y z Hy Hz. apply at_pos_app in Hy. apply at_pos_app in Hz. rewrite SL in *.
      destruct Hy as [Hy|[-> ->]].
      * apply at_pos_set in Hy; auto.
        assert (exists y0, at_pos t i y0 /\ row_daughters y = row_daughters y0 ++ (if i =? Z.of_nat k then [n] else [])) as [y0 [Hy0 E0]].
        { destruct Hy as [[-> ->]|[N H]].
          - exists x. rewrite Z.eqb_refl. auto.
          - exists y. apply Z.eqb_neq in N. rewrite N, app_nil_r. auto. }
        rewrite E0, count_occ_app.
        destruct Hz as [Hz|[-> ->]].
        -- apply at_pos_set in Hz; auto.
           assert (exists z0, at_pos t j z0 /\ row_parent z = row_parent z0) as [z0 [Hz0 E1]].
           { destruct Hz as [[-> ->]|[N H]]; eauto. }
           rewrite E1, (WM _ _ _ _ Hy0 Hz0). apply at_pos_range in Hz0.
           destruct (i =? Z.of_nat k); cbn; try lia. destruct (Z.eq_dec n j); try lia. 
        -- rewrite count_occ_notin; [|intros w Hw; apply (WD _ _ _ Hy0) in Hw; unfold n; lia].
           cbn [row_parent]. rewrite (Z.eqb_sym (Z.of_nat k) i). destruct (i =? Z.of_nat k); cbn; auto.
           destruct (Z.eq_dec n n); auto; lia.
      * cbn [row_daughters count_occ]. destruct (row_parent z =? n) eqn:E; auto. exfalso. apply Z.eqb_eq in E.
        destruct Hz as [Hz|[-> ->]].
        -- apply at_pos_set in Hz; auto.
           assert (exists z0, at_pos t j z0 /\ row_parent z = row_parent z0) as [z0 [Hz0 E1]].
           { destruct Hz as [[-> ->]|[N H]]; eauto. }
           pose proof (at_pos_range _ _ _ Hz0). destruct (WP _ _ Hz0); unfold n in *; lia.
        -- cbn in E. unfold n in *; lia.
    + intros i y j Hy I. rewrite app_length, set_nth_length. cbn. apply at_pos_app in Hy. rewrite SL in Hy.
      destruct Hy as [Hy|[-> ->]]; [|destruct I].
      apply at_pos_set in Hy; auto. destruct Hy as [[-> ->]|[N H]].
      * rewrite RD in I. apply in_app_or in I. destruct I as [I|[<-|[]]]; [|unfold n; lia].
        apply (WD _ _ _ Ax) in I. lia.
      * apply (WD _ _ _ H) in I. lia.
  - set (n := Z.of_nat (length t)) in *. split.
    + intros i y H. apply at_pos_app in H. destruct H as [H|[-> ->]]; auto.
    + intros i y H. apply at_pos_app in H. destruct H as [H|[-> ->]]; auto.
    + intros i j y z Hy Hz. apply at_pos_app in Hy. apply at_pos_app in Hz. fold n in Hy, Hz.
      destruct Hy as [Hy|[-> ->]]; destruct Hz as [Hz|[-> ->]].
      * apply WM; auto.
      * rewrite count_occ_notin; [|intros w Hw; apply (WD _ _ _ Hy) in Hw; unfold n; lia].
        apply at_pos_range in Hy. cbn [row_parent]. destruct (kNoParent =? i) eqn:E; auto. unfold n in *; lia.
      * cbn. pose proof (at_pos_range _ _ _ Hz). destruct (row_parent z =? n) eqn:E; auto.
        apply Z.eqb_eq in E. destruct (WP _ _ Hz); unfold n in *; lia.
      * cbn [row_parent row_daughters count_occ]. destruct (kNoParent =? n) eqn:E; auto. lia.
    + intros i y j Hy I. rewrite app_length. cbn. apply at_pos_app in Hy. destruct Hy as [Hy|[-> ->]]; [|destruct I].
      apply (WD _ _ _ Hy) in I. lia.
Qed.

(** ** The invariant *)
Definition view h (ps : list ptr) t : Prop :=
  Forall2 (fun p x => exists d, nth_error h p = Some d /\ x = row_of d) ps t.

Definition Inv s (ps : list ptr) : Prop :=
  st_tree s = map Some ps /\ NoDup ps /\
  (Z.of_nat (length ps) <= kNoParent -> exists t, view (st_heap s) ps t /\ well_formed t).

Lemma view_shows s ps t : st_tree s = map Some ps -> view (st_heap s) ps t -> shows s t.
Proof.
  unfold shows, view. intros -> V. induction V; cbn; constructor; auto.
  destruct H as [d [E ->]]. exists x, d. auto.
Qed.

Lemma view_length h ps t : view h ps t -> length ps = length t.
Proof. induction 1; cbn; auto. Qed.

Lemma view_in h ps t p : view h ps t -> In p ps -> (p < length h)%nat.
Proof.
  induction 1 as [|q x ps' t' [d [E _]] V IH]; cbn; intros []; auto.
  subst. apply nth_error_Some. congruence.
Qed.

Lemma view_ext h h' ps t : (forall p, In p ps -> nth_error h' p = nth_error h p) -> view h ps t -> view h' ps t.
Proof.
  intros H V. induction V as [|p x ps t [d [E ->]] V IH]; constructor.
  - exists d. rewrite H by (left; auto). auto.
  - apply IH. intros; apply H; right; auto.
Qed.

Lemma view_nth h ps t k p : view h ps t -> nth_error ps k = Some p ->
  exists d, nth_error h p = Some d /\ nth_error t k = Some (row_of d).
Proof.
  intros V. revert k. induction V as [|q x ps t [d [E ->]] V IH]; intros [|k] H; cbn in *; try discriminate.
  - inv H. eauto.
  - auto.
Qed.

Lemma view_set h ps t k p d : NoDup ps -> view h ps t -> nth_error ps k = Some p ->
  view (heap_set h p d) ps (set_nth t k (row_of d)).
Proof.
  intros ND V. revert k. induction V as [|q x ps t [d0 [E ->]] V IH]; intros k H; [destruct k; discriminate|].
  inv ND. destruct k as [|k]; cbn in *.
  - inv H. constructor.
    + exists d. split; auto. apply heap_set_same. apply nth_error_Some. congruence.
    + eapply view_ext; [|exact V]. intros p' Hp. apply heap_set_other. intros ->; contradiction.
  - constructor.
    + exists d0. rewrite heap_set_other; auto. intros ->. apply nth_error_In in H. contradiction.
    + apply IH; auto.
Qed.

Lemma view_app h ps t p d : view h ps t -> nth_error h p = Some d -> view h (ps ++ [p]) (t ++ [row_of d]).
Proof. intros. apply Forall2_app; auto. constructor; [eauto|constructor]. Qed.

Definition parent_ok (ps : list ptr) (parent : option ptr) : Prop :=
  parent = None \/ exists q, parent = Some q /\ In q ps.

Lemma to_u32_small z : 0 <= z < 4294967296 -> to_u32 z = z.
Proof. intros. apply Z.mod_small. auto. Qed.

(** One addition of a fresh pointer. *)
Lemma add_ptr_inv s ps p parent s' p' :
  Inv s ps -> parent_ok ps parent -> ~ In p ps -> add_ptr s p parent = Ok (s', p') ->
  p' = p /\ Inv s' (ps ++ [p]).
Proof.
  intros [HT [ND HW]] PO NI H. unfold add_ptr in H.
  destruct (nth_error (st_heap s) p) as [d|] eqn:Ed; [|discriminate].
  assert (Hp : (p < length (st_heap s))%nat) by (apply nth_error_Some; congruence).
  assert (ND' : NoDup (ps ++ [p])).
  { apply NoDup_rev in ND. rewrite <- (rev_involutive (ps ++ [p])). apply NoDup_rev. rewrite rev_app_distr. cbn.
    constructor; auto. rewrite <- in_rev. auto. }
  destruct parent as [q|].
  - destruct PO as [|[q' [E Hq]]]; [discriminate|]. inv E.
    assert (Npq : p <> q') by (intros ->; auto).
    rewrite (heap_set_other _ p q') in H; auto.
    destruct (nth_error (st_heap s) q') as [dq|] eqn:Eq; [|discriminate].
    rewrite !heap_set_set, (heap_set_other _ p q'), Eq in H by auto. inv H. split; auto.
    split; [|split]; auto.
    + cbn. rewrite HT, map_app. auto.
    + intros L. rewrite app_length in L. cbn in L.
      destruct HW as [t [V W]]; [lia|]. pose proof (view_length _ _ _ V) as VL.
      destruct (In_nth_error _ _ Hq) as [k Ek].
      destruct (view_nth _ _ _ _ _ V Ek) as [dq' [E1 E2]]. rewrite Eq in E1. inv E1.
      exists (add_row t (d_record d) (Some (k, row_of dq'))). split.
      * cbn [st_heap add_row]. rewrite HT, map_length, VL.
        rewrite (to_u32_small (Z.of_nat (length t))) by (unfold kNoParent in L; lia).
        assert (Hid : d_node_id dq' = Z.of_nat k).
        { apply (wf_id _ W (Z.of_nat k) (row_of dq')). split; [lia|]. rewrite Nat2Z.id. auto. }
        rewrite Hid.
        assert (ERow : (d_record d, Z.of_nat (length t), Z.of_nat k, []) =
                  row_of (set_ids (set_ids d (Z.of_nat (length t)) (d_parent d) []) (Z.of_nat (length t)) (Z.of_nat k) [])) by reflexivity.
        rewrite ERow.
        assert (EPush : push_daughter (row_of dq') (Z.of_nat (length t)) =
                        row_of (set_ids dq' (Z.of_nat k) (d_parent dq') (d_daughters dq' ++ [Z.of_nat (length t)]))).
        { unfold push_daughter, row_of, set_ids. cbn. rewrite Hid. auto. }
        rewrite EPush.
        apply view_app.
        -- apply view_set; auto. eapply view_ext; [|exact V]. intros r Hr. apply heap_set_other. intros ->; contradiction.
        -- rewrite heap_set_other by auto. apply heap_set_same; auto.
      * apply wf_add; auto. lia.
  - inv H. split; auto. split; [|split]; auto.
    + cbn. rewrite HT, map_app. auto.
    + intros L. rewrite app_length in L. cbn in L.
      destruct HW as [t [V W]]; [lia|]. pose proof (view_length _ _ _ V) as VL.
      exists (add_row t (d_record d) None). split.
      * cbn [st_heap add_row]. rewrite HT, map_length, VL, heap_set_set.
        rewrite (to_u32_small (Z.of_nat (length t))) by (unfold kNoParent in L; lia).
        assert (ERow : (d_record d, Z.of_nat (length t), kNoParent, []) =
                  row_of (set_ids (set_ids d (Z.of_nat (length t)) (d_parent d) []) (Z.of_nat (length t)) kNoParent [])) by reflexivity.
        rewrite ERow.
        apply view_app.
        -- eapply view_ext; [|exact V]. intros r Hr. apply heap_set_other. intros ->; contradiction.
        -- apply heap_set_same; auto.
      * apply wf_add; auto. lia.
Qed.

(** Adding never fails. *)
Lemma add_ptr_ok s p parent :
  (p < length (st_heap s))%nat -> (forall q, parent = Some q -> (q < length (st_heap s))%nat) ->
  exists s', add_ptr s p parent = Ok (s', p) /\ length (st_heap s') = length (st_heap s)
    /\ st_tree s' = st_tree s ++ [Some p].
Proof.
  intros Hp Hq. unfold add_ptr.
  destruct (nth_error (st_heap s) p) as [d|] eqn:Ed; [|apply nth_error_None in Ed; lia].
  destruct parent as [q|].
  - specialize (Hq _ eq_refl).
    destruct (nth_error (heap_set (st_heap s) p _) q) as [dq|] eqn:E1;
      [|apply nth_error_None in E1; rewrite heap_set_length in E1; lia].
    destruct (nth_error (heap_set (heap_set _ _ _) p _) q) as [dq2|] eqn:E2;
      [|apply nth_error_None in E2; rewrite !heap_set_length in E2; lia].
    eexists. split; [reflexivity|]. cbn. rewrite !heap_set_length. auto.
  - eexists. split; [reflexivity|]. cbn. rewrite !heap_set_length. auto.
Qed.

Definition Inv2 s (ps : list ptr) : Prop := Inv s ps /\ Forall (fun p => (p < length (st_heap s))%nat) ps.

Lemma alloc_inv s ps d : Inv2 s ps -> Inv2 (fst (alloc s d)) ps /\ ~ In (snd (alloc s d)) ps
  /\ (snd (alloc s d) < length (st_heap (fst (alloc s d))))%nat.
Proof.
  intros [[HT [ND HW]] F]. unfold alloc; cbn. split; [|split].
  - split.
    + split; [|split]; auto. intros L. destruct (HW L) as [t [V W]]. exists t. split; auto.
      eapply view_ext; [|exact V]. cbn. intros p Hp. rewrite Forall_forall in F. apply F in Hp.
      apply nth_error_app1. auto.
    + eapply Forall_impl; [|exact F]. cbn. intros. rewrite app_length. cbn. lia.
  - intros I. rewrite Forall_forall in F. apply F in I. lia.
  - rewrite app_length; cbn; lia.
Qed.

Lemma add_ptr_inv2 s ps p parent s' p' :
  Inv2 s ps -> parent_ok ps parent -> ~ In p ps -> (p < length (st_heap s))%nat ->
  add_ptr s p parent = Ok (s', p') -> p' = p /\ Inv2 s' (ps ++ [p]).
Proof.
  intros [HI F] PO NI Hp H. destruct (add_ptr_inv _ _ _ _ _ _ HI PO NI H) as [-> HI'].
  split; auto. split; auto. rewrite Forall_forall in F.
  destruct (add_ptr_ok s p parent) as [s2 [E2 [L _]]]; auto.
  { intros q ->. destruct PO as [|[q' [E Hq]]]; [discriminate|]. inv E. auto. }
  rewrite E2 in H. inv H. rewrite L. apply Forall_forall. intros x Hx. apply in_app_or in Hx.
  destruct Hx as [Hx|[<-|[]]]; auto.
Qed.

Lemma wf_set_record t k x r :
  nth_error t k = Some x -> well_formed t ->
  well_formed (set_nth t k (r, row_id x, row_parent x, row_daughters x)).
Proof.
  intros Hk W. assert (L : (k < length t)%nat) by (apply nth_error_Some; congruence).
  assert (K : at_pos t (Z.of_nat k) x) by (split; [lia|rewrite Nat2Z.id; auto]).
  set (z := (r, row_id x, row_parent x, row_daughters x)).
  assert (T : forall i y, at_pos (set_nth t k z) i y -> exists y0, at_pos t i y0 /\
            row_id y = row_id y0 /\ row_parent y = row_parent y0 /\ row_daughters y = row_daughters y0).
  { intros i y H. apply at_pos_set in H; auto. destruct H as [[-> ->]|[_ H]]; eauto. }
  split.
  - intros i y H. destruct (T _ _ H) as [y0 [A [-> _]]]. eapply wf_id; eauto.
  - intros i y H. destruct (T _ _ H) as [y0 [A [_ [-> _]]]]. eapply wf_parent; eauto.
  - intros i j y y' H H'. destruct (T _ _ H) as [y0 [A [_ [_ ->]]]]. destruct (T _ _ H') as [y1 [A' [_ [-> _]]]].
    eapply wf_mirror; eauto.
  - intros i y j H. destruct (T _ _ H) as [y0 [A [_ [_ ->]]]]. rewrite set_nth_length. eapply wf_daughters; eauto.
Qed.

Lemma built_inv s ps : built s ps -> Inv2 s ps.
Proof.
  induction 1 as [h|s ps d B IH|s ps r parent s' p B IH PO H|s ps d parent s' p B IH PO H|s ps parent s' p0 p B IH PO NI L H
                 |s ps p d r B IH H].
  - split; [|constructor]. split; auto. split; [constructor|]. intros _. exists []. split; [constructor|apply wf_nil].
  - apply alloc_inv; auto.
  - unfold add_record in H. destruct (alloc_inv s ps (new_datum r) IH) as [I2 [NI L]].
    unfold alloc in *; cbn in I2, NI, L, H.
    destruct (add_ptr_inv2 _ _ _ _ _ _ I2 PO NI L H) as [-> I3]. auto.
  - unfold add_copy in H. destruct (alloc_inv s ps d IH) as [I2 [NI L]].
    unfold alloc in *; cbn in I2, NI, L, H.
    destruct (add_ptr_inv2 _ _ _ _ _ _ I2 PO NI L H) as [-> I3]. auto.
  - destruct (add_ptr_inv2 _ _ _ _ _ _ IH PO NI L H) as [-> I3]. auto.
  - destruct IH as [[HT [ND HW]] F]. split.
    + split; [|split]; auto. intros L. destruct (HW L) as [t [V W]]. cbn.
      destruct (in_dec Nat.eq_dec p ps) as [I|I].
      * apply In_nth_error in I. destruct I as [k Hk].
        destruct (view_nth _ _ _ _ _ V Hk) as [d' [E Ek]]. rewrite H in E. inv E.
        exists (set_nth t k (r, d_node_id d', d_parent d', d_daughters d')). split.
        -- eapply view_set in V; [|exact ND|exact Hk]. exact V.
        -- apply (wf_set_record t k _ r) in Ek; auto.
      * exists t. split; auto. eapply view_ext; [|exact V]. intros q Hq. apply heap_set_other. congruence.
    + cbn. rewrite heap_set_length. auto.
Qed.

Theorem built_well_formed s ps :
  built s ps -> Z.of_nat (length ps) <= kNoParent ->
  exists t, shows s t /\ well_formed t /\ length t = length ps.
Proof.
  intros B L. destruct (built_inv _ _ B) as [[HT [ND HW]] _]. destruct (HW L) as [t [V W]].
  exists t. split; [eapply view_shows; eauto|]. split; auto. symmetry. eapply view_length; eauto.
Qed.

(** ... and every call allowed by [built] succeeds. *)
Theorem built_progress s ps parent :
  built s ps -> parent_ok ps parent ->
  (forall r, exists s' p, add_record s r parent = Ok (s', p) /\ st_tree s' = st_tree s ++ [Some p]) /\
  (forall d, exists s' p, add_copy s d parent = Ok (s', p) /\ st_tree s' = st_tree s ++ [Some p]) /\
  (forall p, (p < length (st_heap s))%nat -> exists s', add_ptr s p parent = Ok (s', p) /\ st_tree s' = st_tree s ++ [Some p]).
Proof.
  intros B PO. destruct (built_inv _ _ B) as [_ F]. rewrite Forall_forall in F.
  assert (HQ : forall q, parent = Some q -> (q < length (st_heap s))%nat).
  { intros q ->. destruct PO as [|[q' [E Hq]]]; [discriminate|]. inv E. auto. }
  assert (HA : forall d, exists s' p, add_copy s d parent = Ok (s', p) /\ st_tree s' = st_tree s ++ [Some p]).
  { intros d. unfold add_copy, alloc. cbn.
    destruct (add_ptr_ok (mkstate (st_heap s ++ [d]) (st_tree s)) (length (st_heap s)) parent) as [s' [E [_ T]]].
    - cbn. rewrite app_length. cbn. lia.
    - intros q Hq. cbn. rewrite app_length. specialize (HQ q Hq). lia.
    - eauto. }
  split; [|split]; auto.
  - intros r. apply (HA (new_datum r)).
  - intros p Hp. destruct (add_ptr_ok s p parent Hp HQ) as [s' [E [_ T]]]. eauto.
Qed.

(** ** Depth *)
Lemma depth_loop_terminates s fuel p k :
  (0 <= k)%Z -> (Z.to_nat (Z.of_nat (length (st_tree s)) - k) < fuel)%nat ->
  depth_loop fuel s p k <> None.
Proof.
  revert p k. induction fuel as [|f IH]; intros p k Hk H; [lia|]. cbn [depth_loop].
  destruct (p =? kNoParent); [discriminate|].
  destruct (Z.of_nat (length (st_tree s)) <? k + 1) eqn:E; [discriminate|]. apply Z.ltb_ge in E.
  destruct (at_deref s p); try discriminate. apply IH; lia.
Qed.

Lemma depth_fuel_terminates s d : depth_fuel (S (length (st_tree s))) s d <> None.
Proof. apply depth_loop_terminates; lia. Qed.

(** Once it ends, more fuel does not change the answer. *)
Lemma depth_loop_mono s f f' p k o :
  depth_loop f s p k = Some o -> (f <= f')%nat -> depth_loop f' s p k = Some o.
Proof.
  revert f' p k. induction f as [|f IH]; intros f' p k H L; [discriminate|].
  destruct f' as [|f']; [lia|]. cbn [depth_loop] in *.
  destruct (p =? kNoParent); auto. destruct (_ <? _); auto. destruct (at_deref s p); auto.
  apply IH; auto; lia.
Qed.

Lemma shows_length s t : shows s t -> length (st_tree s) = length t.
Proof. induction 1; cbn; auto. Qed.

Lemma shows_nth s t i x : shows s t -> at_pos t i x ->
  exists d, at_deref s i = Ok d /\ x = row_of d.
Proof.
  intros H A. pose proof (at_pos_range _ _ _ A) as AR. destruct A as [A0 A]. unfold at_deref.
  rewrite (shows_length _ _ H).
  replace (i <? 0) with false by (symmetry; apply Z.ltb_ge; lia).
  replace (Z.of_nat (length t) <=? i) with false by (symmetry; apply Z.leb_gt; lia). cbn [orb].
  assert (G : forall (l : list (option ptr)) (t0 : list (row R)) k,
     Forall2 (fun e x => exists p d, e = Some p /\ nth_error (st_heap s) p = Some d /\
             x = (d_record d, d_node_id d, d_parent d, d_daughters d)) l t0 ->
     nth_error t0 k = Some x -> exists p d, nth_error l k = Some (Some p) /\ nth_error (st_heap s) p = Some d /\ x = row_of d).
  { induction l as [|e l IH]; intros t0 k F E; inv F; [destruct k; discriminate|].
    destruct k; cbn in *; eauto. inv E. destruct H2 as [p [d [-> [? ?]]]]. eauto. }
  destruct (G _ _ _ H A) as [p [d [E1 [E2 E3]]]]. rewrite E1, E2. eauto.
Qed.

(** The chain of parents, from [i] to its root. *)
Inductive chain t : Z -> list Z -> Prop :=
| chain_root i x : at_pos t i x -> row_parent x = kNoParent -> chain t i []
| chain_step i j x l : at_pos t i x -> row_parent x = j -> j <> kNoParent -> chain t j l -> chain t i (j :: l).

Lemma chain_at t i l : chain t i l -> exists x, at_pos t i x.
Proof. destruct 1; eauto. Qed.

Lemma chain_exists t : well_formed t -> forall i x, at_pos t i x -> exists l, chain t i l.
Proof.
  intros W i x A. pose proof (at_pos_range _ _ _ A) as AR.
  revert x A. pattern i. apply Zlt_0_ind; [|lia]. clear i AR. intros i IH Hi x A.
  destruct (Z.eq_dec (row_parent x) kNoParent) as [E|E].
  - exists []. econstructor; eauto.
  - destruct (wf_parent _ W _ _ A) as [|P]; [contradiction|].
    assert (exists y, at_pos t (row_parent x) y) as [y Hy].
    { pose proof (at_pos_range _ _ _ A).
      destruct (nth_error t (Z.to_nat (row_parent x))) as [y|] eqn:Ey.
      - exists y. split; [lia|auto].
      - apply nth_error_None in Ey. lia. }
    destruct (IH _ P _ Hy) as [l Hl]. exists (row_parent x :: l). econstructor; eauto.
Qed.

Lemma chain_decreasing t i l : well_formed t -> chain t i l -> Forall (fun j => 0 <= j < i) l.
Proof.
  intros W C. induction C as [|i j x l A P N C IH]; constructor.
  - destruct (wf_parent _ W _ _ A); lia.
  - eapply Forall_impl; [|exact IH]. cbn. intros k Hk. destruct (wf_parent _ W _ _ A); lia.
Qed.

Lemma chain_nodup t i l : well_formed t -> chain t i l -> NoDup l.
Proof.
  intros W C. induction C as [|i j x l A P N C IH]; constructor; auto.
  intros I. apply chain_decreasing in C; auto. rewrite Forall_forall in C. apply C in I. lia.
Qed.

Lemma chain_ancestors t i l : well_formed t -> chain t i l -> forall j, In j l <-> ancestor t j i.
Proof.
  intros W C. induction C as [i x A P|i j x l A P N C IH]; intros k.
  - split; [intros []|]. intros H. unfold ancestor in H. apply clos_trans_t1n in H.
    assert (exists m, parent_of t i m) as [m [x' [y [A' [E [N _]]]]]] by (inv H; eauto).
    rewrite (at_pos_fun _ _ _ _ A A') in P. congruence.
  - destruct (chain_at _ _ _ C) as [y Hy].
    assert (PO : parent_of t i j) by (exists x, y; auto).
    split.
    + intros [<-|I]; [apply t_step; auto|]. apply IH in I. eapply t_trans; [apply t_step; eauto|auto].
    + intros H. unfold ancestor in H. apply clos_trans_t1n in H. 
      assert (HM : forall m, parent_of t i m -> m = j).
      { intros m [x' [y' [A' [E' _]]]]. rewrite (at_pos_fun _ _ _ _ A A') in P. congruence. }
      inv H; [left; symmetry; auto|]. right. apply IH. rewrite (HM _ H0) in H1. apply clos_t1n_trans; auto.
Qed.

Lemma NoDup_bounded (l : list Z) n : NoDup l -> (forall x, In x l -> 0 <= x < n) -> Z.of_nat (length l) <= Z.max 0 n.
Proof.
  intros ND H. destruct (Z_le_gt_dec n 0) as [L|L].
  - destruct l as [|x l]; [cbn; lia|]. specialize (H x (or_introl eq_refl)). lia.
  - assert (I : incl (map Z.to_nat l) (seq 0 (Z.to_nat n))).
    { intros k Hk. apply in_map_iff in Hk. destruct Hk as [z [<- Hz]]. apply in_seq. apply H in Hz. lia. }
    apply NoDup_incl_length in I.
    + rewrite map_length, seq_length in I. lia.
    + clear I. assert (HP : forall x, In x l -> 0 <= x) by (intros; apply H; auto). clear H.
      induction ND as [|x l NI ND IH]; cbn; constructor.
      * intros K. apply in_map_iff in K. destruct K as [z [Ez Hz]].
        assert (z = x); [|congruence].
        pose proof (HP z (or_intror Hz)). pose proof (HP x (or_introl eq_refl)). lia.
      * apply IH. intros; apply HP; right; auto.
Qed.

Lemma depth_chain s t : shows s t -> well_formed t ->
  forall l i k x, chain t i l -> at_pos t i x ->
  0 <= k -> k + Z.of_nat (length l) <= Z.of_nat (length t) ->
  depth_loop (S (length l)) s (row_parent x) k = Some (Ok (k + Z.of_nat (length l))).
Proof.
  intros SH W. induction l as [|j l IH]; intros i k x C A Hk HL.
  - inv C. rewrite (at_pos_fun _ _ _ _ A H). cbn. rewrite H0. unfold kNoParent. cbn. f_equal. f_equal. lia.
  - inv C. rewrite (at_pos_fun _ _ _ _ A H1) in *. remember (row_parent x0) as j.
    destruct (chain_at _ _ _ H5) as [y Hy]. destruct (shows_nth _ _ _ _ SH Hy) as [d [Ed ->]].
    cbn [length]. remember (S (length l)) as fu. cbn [depth_loop]. subst fu. rewrite (proj2 (Z.eqb_neq j kNoParent)); auto.
    rewrite (shows_length _ _ SH). cbn [length] in HL.
    replace (Z.of_nat (length t) <? k + 1) with false by (symmetry; apply Z.ltb_ge; lia).
    rewrite Ed. specialize (IH j (k + 1) (row_of d) H5 Hy). change (row_parent (row_of d)) with (d_parent d) in IH.
    rewrite IH by lia. f_equal. f_equal. lia.
Qed.

Theorem depth_counts_ancestors s t : shows s t -> well_formed t ->
  forall i, 0 <= i < Z.of_nat (length t) ->
  exists l, NoDup l /\ (forall j, In j l <-> ancestor t j i) /\
    tree_depth (S (length (st_tree s))) s i = Some (Ok (Z.of_nat (length l))).
Proof.
  intros SH W i Hi.
  assert (exists x, at_pos t i x) as [x A].
  { destruct (nth_error t (Z.to_nat i)) as [y|] eqn:Ey.
    - exists y. split; [lia|auto].
    - apply nth_error_None in Ey. lia. }
  destruct (chain_exists _ W _ _ A) as [l C]. exists l.
  pose proof (chain_nodup _ _ _ W C) as ND.
  split; auto. split; [apply chain_ancestors; auto|].
  destruct (shows_nth _ _ _ _ SH A) as [d [Ed Ex]]. unfold tree_depth. rewrite Ed. unfold depth_fuel.
  pose proof (chain_decreasing _ _ _ W C) as CD. rewrite Forall_forall in CD.
  pose proof (NoDup_bounded l i ND CD) as LB.
  assert (LL : (length l <= length t)%nat) by lia.
  pose proof (depth_chain s t SH W l i 0 x C A ltac:(lia) ltac:(lia)) as D.
  subst x. cbn [row_parent row_of] in D. rewrite Z.add_0_l in D.
  eapply depth_loop_mono; [exact D|]. rewrite (shows_length _ _ SH). lia.
Qed.

(** ** Save and load *)
Lemma validate_from_ok s n l i :
  (forall k e, nth_error l k = Some e -> validate_one s n (i + Z.of_nat k) e = Ok tt) ->
  validate_from s n i l = Ok tt.
Proof.
  revert i. induction l as [|e l IH]; intros i H; cbn; auto.
  pose proof (H O e eq_refl) as H0. cbn [Z.of_nat] in H0. rewrite Z.add_0_r in H0. rewrite H0. apply IH.
  intros k e' Hk. specialize (H (S k) e' Hk). rewrite <- H. f_equal. lia.
Qed.

Lemma validate_from_inv s n l i :
  validate_from s n i l = Ok tt ->
  forall k e, nth_error l k = Some e -> validate_one s n (i + Z.of_nat k) e = Ok tt.
Proof.
  revert i. induction l as [|e l IH]; intros i H k e' Hk; [destruct k; discriminate|].
  cbn in H. destruct (validate_one s n i e) as [[]| |] eqn:E; try discriminate.
  destruct k as [|k]; cbn in Hk.
  - inv Hk. rewrite Z.add_0_r. auto.
  - specialize (IH _ H k e' Hk). rewrite <- IH. f_equal. lia.
Qed.

Lemma shows_entry s t k : shows s t -> (k < length t)%nat ->
  exists p d, nth_error (st_tree s) k = Some (Some p) /\ nth_error (st_heap s) p = Some d /\
    nth_error t k = Some (row_of d).
Proof.
  unfold shows. intros H. revert k. induction H as [|e x l t [p [d [-> [E ->]]]] F IH]; intros k L; cbn in L; [lia|].
  destruct k as [|k]; cbn; [exists p, d; auto|apply IH; lia].
Qed.

Lemma validate_ok s t : shows s t -> well_formed t -> Z.of_nat (length t) <= kNoParent ->
  validate_indices s = Ok tt.
Proof.
  intros SH W L. unfold validate_indices. rewrite (shows_length _ _ SH).
  rewrite to_u32_small by (unfold kNoParent in L; lia). rewrite Nat2Z.id.
  rewrite <- (shows_length _ _ SH), firstn_all. apply validate_from_ok. intros k e Hk.
  assert (Kl : (k < length t)%nat) by (rewrite <- (shows_length _ _ SH); apply nth_error_Some; congruence).
  destruct (shows_entry _ _ _ SH Kl) as [p [d [E1 [E2 E3]]]]. rewrite E1 in Hk. inv Hk.
  rewrite (shows_length _ _ SH). cbn [validate_one]. rewrite E2.
  assert (A : at_pos t (Z.of_nat k) (row_of d)) by (split; [lia|rewrite Nat2Z.id; auto]).
  pose proof (wf_id _ W _ _ A) as HI. cbn in HI. rewrite Z.add_0_l, HI, Z.eqb_refl. cbn [negb].
  assert (LK : forall j, 0 <= j < Z.of_nat (length t) -> link_ok s (Z.of_nat (length t)) j = true).
  { intros j Hj. unfold link_ok. apply andb_true_intro. split; [apply Z.ltb_lt; lia|].
    destruct (shows_entry s t (Z.to_nat j) SH) as [p' [d' [E' _]]]; [lia|]. rewrite E'. auto. }
  destruct (d_parent d =? kNoParent) eqn:EP; cbn [negb andb].
  - replace (forallb _ _) with true; auto. symmetry. apply forallb_forall. intros j Hj.
    apply LK. pose proof (wf_daughters _ W _ _ j A Hj). lia.
  - destruct (wf_parent _ W _ _ A) as [HP|HP]; cbn in HP; [apply Z.eqb_neq in EP; contradiction|].
    rewrite LK by lia. cbn. replace (forallb _ _) with true; auto. symmetry. apply forallb_forall. intros j Hj.
    apply LK. pose proof (wf_daughters _ W _ _ j A Hj). lia.
Qed.

(** General round trip of the pointer vector. *)
Definition erase (d : datum R) : datum R :=
  mkdatum (d_record d) (d_node_id d) (d_parent d) (d_daughters d) None [].

(** The tables of writer and reader correspond. *)
Definition tables (h h' : heap R) (m : list (ptr * Z)) (m' : list (Z * ptr)) (next : Z) : Prop :=
  (forall p i, find_id m p = Some i -> i < next /\
     exists q d, find_ptr m' i = Some q /\ nth_error h p = Some d /\ nth_error h' q = Some (erase d)) /\
  (forall i q, find_ptr m' i = Some q -> i < next).

Lemma load_grows l : forall (h : heap R) m h' (t0 : list (option ptr)), load_ptrs h m l = Ok (h', t0) ->
  exists x, h' = h ++ x.
Proof.
  induction l as [|[| i r nid par ds | i] l IH]; intros h m h' t0 H; cbn in H.
  - inv H. exists []. rewrite app_nil_r; auto.
  - destruct (load_ptrs h m l) as [[h1 t1]| |] eqn:E; inv H. eauto.
  - destruct (load_ptrs _ _ l) as [[h1 t1]| |] eqn:E; inv H. destruct (IH _ _ _ _ E) as [x ->].
    rewrite <- app_assoc. eauto.
  - destruct (find_ptr m i); [|discriminate].
    destruct (load_ptrs h m l) as [[h1 t1]| |] eqn:E; inv H. eauto.
Qed.

Lemma save_load_ptrs (h : heap R) : forall (l : list (option ptr)) m next (h' : heap R) m',
  Forall (fun e => match e with Some p => (p < length h)%nat | None => True end) l ->
  tables h h' m m' next ->
  exists toks, save_ptrs h m next l = Ok toks /\
  exists h2 (t2 : list (option ptr)), load_ptrs h' m' toks = Ok (h2, t2) /\
    Forall2 (fun e e2 => match e, e2 with
       | None, None => True
       | Some p, Some q => exists d, nth_error h p = Some d /\ nth_error h2 q = Some (erase d)
       | _, _ => False end) l t2.
Proof.
  induction l as [|[p|] l IH]; intros m next h' m' F T.
  - exists []. split; auto. exists h', []. split; auto.
  - inv F. cbn [save_ptrs]. destruct (find_id m p) as [i|] eqn:Ei.
    + destruct (IH m next h' m' H2 T) as [toks [E [h2 [t2 [E2 F2]]]]]. rewrite E.
      exists (TRef i :: toks). split; auto. destruct T as [T1 T2].
      destruct (T1 _ _ Ei) as [_ [q [d [Eq [Ed Ee]]]]]. cbn. rewrite Eq, E2.
      exists h2, (Some q :: t2). split; auto. constructor; auto. exists d. split; auto.
      destruct (load_grows _ _ _ _ _ E2) as [x ->]. rewrite nth_error_app1; auto. apply nth_error_Some; congruence.
    + destruct (nth_error h p) as [d|] eqn:Ed; [|apply nth_error_None in Ed; lia].
      set (h1 := h' ++ [erase d]).
      assert (T' : tables h h1 ((p, next) :: m) ((next, length h') :: m') (next + 1)).
      { destruct T as [T1 T2]. split.
        - intros p0 i0 H0. cbn in H0. destruct (Nat.eqb p0 p) eqn:Ep.
          + apply Nat.eqb_eq in Ep. subst p0. inv H0. split; [lia|]. exists (length h'), d. cbn. rewrite Z.eqb_refl.
            split; [auto|]. split; [exact Ed|]. unfold h1. rewrite nth_error_app2, Nat.sub_diag by lia. auto.
          + destruct (T1 _ _ H0) as [L [q [d0 [A [B C]]]]]. split; [lia|]. exists q, d0. cbn.
            replace (i0 =? next) with false by (symmetry; apply Z.eqb_neq; lia). split; [auto|]. split; [auto|].
            unfold h1. rewrite nth_error_app1; auto. apply nth_error_Some; congruence.
        - intros i q H0. cbn in H0. destruct (i =? next) eqn:E; [lia|]. apply T2 in H0. lia. }
      destruct (IH _ _ h1 _ H2 T') as [toks [E [h2 [t2 [E2 F2]]]]]. rewrite E.
      eexists. split; [reflexivity|]. cbn [load_ptrs].
      change (mkdatum (d_record d) (d_node_id d) (d_parent d) (d_daughters d) None []) with (erase d).
      fold h1. rewrite E2. exists h2, (Some (length h') :: t2). split; auto. constructor; auto.
      exists d. split; auto. destruct (load_grows _ _ _ _ _ E2) as [x ->].
      rewrite nth_error_app1 by (unfold h1; rewrite app_length; cbn; lia).
      unfold h1. rewrite nth_error_app2, Nat.sub_diag by lia. auto.
  - inv F. destruct (IH m next h' m' H2 T) as [toks [E [h2 [t2 [E2 F2]]]]].
    exists (TNull :: toks). cbn. rewrite E. split; auto. rewrite E2. exists h2, (None :: t2). split; auto.
Qed.

Lemma shows_from_forall2 s t h2 (t2 : list (option ptr)) : shows s t ->
  Forall2 (fun e e2 => match e, e2 with
       | None, None => True
       | Some p, Some q => exists d, nth_error (st_heap s) p = Some d /\ nth_error h2 q = Some (erase d)
       | _, _ => False end) (st_tree s) t2 ->
  shows (mkstate h2 t2) t.
Proof.
  unfold shows. cbn. generalize (st_tree s) as l. intros l H. revert t2.
  induction H as [|e x l t [p [d [-> [E ->]]]] F IH]; intros t2 F2; inv F2; constructor; auto.
  destruct y as [q|]; [|contradiction]. destruct H1 as [d0 [E0 E1]]. rewrite E in E0. inv E0.
  exists q, (erase d0). auto.
Qed.

Lemma shows_eqb (reqb : R -> R -> bool) : (forall r, reqb r r = true) ->
  forall s1 s2 t, shows s1 t -> shows s2 t -> tree_eqb reqb s1 s2 = Ok true.
Proof.
  intros HR s1 s2 t H1 H2. unfold tree_eqb.
  rewrite (shows_length _ _ H1), (shows_length _ _ H2), Nat.eqb_refl. cbn. unfold shows in *.
  revert H1 H2. generalize (st_tree s1) as l1, (st_tree s2) as l2. intros l1 l2 H1. revert l2.
  induction H1 as [|e x l t [p [d [-> [E ->]]]] F IH]; intros l2 F2; inversion F2 as [|e2 x2 l2' t2 HH F2']; subst; auto.
  destruct HH as [p2 [d2 [-> [E2 E3]]]]. cbn. rewrite E, E2. injection E3 as G1 G2 G3 G4.
  unfold datum_eqb. rewrite G1, G2, G3, G4, !Z.eqb_refl, HR. cbn.
  destruct (list_eq_dec Z.eq_dec (d_daughters d2) (d_daughters d2)); [|contradiction]. cbn. auto.
Qed.

Theorem round_trip s ps (reqb : R -> R -> bool) : (forall r, reqb r r = true) ->
  built s ps -> Z.of_nat (length ps) <= kNoParent ->
  exists toks s', save_tree s = Ok toks /\ load_tree toks = Ok s' /\
    tree_eqb reqb s s' = Ok true /\
    forall t, shows s t -> shows s' t.
Proof.
  intros HR B L. destruct (built_well_formed _ _ B L) as [t [SH [W TL]]].
  destruct (built_inv _ _ B) as [[HT _] F].
  destruct (save_load_ptrs (st_heap s) (st_tree s) [] 1 [] []) as [toks [E [h2 [t2 [E2 F2]]]]].
  { rewrite HT. apply Forall_map. auto. }
  { split; [intros p i H; discriminate|intros i q H; discriminate]. }
  exists toks, (mkstate h2 t2). unfold save_tree, load_tree. rewrite E, E2.
  assert (SH2 : forall t, shows s t -> shows (mkstate h2 t2) t) by (intros; eapply shows_from_forall2; eauto).
  rewrite (validate_ok (mkstate h2 t2) t); auto; [|lia]. repeat split; auto.
  eapply shows_eqb; eauto.
Qed.

(** Whatever is loaded, accepted links stay inside. *)
Theorem load_in_range toks s :
  (forall i r nid par ds, In (TNew i r nid par ds) toks -> 0 <= par < 4294967296 /\ Forall (fun j => 0 <= j < 4294967296) ds) ->
  Z.of_nat (length toks) <= kNoParent -> load_tree (R:=R) toks = Ok s ->
  exists t, shows s t /\ length t = length toks /\
  forall i x, at_pos t i x -> row_id x = i /\
    (row_parent x = kNoParent \/ 0 <= row_parent x < Z.of_nat (length t)) /\
    Forall (fun j => 0 <= j < Z.of_nat (length t)) (row_daughters x).
Proof.
  intros U L H. unfold load_tree in H. destruct (load_ptrs [] [] toks) as [[h t]| |] eqn:E; try discriminate.
  destruct (validate_indices (mkstate h t)) as [[]| |] eqn:V; inv H.
  (* all loaded data have uint32 fields; the vector is as long as the token list *)
  assert (G : forall l (h0 : heap R) m h1 (t1 : list (option ptr)), load_ptrs h0 m l = Ok (h1, t1) ->
     (forall i r nid par ds, In (TNew i r nid par ds) l -> 0 <= par < 4294967296 /\ Forall (fun j => 0 <= j < 4294967296) ds) ->
     Forall (fun d => 0 <= d_parent d < 4294967296 /\ Forall (fun j => 0 <= j < 4294967296) (d_daughters d)) h0 ->
     Forall (fun d => 0 <= d_parent d < 4294967296 /\ Forall (fun j => 0 <= j < 4294967296) (d_daughters d)) h1 /\ length t1 = length l).
  { clear. induction l as [|[| i r nid par ds | i] l IH]; intros h m h' t H U F; cbn in H.
    - inv H. auto.
    - destruct (load_ptrs h m l) as [[h1 t1]| |] eqn:E; inv H. cbn. destruct (IH _ _ _ _ E); auto.
      intros; eapply U; right; eauto.
    - destruct (load_ptrs _ _ l) as [[h1 t1]| |] eqn:E; inv H. cbn. destruct (IH _ _ _ _ E); auto.
      + intros; eapply U; right; eauto.
      + apply Forall_app. split; auto. constructor; auto. cbn. eapply U; left; eauto.
    - destruct (find_ptr m i); [|discriminate]. destruct (load_ptrs h m l) as [[h1 t1]| |] eqn:E; inv H.
      cbn. destruct (IH _ _ _ _ E); auto. intros; eapply U; right; eauto. }
  destruct (G _ _ _ _ _ E U (Forall_nil _)) as [FH LT].
  unfold validate_indices in V. cbn [st_tree] in V.
  rewrite to_u32_small in V by (unfold kNoParent in L; lia). rewrite Nat2Z.id, firstn_all in V.
  assert (HV := validate_from_inv _ _ _ _ V).
  assert (HD : forall k e, nth_error t k = Some e -> exists p d, e = Some p /\ nth_error h p = Some d /\
            d_node_id d = Z.of_nat k /\ (d_parent d = kNoParent \/ link_ok (mkstate h t) (Z.of_nat (length t)) (d_parent d) = true)
            /\ forallb (link_ok (mkstate h t) (Z.of_nat (length t))) (d_daughters d) = true).
  { intros k e Hk. specialize (HV _ _ Hk). unfold validate_one in HV. cbn [st_heap] in HV.
    destruct e as [p|]; [|discriminate]. destruct (nth_error h p) as [d|] eqn:Ed; [|discriminate].
    exists p, d. split; auto. split; auto. destruct (d_node_id d =? 0 + Z.of_nat k) eqn:E1; [|discriminate].
    apply Z.eqb_eq in E1. split; [lia|]. cbn [negb] in HV.
    destruct (d_parent d =? kNoParent) eqn:E2; cbn [negb andb] in HV.
    - apply Z.eqb_eq in E2. split; auto. destruct (forallb _ _); [auto|discriminate].
    - destruct (link_ok _ _ (d_parent d)) eqn:E3; cbn in HV; [|discriminate]. split; auto.
      destruct (forallb _ _); [auto|discriminate]. }
  assert (exists tr, shows (mkstate h t) tr) as [tr SH].
  { assert (HA : forall l : list (option ptr), (forall e, In e l -> exists p d, e = Some p /\ nth_error h p = Some d) ->
       exists tr : list (row R), Forall2 (fun e x => exists p d, e = Some p /\ nth_error h p = Some d /\
             x = (d_record d, d_node_id d, d_parent d, d_daughters d)) l tr).
    { induction l as [|e l IH]; intros Hl; [exists []; constructor|].
      destruct IH as [tr Htr]; [intros; apply Hl; right; auto|].
      destruct (Hl e (or_introl eq_refl)) as [p [d [-> Ed]]]. exists (row_of d :: tr). constructor; auto.
      exists p, d. auto. }
    apply HA. intros e He. destruct (In_nth_error _ _ He) as [k Hk]. destruct (HD _ _ Hk) as [p [d [? [? _]]]]. eauto. }
  pose proof (shows_length _ _ SH) as SL. cbn in SL.
  exists tr. split; auto. split; [lia|]. intros i x A.
  pose proof (at_pos_range _ _ _ A) as AR. destruct A as [A0 A].
  destruct (shows_entry _ _ (Z.to_nat i) SH) as [p [d [E1 [E2 E3]]]]; [lia|]. cbn in E1, E2.
  rewrite A in E3. inv E3. destruct (HD _ _ E1) as [p' [d' [Ep [Ed' [HI [HP HDD]]]]]]. inv Ep. rewrite E2 in Ed'. inv Ed'.
  cbn. rewrite Forall_forall in FH. pose proof (FH _ (nth_error_In _ _ E2)) as [RP RD].
  assert (LK : forall j, 0 <= j -> link_ok (mkstate h t) (Z.of_nat (length t)) j = true -> 0 <= j < Z.of_nat (length tr)).
  { intros j Hj HL. apply andb_prop in HL. destruct HL as [HL _]. lia. }
  split; [lia|]. split.
  - destruct HP as [|HP]; auto. right. apply LK; [lia|auto].
  - apply Forall_forall. intros j Hj. rewrite Forall_forall in RD. rewrite forallb_forall in HDD. apply LK; auto.
    specialize (RD _ Hj). lia.
Qed.

(** Validation rejects shared data. *)
Lemma validate_nodup s : Z.of_nat (length (st_tree s)) <= kNoParent -> validate_indices s = Ok tt -> NoDup (st_tree s).
Proof.
  intros L V. unfold validate_indices in V. rewrite to_u32_small in V by (unfold kNoParent in L; lia).
  rewrite Nat2Z.id, firstn_all in V. pose proof (validate_from_inv _ _ _ _ V) as HV.
  assert (HN : forall k e, nth_error (st_tree s) k = Some e -> exists p d, e = Some p /\ nth_error (st_heap s) p = Some d /\ d_node_id d = Z.of_nat k).
  { intros k e Hk. specialize (HV _ _ Hk). unfold validate_one in HV. destruct e as [p|]; [|discriminate].
    destruct (nth_error (st_heap s) p) as [d|] eqn:Ed; [|discriminate]. exists p, d. split; auto. split; auto.
    destruct (d_node_id d =? 0 + Z.of_nat k) eqn:E; [lia|discriminate]. }
  apply NoDup_nth_error. intros i j Hi E.
  destruct (nth_error (st_tree s) i) as [e|] eqn:Ei; [|apply nth_error_None in Ei; lia].
  destruct (HN _ _ Ei) as [p [d [-> [Ed Id]]]]. symmetry in E. destruct (HN _ _ E) as [p' [d' [Ep [Ed' Id']]]].
  inv Ep. rewrite Ed in Ed'. inv Ed'. lia.
Qed.

Lemma legacy_shared_rejected s : Z.of_nat (length (st_tree s)) <= kNoParent ->
  ~ NoDup (st_tree s) -> forall s', rebuild_legacy s <> Ok s'.
Proof.
  intros L ND s' H. unfold rebuild_legacy in H. destruct (rebuild_from _ _ _ _); try discriminate.
  destruct (validate_indices _) as [[]| |] eqn:V; try discriminate. apply validate_nodup in V; auto.
Qed.

Lemma load_nodup (toks : list (token R)) s : Z.of_nat (length (st_tree s)) <= kNoParent ->
  load_tree toks = Ok s -> NoDup (st_tree s).
Proof.
  intros L H. unfold load_tree in H. destruct (load_ptrs _ _ _) as [[h t]| |]; try discriminate.
  destruct (validate_indices _) as [[]| |] eqn:V; inv H. apply validate_nodup; auto.
Qed.

(** ** Legacy archives *)
Lemma index_of_nth (ps : list ptr) : NoDup ps -> forall i q,
  0 <= i -> i + Z.of_nat (length ps) <= kNoParent ->
  match index_of (map Some ps) i (Some q) with
  | Some j => i <= j /\ nth_error ps (Z.to_nat (j - i)) = Some q
  | None => ~ In q ps
  end.
Proof.
  induction 1 as [|p ps NI ND IH]; intros i q Hi HL; cbn [map index_of]; [intros []|].
  cbn [length] in HL. specialize (IH (i + 1) q ltac:(lia) ltac:(lia)).
  destruct (index_of (map Some ps) (i + 1) (Some q)) as [j|].
  - destruct IH as [L E]. split; [lia|].
    replace (Z.to_nat (j - i)) with (S (Z.to_nat (j - (i + 1)))) by lia. auto.
  - destruct (Nat.eqb p q) eqn:E.
    + apply Nat.eqb_eq in E. subst. rewrite to_u32_small by (unfold kNoParent in HL; lia). split; [lia|].
      rewrite Z.sub_diag. auto.
    + apply Nat.eqb_neq in E. intros [|]; auto.
Qed.

Lemma index_of_in ps q : NoDup ps -> Z.of_nat (length ps) <= kNoParent -> In q ps ->
  exists j, index_of (map Some ps) 0 (Some q) = Some j /\ 0 <= j < Z.of_nat (length ps) /\ nth_error ps (Z.to_nat j) = Some q.
Proof.
  intros ND L I. pose proof (index_of_nth ps ND 0 q ltac:(lia) ltac:(lia)) as H.
  destruct (index_of (map Some ps) 0 (Some q)) as [j|]; [|contradiction].
  destruct H as [H1 H2]. rewrite Z.sub_0_r in H2. exists j. split; auto. split; auto.
  assert (Z.to_nat j < length ps)%nat by (apply nth_error_Some; congruence). lia.
Qed.

Definition legacy_row (l : list (option ptr)) (i : Z) (d : datum R) : datum R :=
  set_ids d (to_u32 i)
    match d_legacy_parent d with
    | None => kNoParent
    | Some q => match index_of l 0 (Some q) with Some j => j | None => kNoParent end
    end (positions l (d_legacy_daughters d)).

Lemma rebuild_from_ok l : forall todo h i, NoDup todo -> Forall (fun p => (p < length h)%nat) todo ->
  exists h', rebuild_from l h i (map Some todo) = Ok h' /\ length h' = length h /\
  (forall p, ~ In p todo -> nth_error h' p = nth_error h p) /\
  (forall k p d, nth_error todo k = Some p -> nth_error h p = Some d ->
     nth_error h' p = Some (legacy_row l (i + Z.of_nat k) d)).
Proof.
  induction todo as [|p todo IH]; intros h i ND F.
  - exists h. cbn. repeat split; auto. intros [|k]; discriminate.
  - inv ND. inv F. cbn [map rebuild_from].
    destruct (nth_error h p) as [d|] eqn:Ed; [|apply nth_error_None in Ed; lia].
    fold (legacy_row l i d).
    destruct (IH (heap_set h p (legacy_row l i d)) (i + 1)) as [h' [E [HL [HO HS]]]]; auto.
    { eapply Forall_impl; [|exact H4]. cbn. intros. rewrite heap_set_length. auto. }
    exists h'. split; auto. split; [rewrite HL, heap_set_length; auto|]. split.
    + intros q NI. rewrite HO by (intros I; apply NI; right; auto). apply heap_set_other.
      intros ->. apply NI; left; auto.
    + intros [|k] q dq Ek Eq; cbn in Ek.
      * inv Ek. rewrite Ed in Eq. inv Eq. rewrite HO; auto. rewrite heap_set_same by auto.
        rewrite Z.add_0_r. auto.
      * rewrite (HS k q dq); auto.
        -- f_equal. f_equal. lia.
        -- rewrite heap_set_other; auto. intros ->. apply nth_error_In in Ek. contradiction.
Qed.

Lemma clear_legacy_ok : forall (todo : list nat) h, NoDup todo ->
  length (clear_legacy h (map Some todo)) = length h /\
  forall p d, nth_error h p = Some d ->
    nth_error (clear_legacy h (map Some todo)) p = Some (if in_dec Nat.eq_dec p todo then erase d else d).
Proof.
  induction todo as [|q todo IH]; intros h ND; cbn [map clear_legacy].
  - split; auto.
  - inv ND. destruct (nth_error h q) as [dq|] eqn:Eq.
    + fold (erase dq). destruct (IH (heap_set h q (erase dq)) H2) as [HL HN].
      split; [rewrite HL, heap_set_length; auto|]. intros p d Ep.
      destruct (Nat.eq_dec q p) as [->|N].
      * rewrite Ep in Eq. inv Eq. rewrite (HN p (erase dq)).
        2:{ apply heap_set_same. apply nth_error_Some; congruence. }
        destruct (in_dec Nat.eq_dec p todo); [contradiction|].
        destruct (in_dec Nat.eq_dec p (p :: todo)) as [|N]; auto. exfalso; apply N; left; auto.
      * rewrite (HN p d) by (rewrite heap_set_other; auto).
        destruct (in_dec Nat.eq_dec p todo) as [I|I], (in_dec Nat.eq_dec p (q :: todo)) as [J|J]; auto.
        -- exfalso. apply J; right; auto.
        -- exfalso. destruct J; auto.
    + destruct (IH h H2) as [HL HN]. split; auto. intros p d Ep. rewrite (HN p d) by auto.
      destruct (in_dec Nat.eq_dec p todo) as [I|I], (in_dec Nat.eq_dec p (q :: todo)) as [J|J]; auto.
      * exfalso. apply J; right; auto.
      * exfalso. destruct J; [subst; congruence|auto].
Qed.

Lemma positions_ok ps ds : NoDup ps -> Z.of_nat (length ps) <= kNoParent ->
  Forall (fun e => exists q, e = Some q /\ In q ps) ds ->
  Forall2 (fun e j => 0 <= j < Z.of_nat (length ps) /\ nth_error ps (Z.to_nat j) = e) ds (positions (map Some ps) ds).
Proof.
  intros ND L F. induction F as [|e ds [q [-> I]] F IH]; cbn; [constructor|].
  destruct (index_of_in ps q ND L I) as [j [E [B N]]]. rewrite E. constructor; auto.
Qed.

Theorem legacy_topology s ps :
  st_tree s = map Some ps -> NoDup ps -> Z.of_nat (length ps) <= kNoParent ->
  (forall p, In p ps -> exists d, nth_error (st_heap s) p = Some d /\
     (forall q, d_legacy_parent d = Some q -> In q ps) /\
     Forall (fun e => exists q, e = Some q /\ In q ps) (d_legacy_daughters d)) ->
  exists s', rebuild_legacy s = Ok s' /\ st_tree s' = st_tree s /\
  forall k p d, nth_error ps k = Some p -> nth_error (st_heap s) p = Some d ->
  exists d', nth_error (st_heap s') p = Some d' /\
    d_record d' = d_record d /\ d_node_id d' = Z.of_nat k /\
    (d_legacy_parent d = None -> d_parent d' = kNoParent) /\
    (forall q, d_legacy_parent d = Some q ->
       0 <= d_parent d' < Z.of_nat (length ps) /\ nth_error ps (Z.to_nat (d_parent d')) = Some q) /\
    Forall2 (fun e j => 0 <= j < Z.of_nat (length ps) /\ nth_error ps (Z.to_nat j) = e)
      (d_legacy_daughters d) (d_daughters d') /\
    d_legacy_parent d' = None /\ d_legacy_daughters d' = [].
Proof.
  intros HT ND L HP.
  assert (F : Forall (fun p => (p < length (st_heap s))%nat) ps).
  { apply Forall_forall. intros p Hp. destruct (HP p Hp) as [d [E _]]. apply nth_error_Some; congruence. }
  destruct (rebuild_from_ok (map Some ps) ps (st_heap s) 0 ND F) as [h' [E [HL [HO HS]]]].
  unfold rebuild_legacy. rewrite HT, E.
  destruct (clear_legacy_ok ps h' ND) as [CL CN].
  set (h2 := clear_legacy h' (map Some ps)) in *.
  assert (HF : forall k p d, nth_error ps k = Some p -> nth_error (st_heap s) p = Some d ->
     nth_error h2 p = Some (erase (legacy_row (map Some ps) (Z.of_nat k) d))).
  { intros k p d Ek Ed. rewrite (CN p (legacy_row (map Some ps) (Z.of_nat k) d)).
    - destruct (in_dec Nat.eq_dec p ps) as [|N]; auto. exfalso. apply N. eapply nth_error_In; eauto.
    - rewrite (HS k p d Ek Ed). auto. }
  assert (KL : forall k p, nth_error ps k = Some p -> (k < length ps)%nat) by (intros; apply nth_error_Some; congruence).
  assert (VAL : validate_indices (mkstate h2 (map Some ps)) = Ok tt).
  { unfold validate_indices. cbn [st_tree]. rewrite map_length, to_u32_small by (unfold kNoParent in L; lia).
    rewrite Nat2Z.id. rewrite <- (map_length Some ps), firstn_all, map_length.
    apply validate_from_ok. intros k e Hk. rewrite nth_error_map in Hk.
    destruct (nth_error ps k) as [p|] eqn:Ek; [|discriminate]. cbn in Hk. inv Hk.
    destruct (HP p (nth_error_In _ _ Ek)) as [d [Ed [HPar HDau]]].
    unfold validate_one. cbn [st_heap]. rewrite (HF k p d Ek Ed). cbn [erase legacy_row set_ids d_node_id d_parent d_daughters].
    pose proof (KL _ _ Ek).
    rewrite to_u32_small by (unfold kNoParent in L; lia). rewrite Z.add_0_l, Z.eqb_refl. cbn [negb].
    assert (LK : forall j, 0 <= j < Z.of_nat (length ps) -> link_ok (mkstate h2 (map Some ps)) (Z.of_nat (length ps)) j = true).
    { intros j Hj. unfold link_ok. apply andb_true_intro. split; [apply Z.ltb_lt; lia|]. cbn [st_tree].
      rewrite nth_error_map. destruct (nth_error ps (Z.to_nat j)) eqn:Ej; auto. apply nth_error_None in Ej. lia. }
    assert (FB : forallb (link_ok (mkstate h2 (map Some ps)) (Z.of_nat (length ps))) (positions (map Some ps) (d_legacy_daughters d)) = true).
    { pose proof (positions_ok ps _ ND L HDau) as PF. clear - PF LK. induction PF; cbn; auto.
      rewrite LK; auto. tauto. }
    rewrite FB. destruct (d_legacy_parent d) as [q|] eqn:Eq; cbn [negb andb].
    - destruct (index_of_in ps q ND L (HPar q eq_refl)) as [j [Ej [Bj _]]]. rewrite Ej, (LK j Bj). cbn.
      rewrite andb_false_r. auto.
    - rewrite Z.eqb_refl. auto. }
  rewrite VAL. eexists. split; [reflexivity|]. split; [auto|]. cbn [st_heap].
  intros k p d Ek Ed. destruct (HP p (nth_error_In _ _ Ek)) as [d0 [Ed0 [HPar HDau]]]. rewrite Ed in Ed0. inv Ed0.
  pose proof (KL _ _ Ek).
  eexists. split; [apply HF; eauto|]. cbn [erase legacy_row set_ids d_record d_node_id d_parent d_daughters d_legacy_parent d_legacy_daughters].
  rewrite to_u32_small by (unfold kNoParent in L; lia).
  repeat split; auto.
  - intros ->. auto.
  - rewrite H0. destruct (index_of_in ps q ND L (HPar q H0)) as [j [Ej [Bj Nj]]]. rewrite Ej. lia.
  - rewrite H0. destruct (index_of_in ps q ND L (HPar q H0)) as [j [Ej [Bj Nj]]]. rewrite Ej. lia.
  - rewrite H0. destruct (index_of_in ps q ND L (HPar q H0)) as [j [Ej [Bj Nj]]]. rewrite Ej. auto.
  - apply positions_ok; auto.
Qed.

End P.

(** ** Witnesses *)

(** Adding the same shared pointer twice. *)
Lemma same_datum_twice : exists (s1 s2 : state nat) p,
  built s1 [p] /\ add_ptr s1 p None = Ok (s2, p) /\
  forall t, shows s2 t -> ~ well_formed t.
Proof.
  set (s0 := mkstate [new_datum 7%nat] []).
  exists (mkstate [mkdatum 7%nat 0 kNoParent [] None []] [Some 0%nat]),
         (mkstate [mkdatum 7%nat 1 kNoParent [] None []] [Some 0%nat; Some 0%nat]), 0%nat.
  split; [|split].
  - change [0%nat] with ([] ++ [0%nat]). apply built_ptr with (s := s0) (parent := None) (p0 := 0%nat).
    + constructor.
    + left; auto.
    + intros [].
    + cbn. lia.
    + reflexivity.
  - reflexivity.
  - intros t SH W. unfold shows in SH. cbn in SH. inv SH. destruct H1 as [p [d [E1 [E2 E3]]]]. inv E1. cbn in E2. inv E2.
    pose proof (wf_id _ W 0 _ (conj (Z.le_refl 0) eq_refl)) as H. cbn in H. lia.
Qed.

(** A parent taken from another tree. *)
Lemma foreign_parent : exists (s1 s2 : state nat) q p,
  built s1 [] /\ nth_error (st_heap s1) q <> None /\ add_record s1 9%nat (Some q) = Ok (s2, p) /\
  forall t, shows s2 t -> ~ well_formed t.
Proof.
  exists (mkstate [mkdatum 7%nat 0 kNoParent [] None []] []),
         (mkstate [mkdatum 7%nat 0 kNoParent [0] None []; mkdatum 9%nat 0 0 [] None []] [Some 1%nat]), 0%nat, 1%nat.
  split; [constructor|]. split; [discriminate|]. split; [reflexivity|].
  intros t SH W. unfold shows in SH. cbn in SH. inv SH. inv H3. destruct H1 as [p [d [E1 [E2 E3]]]]. inv E1. cbn in E2. inv E2.
  pose proof (wf_parent _ W 0 _ (conj (Z.le_refl 0) eq_refl)) as H. cbn in H. unfold kNoParent in H. lia.
Qed.

(** Loading accepts a cyclic tree. *)
Lemma cyclic_accepted : exists (toks : list (token nat)) s t,
  load_tree toks = Ok s /\ shows s t /\ ancestor t 0 0 /\
  tree_depth (S (length (st_tree s))) s 0 = Some Throw.
Proof.
  exists [TNew 1 7%nat 0 1 [1]; TNew 2 8%nat 1 0 [0]].
  eexists. exists [(7%nat, 0, 1, [1]); (8%nat, 1, 0, [0])].
  split; [vm_compute; reflexivity|]. split; [|split].
  - repeat constructor; [exists 0%nat|exists 1%nat]; eexists; cbn; split; auto.
  - apply t_trans with 1; apply t_step; eexists; eexists; (split; [split; [|reflexivity]; lia|]);
      cbn; (split; [reflexivity|]); (split; [unfold kNoParent; lia|]); split; try reflexivity; lia.
  - vm_compute. reflexivity.
Qed.

(** A loaded tree whose daughter lists do not mirror the parent links. *)
Lemma unmirrored_accepted : exists (toks : list (token nat)) s t,
  load_tree toks = Ok s /\ shows s t /\
  exists x y, at_pos t 0 x /\ at_pos t 1 y /\ row_parent y = 0 /\ row_daughters x = [].
Proof.
  exists [TNew 1 7%nat 0 kNoParent []; TNew 2 8%nat 1 0 []].
  eexists. exists [(7%nat, 0, kNoParent, []); (8%nat, 1, 0, [])].
  split; [lazy; reflexivity|]. split.
  - repeat constructor; [exists 0%nat|exists 1%nat]; eexists; cbn; split; auto.
  - exists (7%nat, 0, kNoParent, []), (8%nat, 1, 0, []). unfold at_pos; cbn. repeat split; lia.
Qed.

(** A null datum in a legacy archive is dereferenced before validation. *)
Lemma legacy_null : exists s : state nat, st_tree s = [None] /\ rebuild_legacy s = UB.
Proof. exists (mkstate [] [None]). split; reflexivity. Qed.

(** A five-node history used as an example. *)
Definition ex_tree : outcome (state nat * list ptr) :=
  let bind {A B} (x : outcome A) (f : A -> outcome B) := match x with Ok a => f a | Throw => Throw | UB => UB end in
  bind (add_record (mkstate [] []) 10%nat None) (fun '(s, a) =>
  bind (add_record s 11%nat (Some a)) (fun '(s, b) =>
  bind (add_copy s (mkdatum 12%nat 77 3 [4; 5] None []) (Some a)) (fun '(s, c) =>
  bind (add_record s 13%nat (Some c)) (fun '(s, d) =>
  bind (add_record s 14%nat (Some a)) (fun '(s, e) => Ok (s, [a; b; c; d; e])))))).

Lemma ex_tree_built : exists s ps, ex_tree = Ok (s, ps) /\ built s ps /\ length ps = 5%nat /\
  shows s [(10%nat, 0, kNoParent, [1; 2; 4]); (11%nat, 1, 0, []); (12%nat, 2, 0, [3]); (13%nat, 3, 2, []); (14%nat, 4, 0, [])] /\
  tree_depth 6 s 3 = Some (Ok 2).
Proof.
  eexists. eexists. split; [vm_compute; reflexivity|]. split; [|split; [reflexivity|split]].
  - change [0%nat; 1%nat; 2%nat; 3%nat; 4%nat] with (((((@nil nat ++ [0%nat]) ++ [1%nat]) ++ [2%nat]) ++ [3%nat]) ++ [4%nat]).
    pose (D := fun r i p l => @mkdatum nat r i p l None []).
    pose (s1 := mkstate [D 10%nat 0 kNoParent []] [Some 0%nat]).
    pose (s2 := mkstate [D 10%nat 0 kNoParent [1]; D 11%nat 1 0 []] [Some 0%nat; Some 1%nat]).
    pose (s3 := mkstate [D 10%nat 0 kNoParent [1; 2]; D 11%nat 1 0 []; D 12%nat 2 0 []] [Some 0%nat; Some 1%nat; Some 2%nat]).
    pose (s4 := mkstate [D 10%nat 0 kNoParent [1; 2]; D 11%nat 1 0 []; D 12%nat 2 0 [3]; D 13%nat 3 2 []] [Some 0%nat; Some 1%nat; Some 2%nat; Some 3%nat]).
    apply built_record with (s := s4) (parent := Some 0%nat) (r := 14%nat); [|right; exists 0%nat; cbn; auto|vm_compute; reflexivity].
    apply built_record with (s := s3) (parent := Some 2%nat) (r := 13%nat); [|right; exists 2%nat; cbn; auto|vm_compute; reflexivity].
    apply built_copy with (s := s2) (parent := Some 0%nat) (d := mkdatum 12%nat 77 3 [4; 5] None []); [|right; exists 0%nat; cbn; auto|vm_compute; reflexivity].
    apply built_record with (s := s1) (parent := Some 0%nat) (r := 11%nat); [|right; exists 0%nat; cbn; auto|vm_compute; reflexivity].
    apply built_record with (s := mkstate [] []) (parent := None) (r := 10%nat); [apply (built_empty [])|left; auto|vm_compute; reflexivity].
  - unfold shows. cbn. repeat (constructor; [eexists; eexists; split; [reflexivity|split; reflexivity]|]). constructor.
  - vm_compute. reflexivity.
Qed.
