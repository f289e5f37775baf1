(** Property C107. *)
From Coq Require Import Reals List ZArith Bool Sorted Permutation Lia Lra.
From Verif Require Import TraversalModel TransModel TransSpec TransProofs TransProps IdxModel IdxSpec IdxProofs IdxProps.
Import ListNotations.
Open Scope R_scope.

Lemma least_from_first best pos l : forall k, (forall m, In (Some m) l -> best <= m) -> least_from best pos k l = pos.
Proof.
  induction l as [|[m|] t IH]; intros k H; cbn; auto.
  - destruct (Rlt_dec m best) as [L|L]; [specialize (H m (or_introl eq_refl)); lra|]. apply IH. intros x I. apply H. right. exact I.
  - apply IH. intros x I. apply H. right. exact I.
Qed.

Lemma sum_squares_le l : forall m, Forall2 (fun a b => 0 <= a <= b) l m -> sum_squares l <= sum_squares m.
Proof.
  induction 1 as [|a b t u [A B] F IH]; [cbn; lra|]. change (a ^ 2 + sum_squares t <= b ^ 2 + sum_squares u). pose proof (Rmult_le_compat a b a b A A B B). lra.
Qed.
Lemma sum_squares_scale c l : sum_squares (map (fun x => x * c) l) = c ^ 2 * sum_squares l.
Proof. unfold sum_squares. induction l as [|a t IH]; cbn in *; [ring|]. rewrite IH. ring. Qed.
Lemma sum_squares_nonneg l : 0 <= sum_squares l.
Proof. induction l as [|a t IH]; [cbn; lra|]. change (0 <= a ^ 2 + sum_squares t). pose proof (Rle_0_sqr a). unfold Rsqr in H. lra. Qed.

Section Select.
Variable eps : R.
Hypothesis eps_pos : 0 < eps.

(** The sum that all metrics are compared with. *)
Definition base (xs : list R) : R := sum_squares (map (fun x => eps * Rabs x) xs).

Lemma irregular_ge n t xs m : 0 <= 1 - eps * INR n -> metric_t_irregular eps n t xs = Some m -> base xs * (1 - eps * INR n) <= m.
Proof.
  intros N. unfold metric_t_irregular. destruct (forallb _ xs) eqn:F; [|discriminate]. intros E. injection E as <-.
  set (q := sum_squares _). assert (Q : base xs <= q).
  { apply sum_squares_le. clear q. induction xs as [|x u IH]; cbn in *; [constructor|]. apply andb_prop in F. destruct F as [F1 F2]. constructor; [|auto].
    destruct (apply t x); [|discriminate]. split; [apply Rmult_le_pos; [lra|apply Rabs_pos]|apply Rmax_r]. }
  pose proof (Rmult_le_compat_r _ _ _ N Q). lra.
Qed.

Lemma errors_ge n place xs : forall k, 0 < thresh eps n -> Forall2 (fun a b => 0 <= a <= b) (map (fun x => eps * Rabs x * thresh eps n) xs) (errors eps n k place xs).
Proof.
  induction xs as [|x u IH]; intros k T; cbn; constructor; auto. split; [|apply Rmax_l]. repeat apply Rmult_le_pos; try lra. apply Rabs_pos.
Qed.
Lemma base_thresh n xs : sum_squares (map (fun x => eps * Rabs x * thresh eps n) xs) = thresh eps n ^ 2 * base xs.
Proof. unfold base. rewrite <- sum_squares_scale, map_map. reflexivity. Qed.
Lemma regular_ge n place xs : 0 < thresh eps n -> thresh eps n * base xs <= sum_squares (errors eps n 0 place xs) / thresh eps n.
Proof.
  intros T. apply Rmult_le_reg_r with (thresh eps n); [exact T|]. replace (sum_squares (errors eps n 0 place xs) / thresh eps n * thresh eps n) with (sum_squares (errors eps n 0 place xs)) by (field; lra).
  replace (thresh eps n * base xs * thresh eps n) with (thresh eps n ^ 2 * base xs) by ring. rewrite <- base_thresh. apply sum_squares_le, errors_ge, T.
Qed.
Lemma t_regular_ge n t low high xs m : 0 < thresh eps n -> metric_t_regular eps n t low high xs = Some m -> thresh eps n * base xs <= m.
Proof.
  intros T. unfold metric_t_regular. destruct (apply t low); [|discriminate]. destruct (apply t high); [|discriminate]. intros E. injection E as <-. apply regular_ge, T.
Qed.

Lemma errors_eq n place xs : forall k, 0 < thresh eps n -> (forall i, (i < length xs)%nat -> nth i xs 0 = place (k + i)%nat \/ nth i xs 0 = 0) ->
  errors eps n k place xs = map (fun x => eps * Rabs x * thresh eps n) xs.
Proof.
  induction xs as [|x u IH]; intros k T H; cbn; [reflexivity|]. f_equal.
  - unfold point_error. pose proof (Rabs_pos x) as A. assert (B : 0 <= eps * Rabs x) by (apply Rmult_le_pos; lra). assert (C : 0 <= eps * Rabs x * thresh eps n) by (apply Rmult_le_pos; lra).
    destruct (H O ltac:(cbn; lia)) as [E|E]; cbn in E.
    + rewrite Nat.add_0_r in E. rewrite <- E, Rminus_eq_0, Rabs_R0, Rmin_left by exact B. apply Rmax_left, C.
    + rewrite E, Rabs_R0, Rmult_0_r, Rmult_0_l in *. rewrite Rmin_right by apply Rabs_pos. apply Rmax_left. lra.
  - apply IH; [exact T|]. intros i I. specialize (H (S i) ltac:(cbn; lia)). cbn in H. replace (S k + i)%nat with (k + S i)%nat by lia. exact H.
Qed.

(** If all points but the last are at their regular places, or zero, the regular metric is the least. *)
Lemma regular_metric n low high xs : 0 < thresh eps n ->
  (forall i, (i < length xs)%nat -> nth i xs 0 = (high - low) / INR (n - 1) * INR i + low \/ nth i xs 0 = 0) ->
  metric_regular eps n low high xs = thresh eps n * base xs.
Proof.
  intros T H. unfold metric_regular. rewrite errors_eq; auto. rewrite base_thresh. field. lra.
Qed.

Lemma chosen data s t : Permutation data s -> ascending s -> 0 < thresh eps (length s) -> (exists a, In a s /\ a <> 0) ->
  metric_regular eps (length s) (hd 0 s) (last s 0) (removelast s) = thresh eps (length s) * base (removelast s) ->
  min_index eps data t = Some (if Rlt_dec 0 (base (removelast s)) then 1 else 0)%nat.
Proof.
  intros P A T [a [I NZ]] M. unfold min_index. rewrite (sort_is data s P A). set (n := length s) in *. set (xs := removelast s) in *. rewrite M.
  assert (N0 : 0 <= eps * INR n) by (apply Rmult_le_pos; [lra|apply pos_INR]). assert (N1 : thresh eps n <= 1 - eps * INR n) by (unfold thresh; lra).
  pose proof (sum_squares_nonneg (map (fun x => eps * Rabs x) xs)) as BN. fold (base xs) in BN.
  assert (MI : metric_irregular eps n xs = base xs * (1 - eps * INR n)) by (unfold metric_irregular; fold (base xs); cbv zeta; ring). rewrite MI.
  assert (R : forall y1 y2, (forall m, y1 = Some m -> base xs * (1 - eps * INR n) <= m) -> (forall m, y2 = Some m -> thresh eps n * base xs <= m) ->
    least_from (base xs * (1 - eps * INR n)) 0 1
      [Some (thresh eps n * base xs); with_supplied t (fun t => metric_t_irregular eps n t xs); with_supplied t (fun t => metric_t_regular eps n t (hd 0 s) (last s 0) xs); y1; y2] =
    if Rlt_dec 0 (base xs) then 1%nat else 0%nat).
  { intros y1 y2 Y1 Y2. assert (U1 : forall m, with_supplied t (fun t => metric_t_irregular eps n t xs) = Some m -> base xs * (1 - eps * INR n) <= m).
    { intros m E. destruct t as [t|]; [|discriminate]. apply (irregular_ge n t xs m); [lra|exact E]. }
    assert (U2 : forall m, with_supplied t (fun t => metric_t_regular eps n t (hd 0 s) (last s 0) xs) = Some m -> thresh eps n * base xs <= m).
    { intros m E. destruct t as [t|]; [|discriminate]. apply (t_regular_ge n t _ _ _ _ T E). }
    assert (TI : thresh eps n * base xs <= base xs * (1 - eps * INR n)) by (rewrite Rmult_comm; apply Rmult_le_compat_l; lra).
    destruct (Rlt_dec 0 (base xs)) as [B|B].
    - set (l4 := [_; _; y1; y2]). change (least_from (base xs * (1 - eps * INR n)) 0 1 (Some (thresh eps n * base xs) :: l4)) with (if Rlt_dec (thresh eps n * base xs) (base xs * (1 - eps * INR n)) then least_from (thresh eps n * base xs) 1 2 l4 else least_from (base xs * (1 - eps * INR n)) 0 2 l4).
      destruct (Rlt_dec (thresh eps n * base xs) (base xs * (1 - eps * INR n))) as [L|L].
      + apply least_from_first. intros m [E|[E|[E|[E|[]]]]].
        * specialize (U1 m E). lra.
        * specialize (U2 m E). lra.
        * specialize (Y1 m E). lra.
        * specialize (Y2 m E). lra.
      + exfalso. apply L. rewrite Rmult_comm. apply Rmult_lt_compat_l; [exact B|]. unfold thresh. assert (0 < eps * INR n); [|lra]. apply Rmult_lt_0_compat; [lra|]. apply lt_0_INR. unfold n. destruct s; [destruct I|cbn; lia].
    - assert (Z : base xs = 0) by lra. rewrite Z, Rmult_0_l, Rmult_0_r in *. apply least_from_first. intros m [E|[E|[E|[E|[E|[]]]]]].
      + injection E as <-. lra.
      + apply U1, E.
      + apply U2, E.
      + apply Y1, E.
      + apply Y2, E. }
  destruct (is_symlog t); [f_equal; apply R; intros; discriminate|].
  destruct (symlog_of_list s) as [y|] eqn:Y.
  - f_equal. apply R.
    + intros m E. apply (irregular_ge n y xs m); [lra|exact E].
    + intros m E. apply (t_regular_ge n y _ _ _ _ T E).
  - exfalso. apply C101_least in Y. rewrite Forall_forall in Y. apply NZ, Y, I.
Qed.

Lemma nth_removelast (l : list R) i : (i < length (removelast l))%nat -> nth i (removelast l) 0 = nth i l 0.
Proof.
  revert i. induction l as [|a t IH]; intros i H; [cbn in H; lia|]. destruct t as [|b u]; [cbn in H; lia|]. destruct i as [|i]; [reflexivity|].
  change (removelast (a :: b :: u)) with (a :: removelast (b :: u)) in *. cbn [nth]. apply IH. cbn [length] in H. lia.
Qed.
Lemma length_removelast (l : list R) : length (removelast l) = (length l - 1)%nat.
Proof. induction l as [|a t IH]; [reflexivity|]. destruct t as [|b u]; [reflexivity|]. change (removelast (a :: b :: u)) with (a :: removelast (b :: u)). cbn [length] in *. lia. Qed.
End Select.

(** ** C107 *)

(** For data that, sorted, have equal steps, the indexer selected has no transform and finds the neighbours of every number within the data, whatever transform is offered. *)
Theorem C107_equal_steps_partial : forall eps data s t, 0 < eps -> Permutation data s -> equal_steps s -> (2 <= length s)%nat ->
  100 * eps * INR (length s) < 1 -> (Z.of_nat (length s) < 2 ^ 31)%Z ->
  exists i, select_indexer eps data t = Ok i /\ (forall j u, i <> Transformed j u) /\
  forall x, hd 0 s <= x <= last s 0 -> exists p q, index_at i x = Ok (p, q) /\ located s x p q.
Proof.
  intros eps data s t E P Q N L Z. pose proof (steps_ascending s Q) as A. pose proof (steps_less s Q N) as H. destruct (steps_span s Q N) as [d [D [W [PN G]]]].
  assert (T : 0 < thresh eps (length s)) by (unfold thresh; lra).
  assert (M : metric_regular eps (length s) (hd 0 s) (last s 0) (removelast s) = thresh eps (length s) * base eps (removelast s)).
  { apply regular_metric; auto. intros i I. left. rewrite nth_removelast by exact I. rewrite length_removelast in I. rewrite G by lia. rewrite W. field. lra. }
  assert (C : min_index eps data t = Some (if Rlt_dec 0 (base eps (removelast s)) then 1 else 0)%nat).
  { apply chosen; auto. destruct (Req_dec (hd 0 s) 0) as [HZ|HZ]; [exists (last s 0); rewrite last_nth|exists (hd 0 s); rewrite hd_nth]; (split; [apply nth_In; lia|]).
    - rewrite <- last_nth. lra.
    - rewrite <- hd_nth. exact HZ. }
  unfold select_indexer. destruct data as [|a u]; [apply Permutation_nil in P; subst s; cbn in N; lia|]. rewrite C.
  destruct (Rlt_dec 0 (base eps (removelast s))).
  - destruct (C104_located _ s P Q N Z) as [g [MG [H1 H2]]]. unfold new_regular. rewrite MG. exists (Regular g). split; [reflexivity|]. split; [discriminate|].
    intros x X. destruct (H1 x X) as [p [q R]]. exists p, q. split; [exact R|]. apply (H2 x p q R).
  - destruct (C105_located _ s P A) as [h [MH H1]].
    { exists (hd 0 s), (last s 0). rewrite hd_nth, last_nth in *. split; [apply nth_In; lia|]. split; [apply nth_In; lia|lra]. }
    unfold new_irregular. rewrite MH. exists (Irregular h). split; [reflexivity|]. split; [discriminate|]. intros x X. exists (fst (irregular_at h x)), (snd (irregular_at h x)). split; [cbn; destruct (irregular_at h x); reflexivity|apply H1].
Qed.
Print Assumptions C107_equal_steps_partial.

(** Of three points -10, 0 and 1, which are not regular, the metric sees only that the first is at its place: a regular indexer is selected, and -2 is put between the last two. *)
Theorem C107_irregular_refuted : exists data i x p q, ascending data /\ hd 0 data <= x <= last data 0 /\
  select_indexer (/ 2 ^ 52) data None = Ok i /\ index_at i x = Ok (p, q) /\ ~ located data x p q.
Proof.
  set (eps := / 2 ^ 52). assert (E : 0 < eps) by (apply Rinv_0_lt_compat, pow_lt; lra).
  assert (E2 : 300 * eps < 1). { unfold eps. apply Rmult_lt_reg_r with (2 ^ 52); [apply pow_lt; lra|]. rewrite Rmult_assoc, Rinv_l by (apply pow_nonzero; lra). lra. }
  set (s := [-10; 0; 1]). assert (A : ascending s) by (unfold s; repeat constructor; lra).
  assert (T : 0 < thresh eps (length s)) by (unfold thresh, s; cbn; lra).
  assert (M : metric_regular eps (length s) (hd 0 s) (last s 0) (removelast s) = thresh eps (length s) * base eps (removelast s)).
  { apply regular_metric; auto. intros [|[|i]] I; cbn in *; try lia; [left; ring|right; reflexivity]. }
  assert (C : min_index eps s None = Some 1%nat).
  { rewrite (chosen eps E s s None (Permutation_refl _) A T); auto; [|exists 1; cbn; split; auto; lra]. destruct (Rlt_dec 0 (base eps (removelast s))) as [B|B]; [reflexivity|].
    exfalso. apply B. unfold base, s. cbn. rewrite Rabs_left, Rabs_R0 by lra. pose proof (Rmult_lt_0_compat eps eps E E). nra. }
  exists s. eexists. exists (-2), 1%nat, 2%nat. split; [exact A|]. split; [cbn; lra|]. split; [|split].
  - unfold select_indexer. rewrite C. unfold s at 1. unfold new_regular. rewrite (make_regular_some s s (Permutation_refl _) A); [reflexivity|cbn; lia|cbn; lra].
  - cbn [index_at]. unfold regular_at. cbn [g_low g_high g_range g_reversed g_n]. unfold s. cbn [hd last length Nat.sub]. replace (Int_part _) with 1%Z; [reflexivity|]. symmetry. apply floor_at. cbn. lra.
  - intros [_ [_ [H _]]]. cbn in H. lra.
Qed.
Print Assumptions C107_irregular_refuted.

(** Without data the loops run past the end. *)
Theorem C107_empty_refuted : exists data, select_indexer (/ 2 ^ 52) data None = UB.
Proof. exists []. reflexivity. Qed.
Print Assumptions C107_empty_refuted.

(** Double precision, three equal steps from 1 to 4. *)
Example C107_case : equal_steps [1; 2; 3; 4] /\ 100 * / 2 ^ 52 * INR 4 < 1.
Proof.
  split.
  - exists 1. split; [lra|]. intros [|[|[|[|i]]]] H; cbn in *; try lia; lra.
  - apply Rmult_lt_reg_r with (2 ^ 52); [apply pow_lt; lra|]. replace (100 * / 2 ^ 52 * INR 4 * 2 ^ 52) with (100 * INR 4) by (field; apply pow_nonzero; lra). cbn [INR]. lra.
Qed.
