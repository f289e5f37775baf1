(** Lemmas about table look-up. *)
From Coq Require Import Reals List ZArith Bool Sorted Lia Lra.
From Verif Require Import TraversalModel TableModel TableSpec.
Import ListNotations.
Open Scope R_scope.

(** ** Sorting *)

Lemma assign_last p l : (forall q, In q l -> fst q < fst p) -> assign p l = l ++ [p].
Proof.
  induction l as [|q t IH]; intros H; [reflexivity|]; cbn.
  assert (Hq : fst q < fst p) by (apply H; now left).
  destruct (Rlt_dec (fst p) (fst q)); [lra|]. destruct (Rlt_dec (fst q) (fst p)); [|lra].
  rewrite IH; [reflexivity|]. intros q2 Hr. apply H; now right.
Qed.

Lemma fold_assign l : forall acc, StronglySorted Rlt (map fst (acc ++ l)) ->
  fold_left (fun l p => assign p l) l acc = acc ++ l.
Proof.
  induction l as [|p t IH]; intros acc H; cbn; [now rewrite app_nil_r|].
  assert (Hp : assign p acc = acc ++ [p]).
  { apply assign_last. intros q Hq. clear IH.
    induction acc as [|a acc' IHa]; [destruct Hq|]. cbn in H. apply StronglySorted_inv in H as [H1 H2].
    destruct Hq as [->|Hq]; [|auto].
    rewrite map_app in H2. apply Forall_app in H2 as [_ H2]. cbn in H2. now inversion H2. }
  rewrite Hp, IH; rewrite <- app_assoc; [reflexivity|]. exact H.
Qed.

Lemma by_abscissa_id t : increasing t -> by_abscissa t = t.
Proof. intro H. unfold by_abscissa. now rewrite fold_assign. Qed.

(** ** Increasing lists *)

Lemma sorted_nth xs : StronglySorted Rlt xs -> forall i j, (i < j < List.length xs)%nat -> nth i xs 0 < nth j xs 0.
Proof.
  induction xs as [|a t IH]; intros H i j Hij; cbn in Hij; [lia|].
  apply StronglySorted_inv in H as [H1 H2]. rewrite Forall_forall in H2.
  destruct j as [|j]; [lia|]. destruct i as [|i]; cbn.
  - apply H2, nth_In. lia.
  - apply IH; auto; lia.
Qed.

Lemma sorted_nth_le xs : StronglySorted Rlt xs -> forall i j, (i <= j < List.length xs)%nat -> nth i xs 0 <= nth j xs 0.
Proof.
  intros H i j Hij. destruct (Nat.eq_dec i j) as [->|n]; [lra|]. left. apply sorted_nth; auto; lia.
Qed.

Lemma last_nth (xs : list R) : last xs 0 = nth (List.length xs - 1) xs 0.
Proof.
  induction xs as [|a t IH]; [reflexivity|]. destruct t as [|b t']; [reflexivity|].
  change (last (a :: b :: t') 0) with (last (b :: t') 0). rewrite IH. cbn [List.length].
  replace (S (S (List.length t')) - 1)%nat with (S (S (List.length t') - 1))%nat by lia. reflexivity.
Qed.

Lemma neighbours_nth {A} (l : list A) p q : neighbours l p q <->
  exists i, nth_error l i = Some p /\ nth_error l (S i) = Some q.
Proof.
  split.
  - intros (b & a & ->). exists (List.length b). split.
    + rewrite nth_error_app2, Nat.sub_diag by lia. reflexivity.
    + rewrite nth_error_app2 by lia. replace (S (List.length b) - List.length b)%nat with 1%nat by lia. reflexivity.
  - intros (i & H1 & H2). apply nth_error_split in H1 as (b & a & -> & <-).
    rewrite nth_error_app2 in H2 by lia. replace (S (List.length b) - List.length b)%nat with 1%nat in H2 by lia.
    destruct a as [|q' a]; cbn in H2; [discriminate|]. injection H2 as ->. now exists b, a.
Qed.

Lemma nth_of_error {A} (l : list A) i a d : nth_error l i = Some a -> nth i l d = a.
Proof. revert l; induction i; intros [|b t]; cbn; intros; try discriminate; [congruence|auto]. Qed.

Lemma error_len {A} (l : list A) i a : nth_error l i = Some a -> (i < List.length l)%nat.
Proof. intro H. apply nth_error_Some. congruence. Qed.

Lemma even_nth xs d : (forall a b, neighbours xs a b -> b - a = d) ->
  forall i, (i < List.length xs)%nat -> nth i xs 0 = nth 0 xs 0 + INR i * d.
Proof.
  intros H. induction i as [|i IH]; intros Hi; [cbn; lra|].
  assert (E : nth (S i) xs 0 - nth i xs 0 = d).
  { apply H. apply neighbours_nth. exists i.
    split; apply nth_error_nth'; lia. }
  rewrite S_INR. specialize (IH ltac:(lia)). lra.
Qed.

(** ** Bins *)

Lemma lower_bound_at xs v i : StronglySorted Rlt xs -> (S i < List.length xs)%nat ->
  nth i xs 0 < v <= nth (S i) xs 0 -> lower_bound xs v = S i.
Proof.
  revert i. induction xs as [|a t IH]; intros i Hs Hi Hv; cbn in Hi; [lia|].
  pose proof (sorted_nth_le _ Hs 0 i ltac:(cbn; lia)) as H0. cbn [lower_bound]. change (nth 0 (a :: t) 0) with a in H0.
  destruct (Rlt_dec a v) as [Hl|Hl]; [|lra].
  apply StronglySorted_inv in Hs as [Hs _]. f_equal.
  destruct i as [|i].
  - destruct t as [|b t']; cbn in Hi; [lia|]. cbn in Hv. cbn. destruct (Rlt_dec b v); [lra|reflexivity].
  - apply IH; auto; lia.
Qed.

Lemma find_irregular_at xs v i : StronglySorted Rlt xs -> (S i < List.length xs)%nat ->
  nth i xs 0 < v <= nth (S i) xs 0 ->
  find_irregular xs v = (i, nth i xs 0, nth (S i) xs 0 - nth i xs 0).
Proof.
  intros Hs Hi Hv. unfold find_irregular. rewrite (lower_bound_at xs v i) by auto.
  destruct (Nat.leb_spec (List.length xs - 1) i); [lia|reflexivity].
Qed.

Lemma floor_at x i : IZR i <= x < IZR i + 1 -> Int_part x = i.
Proof.
  intros [H1 H2]. unfold Int_part. assert (E : up x = (i + 1)%Z); [|lia].
  symmetry. apply tech_up; rewrite plus_IZR; lra.
Qed.

Lemma even_step xs d : (forall a b, neighbours xs a b -> b - a = d) -> (2 <= List.length xs)%nat ->
  front xs = nth 0 xs 0 /\ extent xs = INR (List.length xs - 1) * d /\ mean_step xs = d.
Proof.
  intros H Hn. assert (E : extent xs = INR (List.length xs - 1) * d).
  { unfold extent, back, front. rewrite last_nth, (even_nth xs d) by (auto; lia). ring. }
  split; [reflexivity|]. split; [exact E|]. unfold mean_step. rewrite E. field.
  apply not_0_INR. lia.
Qed.

Lemma find_regular_at xs d v i : (forall a b, neighbours xs a b -> b - a = d) -> 0 < d ->
  (S i < List.length xs)%nat ->
  nth i xs 0 <= v < nth (S i) xs 0 \/ (v = nth (S i) xs 0 /\ (i + 2 = List.length xs)%nat) ->
  find_regular xs v = (i, nth i xs 0, d).
Proof.
  intros H Hd Hi Hv. destruct (even_step xs d H ltac:(lia)) as (Ef & Ee & Em).
  unfold find_regular. rewrite Ee, Em, Ef.
  assert (Hn : 0 < INR (List.length xs - 1)) by (apply lt_0_INR; lia).
  replace ((v - nth 0 xs 0) / (INR (List.length xs - 1) * d) * INR (List.length xs - 1))
    with ((v - nth 0 xs 0) / d) by (field; split; lra).
  assert (Hi0 : nth i xs 0 = nth 0 xs 0 + INR i * d) by (apply even_nth; auto; lia).
  assert (Hi1 : nth (S i) xs 0 = nth 0 xs 0 + INR (S i) * d) by (apply even_nth; auto; lia).
  rewrite S_INR in Hi1.
  destruct Hv as [Hv|[-> Hlast]].
  - assert (E : Int_part ((v - nth 0 xs 0) / d) = Z.of_nat i).
    { apply floor_at. rewrite <- INR_IZR_INZ. split.
      - apply Rmult_le_reg_r with d; [lra|]. unfold Rdiv. rewrite Rmult_assoc, Rinv_l by lra. lra.
      - apply Rmult_lt_reg_r with d; [lra|]. unfold Rdiv. rewrite Rmult_assoc, Rinv_l by lra. lra. }
    rewrite E. destruct (Z.ltb_spec (Z.of_nat i) 0); [lia|].
    destruct (Z.leb_spec (Z.of_nat (List.length xs) - 1) (Z.of_nat i)); [lia|].
    rewrite Nat2Z.id. now rewrite Hi0.
  - assert (E : Int_part ((nth (S i) xs 0 - nth 0 xs 0) / d) = Z.of_nat (S i)).
    { rewrite Hi1. replace ((nth 0 xs 0 + (INR i + 1) * d - nth 0 xs 0) / d) with (INR i + 1) by (field; lra).
      apply floor_at. rewrite <- INR_IZR_INZ, S_INR. lra. }
    rewrite E. destruct (Z.ltb_spec (Z.of_nat (S i)) 0); [lia|].
    destruct (Z.leb_spec (Z.of_nat (List.length xs) - 1) (Z.of_nat (S i))); [|lia].
    replace (List.length xs - 2)%nat with i by lia. now rewrite Hi0.
Qed.

(** ** The value in a bin *)

Lemma clip_pos r : 0 <= r -> clip r = r.
Proof. intro H. unfold clip. destruct (Rlt_dec r 0); lra. Qed.

Lemma in_between_mix a b s : 0 <= s <= 1 -> in_between (a + (b - a) * s) a b.
Proof.
  intros Hs. unfold in_between. destruct (Rle_dec a b) as [H|H].
  - rewrite Rmin_left, Rmax_right by lra. nra.
  - rewrite Rmin_right, Rmax_left by lra. nra.
Qed.

Lemma in_between_nonneg v a b : 0 <= a -> 0 <= b -> in_between v a b -> 0 <= v.
Proof. unfold in_between, Rmin, Rmax. intros. repeat destruct Rle_dec; lra. Qed.

Lemma in_between_exp v a b : in_between v a b -> in_between (exp v) (exp a) (exp b).
Proof.
  unfold in_between. intros [H1 H2].
  assert (M : forall x y, x <= y -> exp x <= exp y).
  { intros x y [H|H]; [left; now apply exp_increasing|subst; lra]. }
  destruct (Rle_dec a b) as [H|H].
  - rewrite Rmin_left, Rmax_right in * by lra. rewrite Rmin_left, Rmax_right by (apply M; lra). split; apply M; lra.
  - rewrite Rmin_right, Rmax_left in * by lra. rewrite Rmin_right, Rmax_left by (apply M; lra). split; apply M; lra.
Qed.

Lemma linear_bin fa fb v xa xb : xa < xb -> xa <= v <= xb ->
  in_between (fa + (fb - fa) * (v - xa) / (xb - xa)) fa fb.
Proof.
  intros H Hv. replace ((fb - fa) * (v - xa) / (xb - xa)) with ((fb - fa) * ((v - xa) / (xb - xa))) by (field; lra).
  apply in_between_mix. split.
  - apply Rmult_le_pos; [lra|]. left. apply Rinv_0_lt_compat. lra.
  - apply Rmult_le_reg_r with (xb - xa); [lra|]. unfold Rdiv. rewrite Rmult_assoc, Rinv_l by lra. lra.
Qed.

Lemma exp_weight v xb : v <= xb -> 0 <= exp (v - xb) <= 1.
Proof.
  intro H. split; [left; apply exp_pos|]. rewrite <- exp_0. destruct H as [H|H].
  - left. apply exp_increasing. lra.
  - subst. replace (xb - xb) with 0 by ring. lra.
Qed.

Lemma is_zero_false f : is_zero f = false <-> 0 < f.
Proof. unfold is_zero. destruct (Rle_dec f 0); split; intros; try lra; auto; discriminate. Qed.

Lemma is_zero_true f : 0 <= f -> is_zero f = true -> f = 0.
Proof. unfold is_zero. destruct (Rle_dec f 0); intros; try lra; discriminate. Qed.

Lemma exp_log_value f : 0 < f -> exp (log_value f) = f.
Proof. intro H. unfold log_value. destruct (Rlt_dec 0 f); [now apply exp_ln|lra]. Qed.

Lemma bin_between (log : bool) fa fb v xa xb : 0 <= fa -> 0 <= fb -> xa < xb -> xa <= v <= xb ->
  in_between (if log then bin_value true (is_zero fa) (is_zero fb) (log_value fa) (log_value fb) v xa (xb - xa)
              else bin_value false false false fa fb v xa (xb - xa)) fa fb.
Proof.
  intros Ha Hb Hx Hv. destruct log; [|now apply linear_bin].
  assert (Hw : 0 <= exp (v - xa - (xb - xa)) <= 1).
  { replace (v - xa - (xb - xa)) with (v - xb) by ring. apply exp_weight. lra. }
  unfold bin_value. destruct (is_zero fa) eqn:Za, (is_zero fb) eqn:Zb.
  - apply is_zero_true in Za, Zb; auto. subst.
    replace (log_value 0) with 0 by (unfold log_value; destruct (Rlt_dec 0 0); lra).
    now apply in_between_mix.
  - apply is_zero_true in Za; auto. apply is_zero_false in Zb. subst.
    replace (log_value 0) with 0 by (unfold log_value; destruct (Rlt_dec 0 0); lra).
    rewrite exp_log_value by auto. now apply in_between_mix.
  - apply is_zero_true in Zb; auto. apply is_zero_false in Za. subst.
    replace (log_value 0) with 0 by (unfold log_value; destruct (Rlt_dec 0 0); lra).
    rewrite exp_log_value by auto. now apply in_between_mix.
  - apply is_zero_false in Za, Zb. pose proof (exp_log_value fa Za) as Ea. pose proof (exp_log_value fb Zb) as Eb.
    pose proof (linear_bin (log_value fa) (log_value fb) v xa xb Hx Hv) as Hm.
    apply in_between_exp in Hm. now rewrite Ea, Eb in Hm.
Qed.

Lemma bin_right (log : bool) fa fb xa xb : 0 <= fa -> 0 <= fb -> xa < xb ->
  (if log then bin_value true (is_zero fa) (is_zero fb) (log_value fa) (log_value fb) xb xa (xb - xa)
   else bin_value false false false fa fb xb xa (xb - xa)) = fb.
Proof.
  intros Ha Hb Hx. destruct log.
  - unfold bin_value. replace (xb - xa - (xb - xa)) with 0 by ring. rewrite exp_0.
    destruct (is_zero fa) eqn:Za, (is_zero fb) eqn:Zb.
    + apply is_zero_true in Za, Zb; auto. subst.
      replace (log_value 0) with 0 by (unfold log_value; destruct (Rlt_dec 0 0); lra). ring.
    + apply is_zero_false in Zb. rewrite exp_log_value by auto. ring.
    + apply is_zero_true in Zb; auto. subst.
      replace (log_value 0) with 0 by (unfold log_value; destruct (Rlt_dec 0 0); lra). ring.
    + apply is_zero_false in Za, Zb.
      replace (log_value fa + (log_value fb - log_value fa) * (xb - xa) / (xb - xa)) with (log_value fb) by (field; lra).
      now apply exp_log_value.
  - unfold bin_value. field. lra.
Qed.

Lemma bin_left (log : bool) fa fb xa xb : (log = true -> 0 < fa /\ 0 < fb) -> xa < xb ->
  (if log then bin_value true (is_zero fa) (is_zero fb) (log_value fa) (log_value fb) xa xa (xb - xa)
   else bin_value false false false fa fb xa xa (xb - xa)) = fa.
Proof.
  intros Hl Hx. destruct log.
  - destruct (Hl eq_refl) as [Ha Hb]. rewrite (proj2 (is_zero_false fa) Ha), (proj2 (is_zero_false fb) Hb).
    unfold bin_value. replace (log_value fa + (log_value fb - log_value fa) * (xa - xa) / (xb - xa)) with (log_value fa) by (field; lra). now apply exp_log_value.
  - unfold bin_value. field. lra.
Qed.

(** ** Evaluation *)

(** The coordinate of a bin: the abscissa or its logarithm. *)
Definition coordinate (log : bool) (x : R) : R := if log then ln x else x.

Lemma evaluate_bin t (log : bool) x i xa fa xb fb dl : increasing t ->
  is_log (add_points (map fst t)) = log ->
  points (add_points (map fst t)) = map (coordinate log) (map fst t) ->
  (log = true -> 0 < x) ->
  nth_error t i = Some (xa, fa) -> nth_error t (S i) = Some (xb, fb) ->
  find_bin (add_points (map fst t)) (coordinate log x) = (i, coordinate log xa, dl) ->
  evaluate1 (add_table t) x =
    Ok (clip (if log then bin_value true (is_zero fa) (is_zero fb) (log_value fa) (log_value fb) (ln x) (ln xa) dl
              else bin_value false false false fa fb x xa dl)).
Proof.
  intros Hi Hl Hp Hx Ha Hb Hf. unfold evaluate1, add_table. rewrite by_abscissa_id by auto. rewrite Hl.
  pose proof (error_len _ _ _ Hb) as Hlen.
  assert (Hc : (if (List.length (points (add_points (map fst t))) - 1 <=? i)%nat
     then (List.length (points (add_points (map fst t))) - 2)%nat else i) = i).
  { rewrite Hp, !map_length. destruct (Nat.leb_spec (List.length t - 1) i); [lia|reflexivity]. }
  destruct log; cbn [index_of func mask]; rewrite Hl.
  - destruct (Rlt_dec 0 x) as [_|n]; [|exfalso; auto].
    cbn [coordinate] in Hf. rewrite Hf. rewrite Hc.
    rewrite (map_nth_error _ _ _ Ha), (map_nth_error _ _ _ Hb).
    rewrite (map_nth_error (fun p => is_zero (snd p)) _ _ Ha), (map_nth_error (fun p => is_zero (snd p)) _ _ Hb).
    reflexivity.
  - cbn [coordinate] in Hf. rewrite Hf. rewrite Hc.
    rewrite (map_nth_error _ _ _ Ha), (map_nth_error _ _ _ Hb). reflexivity.
Qed.

(** ** Which look-up is chosen *)

Lemma neighbours_cons {A} (a b : A) t p q : neighbours (a :: b :: t) p q <-> (p = a /\ q = b) \/ neighbours (b :: t) p q.
Proof.
  split.
  - intros (bf & af & E). destruct bf as [|c bf]; cbn in E; injection E; intros; subst.
    + now left.
    + right. now exists bf, af.
  - intros [[-> ->]|(bf & af & E)].
    + now exists [], t.
    + exists (a :: bf), af. now rewrite E.
Qed.

Lemma no_neighbours1 {A} (a : A) p q : ~ neighbours [a] p q.
Proof. intros (bf & af & E). destruct bf as [|c [|? ?]]; discriminate. Qed.

Lemma max_dist_lt xs avg e : StronglySorted Rlt xs -> (2 <= List.length xs)%nat ->
  (max_dist xs avg < e <-> (forall a b, neighbours xs a b -> Rabs ((b - a) - avg) < e)).
Proof.
  induction xs as [|a t IH]; intros Hs Hn; cbn in Hn; [lia|].
  destruct t as [|b t]; cbn in Hn; [lia|].
  apply StronglySorted_inv in Hs as [Hs1 Hs2]. inversion Hs2; subst.
  assert (E : max_dist (a :: b :: t) avg = Rmax (Rabs (b - a - avg)) (max_dist (b :: t) avg)).
  { cbn [max_dist]. rewrite (Rabs_pos_eq (b - a)) by lra. reflexivity. }
  rewrite E. destruct t as [|c t].
  - cbn [max_dist]. pose proof (Rabs_pos (b - a - avg)). rewrite Rmax_left by lra. split.
    + intros HH p q Hpq. apply neighbours_cons in Hpq as [[-> ->]|Hpq]; [auto|now apply no_neighbours1 in Hpq].
    + intros Hall. apply Hall. apply neighbours_cons. now left.
  - specialize (IH Hs1 ltac:(cbn; lia)). split.
    + intros HH p q Hpq. apply Rmax_Rlt in HH as [Ha Hb].
      apply neighbours_cons in Hpq as [[-> ->]|Hpq]; [auto|]. exact (proj1 IH Hb p q Hpq).
    + intros Hall. apply Rmax_lub_lt.
      * apply Hall. apply neighbours_cons. now left.
      * apply (proj2 IH). intros p q Hpq. apply Hall. apply neighbours_cons. now right.
Qed.

Lemma extent_pos xs : StronglySorted Rlt xs -> (2 <= List.length xs)%nat -> 0 < mean_step xs.
Proof.
  intros Hs Hn. unfold mean_step, extent, back, front. rewrite last_nth.
  pose proof (sorted_nth xs Hs 0 (List.length xs - 1) ltac:(lia)).
  apply Rmult_lt_0_compat; [lra|]. apply Rinv_0_lt_compat, lt_0_INR. lia.
Qed.

Lemma relative_small xs : StronglySorted Rlt xs -> (2 <= List.length xs)%nat ->
  (relative_max_dist xs < tolerance <-> nearly_even xs).
Proof.
  intros Hs Hn. pose proof (extent_pos xs Hs Hn) as Hp. unfold relative_max_dist, tolerance.
  assert (E : max_dist xs (mean_step xs) / mean_step xs < / 10000 <-> max_dist xs (mean_step xs) < mean_step xs / 10000).
  { split; intro H.
    - apply Rmult_lt_compat_r with (r := mean_step xs) in H; [|auto].
      unfold Rdiv in H. rewrite Rmult_assoc, Rinv_l in H by lra. lra.
    - apply Rmult_lt_reg_r with (mean_step xs); [auto|].
      unfold Rdiv. rewrite Rmult_assoc, Rinv_l by lra. lra. }
  rewrite E, max_dist_lt by auto. unfold nearly_even.
  replace (mean_step xs) with ((last xs 0 - hd 0 xs) / INR (List.length xs - 1)); [reflexivity|].
  unfold mean_step, extent, back, front. now destruct xs.
Qed.

Lemma sorted_ln xs : StronglySorted Rlt xs -> (forall x, In x xs -> 0 < x) -> StronglySorted Rlt (map ln xs).
Proof.
  induction xs as [|a t IH]; intros Hs Hp; cbn; [constructor|].
  apply StronglySorted_inv in Hs as [H1 H2]. constructor.
  - apply IH; auto. intros. apply Hp. now right.
  - rewrite Forall_forall in *. intros y Hy. apply in_map_iff in Hy as (x & <- & Hx).
    apply ln_increasing; [apply Hp; now left|now apply H2].
Qed.

Lemma log_points_some xs : (forall x, In x xs -> 0 < x) -> log_points xs = Some (map ln xs).
Proof.
  intro H. unfold log_points. replace (forallb _ xs) with true; [reflexivity|]. symmetry.
  apply forallb_forall. intros x Hx. destruct (Rlt_dec 0 x); [reflexivity|]. exfalso; auto.
Qed.

Lemma log_points_inv xs ls : log_points xs = Some ls -> (forall x, In x xs -> 0 < x) /\ ls = map ln xs.
Proof.
  unfold log_points. destruct (forallb _ xs) eqn:E; [|discriminate]. intros [= <-]. split; [|reflexivity].
  rewrite forallb_forall in E. intros x Hx. specialize (E x Hx). destruct (Rlt_dec 0 x); [auto|discriminate].
Qed.

Lemma chosen_log_even xs : StronglySorted Rlt xs -> (2 <= List.length xs)%nat -> nearly_log_even xs ->
  add_points xs = mkindexer true true (map ln xs).
Proof.
  intros Hs Hn [Hp He]. unfold add_points. rewrite log_points_some by auto.
  destruct (Rlt_dec (relative_max_dist (map ln xs)) tolerance) as [_|n]; [reflexivity|].
  exfalso. apply n. apply relative_small; auto; [now apply sorted_ln|now rewrite map_length].
Qed.

Lemma chosen_even xs : StronglySorted Rlt xs -> (2 <= List.length xs)%nat -> ~ nearly_log_even xs -> nearly_even xs ->
  add_points xs = mkindexer false true xs.
Proof.
  intros Hs Hn Hl He. unfold add_points. pose proof (proj2 (relative_small xs Hs Hn) He) as Hr.
  destruct (log_points xs) as [ls|] eqn:E.
  - apply log_points_inv in E as [Hp ->].
    destruct (Rlt_dec (relative_max_dist (map ln xs)) tolerance) as [y|_].
    + exfalso. apply Hl. split; [auto|]. apply relative_small; auto; [now apply sorted_ln|now rewrite map_length].
    + destruct (Rlt_dec (relative_max_dist xs) tolerance); [reflexivity|contradiction].
  - destruct (Rlt_dec (relative_max_dist xs) tolerance); [reflexivity|contradiction].
Qed.

Lemma chosen_uneven xs : StronglySorted Rlt xs -> (2 <= List.length xs)%nat -> ~ nearly_log_even xs -> ~ nearly_even xs ->
  exists log, add_points xs = mkindexer log false (map (coordinate log) xs) /\ (log = true -> forall x, In x xs -> 0 < x).
Proof.
  intros Hs Hn Hl He. unfold add_points. rewrite <- (relative_small xs Hs Hn) in He.
  destruct (log_points xs) as [ls|] eqn:E.
  - apply log_points_inv in E as [Hp ->].
    destruct (Rlt_dec (relative_max_dist (map ln xs)) tolerance) as [y|_].
    + exfalso. apply Hl. split; [auto|]. apply relative_small; auto; [now apply sorted_ln|now rewrite map_length].
    + destruct (Rlt_dec (relative_max_dist xs) tolerance); [contradiction|].
      destruct (Rlt_dec _ _).
      * exists true. split; auto.
      * exists false. split; [|discriminate]. f_equal. symmetry. now apply map_id.
  - destruct (Rlt_dec (relative_max_dist xs) tolerance); [contradiction|].
    exists false. split; [|discriminate]. f_equal. symmetry. apply map_id.
Qed.
