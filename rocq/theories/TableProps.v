(** Theorems about tabulated functions (C55, C56). *)
From Coquelicot Require Import Coquelicot.
From Coq Require Import Reals List ZArith Bool Sorted Permutation Lia Lra.
From Verif Require Import TraversalModel TableModel TableSpec TableProofs TableTrap.
Import ListNotations.
Open Scope R_scope.

(** * C55: a table look-up reproduces the entries and stays between neighbours *)

Lemma even_nearly xs : StronglySorted Rlt xs -> (2 <= List.length xs)%nat -> even xs -> nearly_even xs.
Proof.
  intros Hs Hn [d Hd] a b Hab. cbv zeta. rewrite (Hd a b Hab).
  destruct (even_step xs d Hd Hn) as (_ & _ & Em).
  assert (E : (last xs 0 - hd 0 xs) / INR (List.length xs - 1) = d).
  { rewrite <- Em. unfold mean_step, extent, back, front. now destruct xs. }
  rewrite E, Rminus_eq_0, Rabs_R0. pose proof (extent_pos xs Hs Hn). rewrite Em in H. lra.
Qed.

Lemma nth_error_fst (t : list (R * R)) i x f : nth_error t i = Some (x, f) -> nth i (map fst t) 0 = x.
Proof. intro H. apply nth_of_error. now rewrite (map_nth_error _ _ _ H). Qed.

Lemma nth_error_ln (t : list (R * R)) i x f : nth_error t i = Some (x, f) -> nth i (map ln (map fst t)) 0 = ln x.
Proof. intro H. apply nth_of_error. rewrite (map_nth_error ln i (map fst t)) with (d := x); [reflexivity|]. now rewrite (map_nth_error _ _ _ H). Qed.

Lemma entry_order t i xa fa xb fb : increasing t -> nth_error t i = Some (xa, fa) ->
  nth_error t (S i) = Some (xb, fb) -> xa < xb.
Proof.
  intros Hs Ha Hb. rewrite <- (nth_error_fst _ _ _ _ Ha), <- (nth_error_fst _ _ _ _ Hb).
  apply sorted_nth; [exact Hs|]. rewrite map_length. apply error_len in Hb. lia.
Qed.

Lemma even_diff xs d i a b : (forall a b, neighbours xs a b -> b - a = d) ->
  nth_error xs i = Some a -> nth_error xs (S i) = Some b -> b - a = d.
Proof. intros H Ha Hb. apply H, neighbours_nth. now exists i. Qed.

(** Any regular look-up: at the lower end of a bin, in its interior, and at the end of the table. *)
Lemma regular_value t (log : bool) x i xa fa xb fb : increasing t -> (2 <= List.length t)%nat ->
  add_points (map fst t) = mkindexer log true (map (coordinate log) (map fst t)) ->
  (log = true -> 0 < x /\ forall y, In y (map fst t) -> 0 < y) ->
  even (map (coordinate log) (map fst t)) ->
  nth_error t i = Some (xa, fa) -> nth_error t (S i) = Some (xb, fb) ->
  xa <= x < xb \/ (x = xb /\ (i + 2 = List.length t)%nat) ->
  evaluate1 (add_table t) x =
    Ok (clip (if log then bin_value true (is_zero fa) (is_zero fb) (log_value fa) (log_value fb) (ln x) (ln xa) (ln xb - ln xa)
              else bin_value false false false fa fb x xa (xb - xa))) /\
  coordinate log xa < coordinate log xb.
Proof.
  intros Hs Hn Hc Hlog [d Hd] Ha Hb Hx.
  pose proof (entry_order _ _ _ _ _ _ Hs Ha Hb) as Hlt.
  assert (Ia : In xa (map fst t)). { apply in_map_iff. exists (xa, fa). split; [reflexivity|]. now apply nth_error_In in Ha. }
  assert (Ib : In xb (map fst t)). { apply in_map_iff. exists (xb, fb). split; [reflexivity|]. now apply nth_error_In in Hb. }
  assert (Hlc : coordinate log xa < coordinate log xb).
  { destruct log; cbn; [|exact Hlt]. destruct (Hlog eq_refl) as [_ Hp]. apply ln_increasing; auto. }
  assert (Na : nth_error (map (coordinate log) (map fst t)) i = Some (coordinate log xa)).
  { apply map_nth_error. now rewrite (map_nth_error _ _ _ Ha). }
  assert (Nb : nth_error (map (coordinate log) (map fst t)) (S i) = Some (coordinate log xb)).
  { apply map_nth_error. now rewrite (map_nth_error _ _ _ Hb). }
  assert (Hdd : coordinate log xb - coordinate log xa = d) by (eapply even_diff; eauto).
  assert (Hf : find_bin (add_points (map fst t)) (coordinate log x) = (i, coordinate log xa, d)).
  { rewrite Hc. unfold find_bin. cbn [is_regular points].
    rewrite (find_regular_at _ d _ i Hd).
    - now rewrite (nth_of_error _ _ _ 0 Na).
    - lra.
    - rewrite !map_length. now apply error_len in Hb.
    - rewrite (nth_of_error _ _ _ 0 Na), (nth_of_error _ _ _ 0 Nb), !map_length.
      destruct Hx as [Hx|[-> Hx]]; [left|right; now split].
      destruct log; cbn; [|exact Hx]. destruct (Hlog eq_refl) as [Hx0 Hp]. split.
      + destruct (proj1 Hx) as [H|H]; [left; apply ln_increasing; auto|subst; lra].
      + apply ln_increasing; [auto|lra]. }
  split; [|exact Hlc].
  rewrite (evaluate_bin t log x i xa fa xb fb d); auto; try (now rewrite Hc).
  - destruct log; cbn in Hdd; now rewrite Hdd.
  - intro E. exact (proj1 (Hlog E)).
Qed.

(** Any irregular look-up: bins are open below and closed above. *)
Lemma irregular_value t (log : bool) x i xa fa xb fb : increasing t ->
  add_points (map fst t) = mkindexer log false (map (coordinate log) (map fst t)) ->
  (log = true -> forall y, In y (map fst t) -> 0 < y) ->
  nth_error t i = Some (xa, fa) -> nth_error t (S i) = Some (xb, fb) ->
  xa < x <= xb ->
  evaluate1 (add_table t) x =
    Ok (clip (if log then bin_value true (is_zero fa) (is_zero fb) (log_value fa) (log_value fb) (ln x) (ln xa) (ln xb - ln xa)
              else bin_value false false false fa fb x xa (xb - xa))) /\
  coordinate log xa < coordinate log xb.
Proof.
  intros Hs Hc Hlog Ha Hb Hx.
  assert (Ia : In xa (map fst t)). { apply in_map_iff. exists (xa, fa). split; [reflexivity|]. now apply nth_error_In in Ha. }
  assert (Hlc : coordinate log xa < coordinate log xb).
  { destruct log; cbn; [|lra]. apply ln_increasing; [auto|lra]. }
  assert (Na : nth_error (map (coordinate log) (map fst t)) i = Some (coordinate log xa)).
  { apply map_nth_error. now rewrite (map_nth_error _ _ _ Ha). }
  assert (Nb : nth_error (map (coordinate log) (map fst t)) (S i) = Some (coordinate log xb)).
  { apply map_nth_error. now rewrite (map_nth_error _ _ _ Hb). }
  assert (Hx0 : log = true -> 0 < x). { intro E. pose proof (Hlog E xa Ia). lra. }
  assert (Hf : find_bin (add_points (map fst t)) (coordinate log x) = (i, coordinate log xa, coordinate log xb - coordinate log xa)).
  { rewrite Hc. unfold find_bin. cbn [is_regular points].
    rewrite (find_irregular_at _ _ i).
    - now rewrite (nth_of_error _ _ _ 0 Na), (nth_of_error _ _ _ 0 Nb).
    - destruct log; cbn [coordinate]; [apply sorted_ln; auto|]. now rewrite map_id.
    - rewrite !map_length. now apply error_len in Hb.
    - rewrite (nth_of_error _ _ _ 0 Na), (nth_of_error _ _ _ 0 Nb).
      destruct log; cbn; [|exact Hx]. pose proof (Hlog eq_refl xa Ia). split.
      + apply ln_increasing; lra.
      + destruct (proj2 Hx) as [H1|H1]; [left; apply ln_increasing; lra|subst; lra]. }
  split; [|exact Hlc].
  rewrite (evaluate_bin t log x i xa fa xb fb (coordinate log xb - coordinate log xa)); auto; try (now rewrite Hc).
  now destruct log.
Qed.

Lemma split_entry (t : list (R * R)) x f : In (x, f) t -> (2 <= List.length t)%nat ->
  exists i xa fa xb fb, nth_error t i = Some (xa, fa) /\ nth_error t (S i) = Some (xb, fb) /\
    ((x = xa /\ f = fa) \/ (x = xb /\ f = fb /\ (i + 2 = List.length t)%nat)).
Proof.
  intros Hin Hn. apply In_nth_error in Hin as [j Hj]. pose proof (error_len _ _ _ Hj) as Hlen.
  destruct (Nat.eq_dec (S j) (List.length t)) as [E|E].
  - assert (Hpos : (j - 1 < List.length t)%nat) by lia.
    destruct (nth_error t (j - 1)) as [[xa fa]|] eqn:Ha; [|apply nth_error_None in Ha; lia].
    exists (j - 1)%nat, xa, fa, x, f. split; [exact Ha|]. split.
    + replace (S (j - 1)) with j by lia. exact Hj.
    + right. repeat split; lia.
  - destruct (nth_error t (S j)) as [[xb fb]|] eqn:Hb; [|apply nth_error_None in Hb; lia].
    exists j, x, f, xb, fb. repeat split; auto.
Qed.

Lemma split_rest p (t : list (R * R)) x f : In (x, f) t ->
  exists i xa fa, nth_error (p :: t) i = Some (xa, fa) /\ nth_error (p :: t) (S i) = Some (x, f).
Proof.
  intros Hin. apply In_nth_error in Hin as [j Hj]. pose proof (error_len _ _ _ Hj) as Hlen.
  destruct (nth_error (p :: t) j) as [[xa fa]|] eqn:Ha.
  - exists j, xa, fa. split; auto.
  - apply nth_error_None in Ha. cbn in Ha. lia.
Qed.

Lemma map_ln_coordinate xs : map (coordinate true) xs = map ln xs.
Proof. reflexivity. Qed.

Lemma map_id_coordinate xs : map (coordinate false) xs = xs.
Proof. apply map_id. Qed.

(** The entries of a table whose logarithms are evenly spaced and whose values are positive
    are reproduced exactly. *)
Theorem C55_nodes_log_even : forall t, increasing t -> (2 <= List.length t)%nat ->
  (forall x, In x (map fst t) -> 0 < x) -> even (map ln (map fst t)) -> values_positive t ->
  forall x f, In (x, f) t -> evaluate1 (add_table t) x = Ok f.
Proof.
  intros t Hs Hn Hp He Hv x f Hin.
  assert (Hc : add_points (map fst t) = mkindexer true true (map (coordinate true) (map fst t))).
  { apply chosen_log_even; [exact Hs|now rewrite map_length|]. split; [exact Hp|].
    apply even_nearly; [now apply sorted_ln|now rewrite !map_length|exact He]. }
  assert (Hx : 0 < x). { apply Hp. apply in_map_iff. exists (x, f). now split. }
  destruct (split_entry t x f Hin Hn) as (i & xa & fa & xb & fb & Ha & Hb & Hcase).
  pose proof (Hv _ _ (nth_error_In _ _ Ha)) as Pa. pose proof (Hv _ _ (nth_error_In _ _ Hb)) as Pb.
  pose proof (entry_order _ _ _ _ _ _ Hs Ha Hb) as Hlt.
  destruct (regular_value t true x i xa fa xb fb) as [E Hlc]; auto.
  { destruct Hcase as [[-> ->]|(-> & -> & Hlast)]; [left; lra|right; now split]. }
  rewrite E. f_equal. cbn in Hlc. destruct Hcase as [[-> ->]|(-> & -> & Hlast)].
  - rewrite (bin_left true) by auto. apply clip_pos. lra.
  - rewrite (bin_right true) by (auto; lra). apply clip_pos. lra.
Qed.

(** The entries of an evenly spaced table (not also nearly even in the logarithm) with values
    that are not negative are reproduced exactly. *)
Theorem C55_nodes_even : forall t, increasing t -> (2 <= List.length t)%nat ->
  even (map fst t) -> ~ nearly_log_even (map fst t) -> values_nonneg t ->
  forall x f, In (x, f) t -> evaluate1 (add_table t) x = Ok f.
Proof.
  intros t Hs Hn He Hl Hv x f Hin.
  assert (Hc : add_points (map fst t) = mkindexer false true (map (coordinate false) (map fst t))).
  { rewrite map_id_coordinate. apply chosen_even; [exact Hs|now rewrite map_length|exact Hl|].
    apply even_nearly; [exact Hs|now rewrite map_length|exact He]. }
  destruct (split_entry t x f Hin Hn) as (i & xa & fa & xb & fb & Ha & Hb & Hcase).
  pose proof (Hv _ _ (nth_error_In _ _ Ha)) as Pa. pose proof (Hv _ _ (nth_error_In _ _ Hb)) as Pb.
  pose proof (entry_order _ _ _ _ _ _ Hs Ha Hb) as Hlt.
  destruct (regular_value t false x i xa fa xb fb) as [E Hlc]; auto; try discriminate.
  { now rewrite map_id_coordinate. }
  { destruct Hcase as [[-> ->]|(-> & -> & Hlast)]; [left; lra|right; now split]. }
  rewrite E. f_equal. cbn in Hlc. destruct Hcase as [[-> ->]|(-> & -> & Hlast)].
  - rewrite (bin_left false) by (auto; discriminate). apply clip_pos. lra.
  - rewrite (bin_right false) by (auto; lra). apply clip_pos. lra.
Qed.

(** All entries but the first of any other table with values that are not negative are
    reproduced exactly. *)
Theorem C55_nodes_uneven_partial : forall p t, increasing (p :: t) -> t <> [] ->
  ~ nearly_even (map fst (p :: t)) -> ~ nearly_log_even (map fst (p :: t)) -> values_nonneg (p :: t) ->
  forall x f, In (x, f) t -> evaluate1 (add_table (p :: t)) x = Ok f.
Proof.
  intros p t Hs Hn He Hl Hv x f Hin.
  destruct (chosen_uneven (map fst (p :: t))) as (log & Hc & Hlog); auto.
  { cbn. rewrite map_length. destruct t; [easy|cbn; lia]. }
  destruct (split_rest p t x f Hin) as (i & xa & fa & Ha & Hb).
  pose proof (Hv _ _ (nth_error_In _ _ Ha)) as Pa. pose proof (Hv _ _ (nth_error_In _ _ Hb)) as Pb.
  pose proof (entry_order _ _ _ _ _ _ Hs Ha Hb) as Hlt.
  destruct (irregular_value (p :: t) log x i xa fa x f) as [E Hlc]; auto; [lra|].
  rewrite E. f_equal. destruct log; cbn in Hlc.
  - rewrite (bin_right true) by auto. now apply clip_pos.
  - rewrite (bin_right false) by auto. now apply clip_pos.
Qed.

(** Between two neighbours of any table in one of these three classes, with values that are
    not negative, the value returned is between theirs. *)
Theorem C55_between : forall t, increasing t -> values_nonneg t ->
  ((forall x, In x (map fst t) -> 0 < x) /\ even (map ln (map fst t)) \/
   even (map fst t) /\ ~ nearly_log_even (map fst t) \/
   ~ nearly_even (map fst t) /\ ~ nearly_log_even (map fst t)) ->
  forall xa fa xb fb x, neighbours t (xa, fa) (xb, fb) -> xa < x < xb ->
  exists v, evaluate1 (add_table t) x = Ok v /\ in_between v fa fb.
Proof.
  intros t Hs Hv Hcase xa fa xb fb x Hnb Hx. apply neighbours_nth in Hnb as (i & Ha & Hb).
  pose proof (Hv _ _ (nth_error_In _ _ Ha)) as Pa. pose proof (Hv _ _ (nth_error_In _ _ Hb)) as Pb.
  assert (Hn : (2 <= List.length t)%nat) by (apply error_len in Hb; lia).
  assert (Hn' : (2 <= List.length (map fst t))%nat) by now rewrite map_length.
  assert (Ia : In xa (map fst t)). { apply in_map_iff. exists (xa, fa). split; [reflexivity|]. now apply nth_error_In in Ha. }
  assert (Fin : forall log : bool, coordinate log xa < coordinate log xb ->
    coordinate log xa <= coordinate log x <= coordinate log xb ->
    evaluate1 (add_table t) x = Ok (clip (if log then bin_value true (is_zero fa) (is_zero fb) (log_value fa) (log_value fb) (ln x) (ln xa) (ln xb - ln xa)
              else bin_value false false false fa fb x xa (xb - xa))) ->
    exists v, evaluate1 (add_table t) x = Ok v /\ in_between v fa fb).
  { intros log Hlc Hm E. eexists. split; [exact E|].
    assert (B : in_between (if log then bin_value true (is_zero fa) (is_zero fb) (log_value fa) (log_value fb) (ln x) (ln xa) (ln xb - ln xa)
              else bin_value false false false fa fb x xa (xb - xa)) fa fb).
    { destruct log; cbn in Hlc, Hm.
      - exact (bin_between true fa fb (ln x) (ln xa) (ln xb) Pa Pb Hlc Hm).
      - exact (bin_between false fa fb x xa xb Pa Pb Hlc Hm). }
    rewrite clip_pos; [exact B|]. eapply in_between_nonneg; [exact Pa|exact Pb|exact B]. }
  assert (Mon : forall log : bool, (log = true -> 0 < xa) -> coordinate log xa <= coordinate log x <= coordinate log xb).
  { intros log Hl. destruct log; cbn; [|lra]. specialize (Hl eq_refl). split; left; apply ln_increasing; lra. }
  destruct Hcase as [[Hp He]|[[He Hl]|[He Hl]]].
  - assert (Hc : add_points (map fst t) = mkindexer true true (map (coordinate true) (map fst t))).
    { apply chosen_log_even; [exact Hs|exact Hn'|]. split; [exact Hp|].
      apply even_nearly; [now apply sorted_ln|now rewrite !map_length|exact He]. }
    destruct (regular_value t true x i xa fa xb fb) as [E Hlc]; auto.
    + intros _. split; [|exact Hp]. pose proof (Hp xa Ia). lra.
    + left. lra.
    + apply (Fin true); auto.
  - assert (Hc : add_points (map fst t) = mkindexer false true (map (coordinate false) (map fst t))).
    { rewrite map_id_coordinate. apply chosen_even; [exact Hs|exact Hn'|exact Hl|].
      apply even_nearly; [exact Hs|exact Hn'|exact He]. }
    destruct (regular_value t false x i xa fa xb fb) as [E Hlc]; auto; try discriminate.
    + now rewrite map_id_coordinate.
    + left. lra.
    + apply (Fin false); auto. apply Mon. discriminate.
  - destruct (chosen_uneven (map fst t)) as (log & Hc & Hlog); auto.
    destruct (irregular_value t log x i xa fa xb fb) as [E Hlc]; auto; [lra|].
    apply (Fin log); auto.
Qed.

(** ** Examples of the three classes *)

Definition doubling : list (R * R) := [(1, 1); (2, 4); (4, 3)].
Definition level_steps : list (R * R) := [(0, 1); (1, 4); (2, 3)].
Definition uneven_steps : list (R * R) := [(0, 1); (1, 2); (3, 5)].

Ltac sorted_table := unfold increasing; cbn; repeat (constructor; cbn; [repeat constructor; lra || idtac|..]); try (repeat constructor; lra).

Lemma neighbours3 {A} (a b c p q : A) : neighbours [a; b; c] p q <-> (p = a /\ q = b) \/ (p = b /\ q = c).
Proof.
  rewrite neighbours_cons, neighbours_cons. split.
  - intros [H|[H|H]]; auto. now apply no_neighbours1 in H.
  - intros [H|H]; auto.
Qed.

Lemma increasing3 a b c fa fb fc : a < b -> b < c -> increasing [(a, fa); (b, fb); (c, fc)].
Proof. intros. unfold increasing. cbn. repeat constructor; lra. Qed.

Lemma even3 a b c : b - a = c - b -> even [a; b; c].
Proof. intros H. exists (b - a). intros p q Hpq. apply neighbours3 in Hpq as [[-> ->]|[-> ->]]; lra. Qed.

Lemma not_log_even_zero xs : ~ nearly_log_even (0 :: xs).
Proof. intros [H _]. specialize (H 0 (or_introl eq_refl)). lra. Qed.

Lemma not_nearly_even3 : ~ nearly_even [0; 1; 3].
Proof.
  intro H. specialize (H 0 1 (proj2 (neighbours3 0 1 3 0 1) (or_introl (conj eq_refl eq_refl)))).
  cbv zeta in H. cbn [last hd List.length] in H.
  replace (INR (3 - 1)) with 2 in H by (cbn; lra). replace (1 - 0 - (3 - 0) / 2) with (- (1 / 2)) in H by lra.
  rewrite Rabs_Ropp, Rabs_pos_eq in H by lra. lra.
Qed.

Example C55_case_log_even : evaluate1 (add_table doubling) 2 = Ok 4.
Proof.
  apply C55_nodes_log_even.
  - apply increasing3; lra.
  - cbn; lia.
  - cbn. intros x H. repeat destruct H as [<-|H]; try lra.
  - cbn. apply even3. rewrite ln_1. replace 4 with (2 * 2) by lra. rewrite ln_mult by lra. lra.
  - intros x f H. cbn in H. repeat destruct H as [[= <- <-]|H]; try lra.
  - right. now left.
Qed.

Lemma level_between : exists v, evaluate1 (add_table level_steps) (3/2) = Ok v /\ in_between v 4 3.
Proof.
  apply C55_between with (xa := 1) (xb := 2).
  - apply increasing3; lra.
  - intros x f H. cbn in H. repeat destruct H as [[= <- <-]|H]; try lra.
  - right. left. split; [cbn; apply even3; lra|apply not_log_even_zero].
  - apply neighbours3. now right.
  - lra.
Qed.

Example C55_case_even : evaluate1 (add_table level_steps) 0 = Ok 1 /\
  exists v, evaluate1 (add_table level_steps) (3/2) = Ok v /\ 3 <= v <= 4.
Proof.
  split.
  - apply C55_nodes_even; [apply increasing3; lra|cbn; lia|cbn; apply even3; lra|apply not_log_even_zero|..].
    + intros x f H. cbn in H. repeat destruct H as [[= <- <-]|H]; try lra.
    + now left.
  - destruct level_between as (v & E & H). exists v. split; [exact E|].
    unfold in_between in H. rewrite Rmin_right, Rmax_left in H by lra. exact H.
Qed.

Example C55_case_uneven : evaluate1 (add_table uneven_steps) 3 = Ok 5.
Proof.
  apply C55_nodes_uneven_partial; try discriminate.
  - apply increasing3; lra.
  - exact not_nearly_even3.
  - apply not_log_even_zero.
  - intros x f H. cbn in H. repeat destruct H as [[= <- <-]|H]; try lra.
  - right. now left.
Qed.

(** ** What fails *)

Lemma add_points_uneven : add_points [0; 1; 3] = mkindexer false false [0; 1; 3].
Proof.
  destruct (chosen_uneven [0; 1; 3]) as ([] & Hc & Hl).
  - repeat constructor; lra.
  - cbn; lia.
  - apply not_log_even_zero.
  - exact not_nearly_even3.
  - exfalso. specialize (Hl eq_refl 0 (or_introl eq_refl)). lra.
  - rewrite Hc. reflexivity.
Qed.

(** The first entry of an unevenly spaced table is not reproduced: the look-up extrapolates
    from the last bin. *)
Theorem C55_first_refuted : exists t x f, increasing t /\ (2 <= List.length t)%nat /\ values_nonneg t /\
  In (x, f) t /\ exists v, evaluate1 (add_table t) x = Ok v /\ v <> f.
Proof.
  exists uneven_steps, 0, 1. split; [apply increasing3; lra|]. split; [cbn; lia|].
  split. { intros x f H. cbn in H. repeat destruct H as [[= <- <-]|H]; try lra. }
  split; [now left|]. exists (1/2). split; [|lra].
  unfold evaluate1, add_table. rewrite by_abscissa_id by (apply increasing3; lra).
  change (map fst uneven_steps) with [0; 1; 3]. rewrite add_points_uneven. cbn [is_log index_of func mask points find_bin is_regular].
  unfold find_bin. cbn [is_regular points]. unfold find_irregular. cbn [lower_bound].
  destruct (Rlt_dec 0 0); [lra|]. cbn. f_equal. rewrite clip_pos; lra.
Qed.

(** A table whose spacing is even only to within the tolerance is treated as even, and an
    entry is not reproduced. *)
Theorem C55_nearly_even_refuted : exists t x f, increasing t /\ (2 <= List.length t)%nat /\ values_nonneg t /\
  In (x, f) t /\ exists v, evaluate1 (add_table t) x = Ok v /\ v <> f.
Proof.
  set (b := 1 + / 20000). set (t := [(0, 0); (b, 1); (2, 0)]).
  assert (Hb : b = 1 + / 20000) by reflexivity.
  assert (Ht : increasing t) by (apply increasing3; lra).
  exists t, b, 1. split; [exact Ht|]. split; [cbn; lia|].
  split. { intros x f H. cbn in H. repeat destruct H as [[= <- <-]|H]; try lra. }
  split; [right; now left|]. exists (1 - / 20000). split; [|lra].
  assert (Hc : add_points (map fst t) = mkindexer false true [0; b; 2]).
  { apply chosen_even; [exact Ht|cbn; lia|apply not_log_even_zero|].
    intros p q Hpq. cbv zeta. change (map fst t) with [0; b; 2] in *.
    cbn [last hd List.length]. replace (INR (3 - 1)) with 2 by (cbn; lra).
    apply neighbours3 in Hpq as [[-> ->]|[-> ->]]; apply Rabs_def1; lra. }
  unfold evaluate1, add_table. rewrite by_abscissa_id by exact Ht. rewrite Hc.
  cbn [is_log index_of func mask points]. unfold find_bin. cbn [is_regular points].
  assert (Hf : find_regular [0; b; 2] b = (1%nat, 1, 1)).
  { unfold find_regular, mean_step, extent, back, front. cbn [last nth List.length].
    replace (INR (3 - 1)) with 2 by (cbn; lra).
    replace ((b - 0) / (2 - 0) * 2) with b by field.
    rewrite (floor_at b 1) by (cbn; lra). change (if (1 <? 0)%Z then 0%nat else if (Z.of_nat 3 - 1 <=? 1)%Z then (3 - 2)%nat else Z.to_nat 1) with 1%nat.
    cbv zeta. change (INR 1) with 1. replace (0 + 1 * ((2 - 0) / 2)) with 1 by lra. replace ((2 - 0) / 2) with 1 by lra. reflexivity. }
  rewrite Hf. cbn. f_equal. rewrite clip_pos; lra.
Qed.

(** A negative entry is not reproduced: results are cut off at zero. *)
Theorem C55_negative_refuted : exists t x f, increasing t /\ (2 <= List.length t)%nat /\ even (map fst t) /\
  In (x, f) t /\ exists v, evaluate1 (add_table t) x = Ok v /\ v <> f.
Proof.
  set (t := [(0, -1); (1, 1); (2, 1)]).
  assert (Ht : increasing t) by (apply increasing3; lra).
  assert (Hev : even [0; 1; 2]) by (apply even3; lra).
  exists t, 0, (-1). split; [exact Ht|]. split; [cbn; lia|]. split; [exact Hev|].
  split; [now left|]. exists 0. split; [|lra].
  assert (Hc : add_points (map fst t) = mkindexer false true (map (coordinate false) (map fst t))).
  { rewrite map_id_coordinate. apply chosen_even; [exact Ht|cbn; lia|apply not_log_even_zero|].
    apply even_nearly; [exact Ht|cbn; lia|exact Hev]. }
  destruct (regular_value t false 0 0 0 (-1) 1 1) as [E _]; auto; try discriminate.
  - cbn; lia.
  - left. lra.
  - rewrite E. f_equal. unfold bin_value, clip. destruct Rlt_dec as [_|n]; [reflexivity|].
    exfalso. apply n. field_simplify; lra.
Qed.

Definition from_zero : list (R * R) := [(1, 0); (2, 1); (4, 1)].

Lemma from_zero_log : increasing from_zero /\ even (map ln (map fst from_zero)) /\
  (forall x, In x (map fst from_zero) -> 0 < x) /\
  add_points (map fst from_zero) = mkindexer true true (map (coordinate true) (map fst from_zero)).
Proof.
  assert (Ht : increasing from_zero) by (apply increasing3; lra).
  assert (Hev : even (map ln (map fst from_zero))).
  { cbn. apply even3. rewrite ln_1. replace 4 with (2 * 2) by lra. rewrite ln_mult by lra. lra. }
  assert (Hp : forall x, In x (map fst from_zero) -> 0 < x).
  { cbn. intros x H. repeat destruct H as [<-|H]; try lra. }
  split; [exact Ht|]. split; [exact Hev|]. split; [exact Hp|].
  apply chosen_log_even; [exact Ht|cbn; lia|]. split; [exact Hp|].
  apply even_nearly; [now apply sorted_ln|cbn; lia|exact Hev].
Qed.

(** A zero entry of a table that is even in the logarithm is not reproduced. *)
Theorem C55_zero_refuted : exists t x f, increasing t /\ (2 <= List.length t)%nat /\ values_nonneg t /\
  even (map ln (map fst t)) /\
  In (x, f) t /\ exists v, evaluate1 (add_table t) x = Ok v /\ v <> f.
Proof.
  destruct from_zero_log as (Ht & Hev & Hp & Hc).
  exists from_zero, 1, 0. split; [exact Ht|]. split; [cbn; lia|].
  split. { intros x f H. cbn in H. repeat destruct H as [[= <- <-]|H]; try lra. }
  split; [exact Hev|]. split; [now left|]. exists (1/2). split; [|lra].
  destruct (regular_value from_zero true 1 0 1 0 2 1) as [E _]; auto.
  - cbn; lia.
  - intros _. split; [lra|exact Hp].
  - left. lra.
  - rewrite E. f_equal. unfold is_zero, log_value, bin_value.
    destruct (Rle_dec 0 0); [|lra]. destruct (Rle_dec 1 0); [lra|].
    destruct (Rlt_dec 0 0); [lra|]. destruct (Rlt_dec 0 1); [|lra].
    rewrite ln_1, exp_0. replace (0 - 0 - (ln 2 - 0)) with (- ln 2) by ring.
    rewrite exp_Ropp, exp_ln by lra. rewrite clip_pos; lra.
Qed.

(** A copy of an interpolator in logarithmic mode has lost its mask of zeroes, although the
    original answers. *)
Theorem C55_copy_refuted : exists t x v, increasing t /\ (2 <= List.length t)%nat /\ values_nonneg t /\
  In x (map fst t) /\
  evaluate1 (add_table t) x = Ok v /\ evaluate1 (copy_interp (add_table t)) x = UB.
Proof.
  destruct from_zero_log as (Ht & Hev & Hp & Hc).
  exists from_zero, 4, 1. split; [exact Ht|]. split; [cbn; lia|].
  split. { intros x f H. cbn in H. repeat destruct H as [[= <- <-]|H]; try lra. }
  split; [cbn; auto|]. split.
  - destruct (regular_value from_zero true 4 1 2 1 4 1) as [E Hlc]; auto.
    + cbn; lia.
    + intros _. split; [lra|exact Hp].
    + rewrite E. cbn in Hlc. f_equal. rewrite (bin_right true) by (auto; lra). apply clip_pos. lra.
  - unfold evaluate1, copy_interp, add_table. rewrite by_abscissa_id by exact Ht.
    rewrite Hc. cbn [is_log]. cbn [index_of func mask points is_log].
    destruct (Rlt_dec 0 4); [|lra].
    destruct (find_bin _ _) as [[i0 xa] dl]. rewrite !map_length.
    destruct (nth_error _ _) eqn:E1.
    + destruct (nth_error (map _ from_zero) (S _)) eqn:E2; [reflexivity|].
      exfalso. apply nth_error_None in E2. cbn in E2. destruct i0 as [|[|[|i0]]]; cbn in E2; lia.
    + exfalso. apply nth_error_None in E1. cbn in E1. destruct i0 as [|[|[|i0]]]; cbn in E1; lia.
Qed.

Lemma assign_in p l : increasing l -> increasing (assign p l) /\
  forall x f, In (x, f) (assign p l) <-> (x, f) = p \/ (x <> fst p /\ In (x, f) l).
Proof.
  unfold increasing. induction l as [|q t IH]; intros H.
  - cbn. split; [repeat constructor|]. intros x f. split; [intros [E|[]]; auto|intros [E|[_ []]]; auto].
  - cbn [map] in H. apply StronglySorted_inv in H as [H1 H2]. rewrite Forall_forall in H2. cbn [assign].
    assert (B : forall x f, In (x, f) t -> fst q < x) by (intros x f I; apply H2, (in_map fst _ _ I)).
    destruct (Rlt_dec (fst p) (fst q)) as [L|L]; [|destruct (Rlt_dec (fst q) (fst p)) as [M|M]].
    + split.
      * cbn [map]. constructor; [constructor; [exact H1|apply Forall_forall, H2]|]. constructor; [exact L|]. apply Forall_forall. intros y I. specialize (H2 y I). lra.
      * intros x f. cbn [In]. split.
        -- intros [E|[E|I]]; [auto| |]; right; (split; [|auto]).
           ++ subst q. cbn in L. lra.
           ++ specialize (B x f I). lra.
        -- intros [E|[N I]]; auto.
    + destruct (IH H1) as [S1 S2]. split.
      * cbn [map]. constructor; [exact S1|]. apply Forall_forall. intros y I. apply in_map_iff in I. destruct I as [[x f] [<- I]]. cbn.
        apply S2 in I. destruct I as [<-|[_ I]]; [exact M|apply (B x f I)].
      * intros x f. cbn [In]. rewrite S2. split.
        -- intros [E|[E|[N I]]]; auto. right. split; [|auto]. subst q. cbn in M. lra.
        -- intros [E|[N [E|I]]]; auto.
    + assert (E : fst p = fst q) by lra. split.
      * cbn [map]. constructor; [exact H1|]. rewrite E. apply Forall_forall, H2.
      * intros x f. cbn [In]. split.
        -- intros [X|I]; [auto|]. right. split; [|auto]. specialize (B x f I). lra.
        -- intros [X|[N [X|I]]]; auto. subst q. cbn in E. congruence.
Qed.

Lemma by_abscissa_spec t : increasing (by_abscissa t) /\ forall x f, In (x, f) (by_abscissa t) <-> last_given t x f.
Proof.
  induction t as [|p t IH] using rev_ind.
  - split; [constructor|]. intros x f. split; [intros []|]. intros [b [a [E _]]]. destruct b; discriminate.
  - destruct IH as [S I]. unfold by_abscissa in *. rewrite fold_left_app. cbn [fold_left].
    destruct (assign_in p _ S) as [S' I']. split; [exact S'|]. intros x f. rewrite I', I. split.
    + intros [<-|[N [b [a [-> G]]]]].
      * exists t, []. split; [reflexivity|]. intros g [].
      * exists b, (a ++ [p]). split; [rewrite <- app_assoc; reflexivity|]. intros g J. apply in_app_or in J. destruct J as [J|[J|[]]]; [apply (G g J)|subst p; cbn in N; congruence].
    + intros [b [a [E G]]]. destruct a as [|c a] using rev_ind.
      * apply app_inj_tail in E. destruct E as [_ <-]. auto.
      * right. clear IHa. rewrite app_comm_cons, app_assoc in E. apply app_inj_tail in E. destruct E as [-> <-]. split.
        -- intros X. apply (G (snd p)). apply in_or_app. right. left. subst x. destruct p; reflexivity.
        -- exists b, a. split; [reflexivity|]. intros g J. apply (G g). apply in_or_app. auto.
Qed.

(** Whatever the order of the table, outside the logarithmic mode the look-up is that of the
    table sorted by abscissa in which a repeated abscissa has the last value given. *)
Theorem C55_repeated : forall t, exists s, increasing s /\ (forall x f, In (x, f) s <-> last_given t x f) /\
  (is_log (index_of (add_table t)) = false -> forall x, evaluate1 (add_table t) x = evaluate1 (add_table s) x) /\
  (is_log (index_of (add_table t)) = is_log (index_of (add_table s))).
Proof.
  intros t. exists (by_abscissa t). destruct (by_abscissa_spec t) as [S I]. split; [exact S|]. split; [exact I|].
  unfold add_table. rewrite (by_abscissa_id _ S). destruct (is_log (add_points (map fst (by_abscissa t)))) eqn:L; cbn [index_of].
  - split; [|reflexivity]. rewrite L. discriminate.
  - split; reflexivity.
Qed.
Print Assumptions C55_repeated.

(** In logarithmic mode the marks of zero values stay in the order of the table: an unsorted
    table gives another function than the sorted one. *)
Theorem C55_order_refuted : exists t s x v w, increasing s /\ Permutation t s /\ values_nonneg t /\ In (x, v) t /\
  evaluate1 (add_table s) x = Ok v /\ evaluate1 (add_table t) x = Ok w /\ v <> w.
Proof.
  destruct from_zero_log as (Ht & Hev & Hp & Hc).
  exists [(2, 1); (1, 0); (4, 1)], from_zero, 2, 1, (1 / 2). split; [exact Ht|]. split; [apply perm_swap|].
  split. { intros x f H. cbn in H. repeat destruct H as [[= <- <-]|H]; try lra. }
  split; [cbn; auto|].
  assert (B : by_abscissa [(2, 1); (1, 0); (4, 1)] = from_zero).
  { unfold by_abscissa, from_zero. cbn [fold_left assign fst]. destruct (Rlt_dec 1 2); [|lra]. cbn [assign fst].
    destruct (Rlt_dec 4 1); [lra|]. destruct (Rlt_dec 1 4); [|lra]. destruct (Rlt_dec 4 2); [lra|]. destruct (Rlt_dec 2 4); [|lra]. reflexivity. }
  assert (L2 : 0 < ln 2) by (rewrite <- ln_1; apply ln_increasing; lra).
  assert (L4 : ln 4 = 2 * ln 2) by (replace 4 with (2 * 2) by lra; rewrite ln_mult by lra; lra).
  assert (F : find_regular (map ln (map fst from_zero)) (ln 2) = (1%nat, ln 2, ln 2)).
  { rewrite (find_regular_at _ (ln 2) (ln 2) 1); [reflexivity| |lra|cbn; lia|].
    - intros a b N. apply neighbours_nth in N. destruct N as [i [A C]]. destruct i as [|[|[|i]]]; cbn in A, C; try discriminate.
      + injection A as <-. injection C as <-. rewrite ln_1. lra.
      + injection A as <-. injection C as <-. lra.
    - left. cbn. lra. }
  split; [|split; [|lra]].
  - destruct (regular_value from_zero true 2 1 2 1 4 1) as [E Hlc]; auto.
    + cbn; lia.
    + intros _. split; [lra|exact Hp].
    + left. lra.
    + rewrite E. f_equal. unfold is_zero, log_value, bin_value. destruct (Rle_dec 1 0); [lra|]. destruct (Rlt_dec 0 1); [|lra].
      rewrite ln_1. replace (0 + (0 - 0) * (ln 2 - ln 2) / (ln 4 - ln 2)) with 0 by (field; lra). rewrite exp_0. apply clip_pos. lra.
  - unfold evaluate1, add_table. rewrite B, Hc. cbn [is_log index_of func mask points]. destruct (Rlt_dec 0 2); [|lra].
    unfold find_bin. cbn [is_regular points]. change (map (coordinate true)) with (map ln). rewrite F. unfold is_zero, log_value. cbn.
    destruct (Rle_dec 0 0); [|lra]. destruct (Rle_dec 1 0); [lra|]. destruct (Rlt_dec 0 1); [|lra]. f_equal. rewrite ln_1, exp_0.
    replace (ln 2 - ln 2 - ln 2) with (- ln 2) by ring. rewrite exp_Ropp, exp_ln by lra. rewrite clip_pos; lra.
Qed.
Print Assumptions C55_order_refuted.

(** A repeated abscissa out of order. *)
Example C55_repeated_case : last_given [(2, 1); (1, 0); (2, 3)] 2 3.
Proof. exists [(2, 1); (1, 0)], []. split; [reflexivity|]. intros g []. Qed.

(** * C56: trapezoid integration over a sub-range *)

Lemma ascending_nth xs : StronglySorted Rle xs -> forall i j, (i <= j < List.length xs)%nat -> nth i xs 0 <= nth j xs 0.
Proof.
  induction xs as [|a t IH]; intros H i j Hij; cbn in Hij; [lia|].
  apply StronglySorted_inv in H as [H1 H2]. rewrite Forall_forall in H2.
  destruct j as [|j].
  - replace i with O by lia. cbn. lra.
  - destruct i as [|i]; cbn.
    + apply H2, nth_In. lia.
    + apply IH; auto; lia.
Qed.

(** The result is the integral, over the range, of any function that follows the chords
    inside the intervals and vanishes outside the table.  Abscissae may repeat. *)
Theorem C56_integral : forall xs ys a b f, (2 <= List.length xs)%nat -> List.length ys = List.length xs ->
  StronglySorted Rle xs -> a <= b -> piecewise_linear (combine xs ys) f ->
  exists v, trapezoid_between xs ys a b = Ok v /\ is_RInt f a b v.
Proof.
  intros xs ys a b f Hn Hy Hs Hab Hf. pose proof (ascending_nth xs Hs) as Ho.
  eexists. split; [apply code_sum; auto|]. apply sum_integral; auto. lia.
Qed.

(** Adjacent sub-ranges add up. *)
Theorem C56_additive : forall xs ys a b c, (2 <= List.length xs)%nat -> List.length ys = List.length xs ->
  StronglySorted Rle xs -> a <= b <= c ->
  exists u v, trapezoid_between xs ys a b = Ok u /\ trapezoid_between xs ys b c = Ok v /\
    trapezoid_between xs ys a c = Ok (u + v).
Proof.
  intros xs ys a b c Hn Hy Hs Hab.
  assert (Hf : piecewise_linear (combine xs ys) (chords (combine xs ys))).
  { apply chords_linear. now rewrite map_fst_combine. }
  destruct (C56_integral xs ys a b _ Hn Hy Hs ltac:(lra) Hf) as (u & Eu & Iu).
  destruct (C56_integral xs ys b c _ Hn Hy Hs ltac:(lra) Hf) as (v & Ev & Iv).
  destruct (C56_integral xs ys a c _ Hn Hy Hs ltac:(lra) Hf) as (w & Ew & Iw).
  exists u, v. split; [exact Eu|]. split; [exact Ev|]. rewrite Ew. f_equal.
  pose proof (is_RInt_Chasles _ a b c u v Iu Iv) as Iuv.
  pose proof (is_RInt_unique (V := R_CompleteNormedModule) _ _ _ _ Iw) as E1.
  pose proof (is_RInt_unique (V := R_CompleteNormedModule) _ _ _ _ Iuv) as E2. rewrite <- E1. exact E2.
Qed.

(** Over a range that contains the table the result is that of the unbounded integration. *)
Theorem C56_whole : forall xs ys a b, (2 <= List.length xs)%nat -> List.length ys = List.length xs ->
  StronglySorted Rle xs -> (forall x, In x xs -> a <= x <= b) ->
  trapezoid_between xs ys a b = trapezoid xs ys.
Proof.
  intros xs ys a b Hn Hy Hs Hr. pose proof (ascending_nth xs Hs) as Ho.
  assert (Hin : forall i, (i < List.length xs)%nat -> a <= nth i xs 0 <= b) by (intros; apply Hr, nth_In; auto).
  rewrite code_sum; auto.
  2:{ pose proof (Hin O ltac:(lia)). lra. }
  unfold trapezoid. rewrite Hy, Nat.eqb_refl. f_equal. rewrite loop_interior by auto. symmetry.
  apply interior_sum; auto. intros j Hj. split; [lia|]. split; apply Hin; lia.
Qed.

(** Without two nodes there is nothing to integrate, and lists of different lengths are
    refused. *)
Theorem C56_degenerate : forall xs ys a b,
  (List.length xs <> List.length ys -> trapezoid_between xs ys a b = Throw /\ trapezoid xs ys = Throw) /\
  (List.length xs = List.length ys -> (List.length xs < 2)%nat -> trapezoid_between xs ys a b = Ok 0).
Proof.
  intros xs ys a b. unfold trapezoid_between, trapezoid. split.
  - intro H. apply Nat.eqb_neq in H. rewrite H. now split.
  - intros H1 H2. rewrite H1, Nat.eqb_refl. cbn [negb]. cbv zeta. destruct (Nat.ltb_spec (List.length ys) 2); [reflexivity|lia].
Qed.

Lemma tent_linear : piecewise_linear (combine [0; 1; 3] [0; 2; 0])
  (fun t => if Rle_dec t 0 then 0 else if Rle_dec t 1 then 2 * t else if Rle_dec t 3 then 3 - t else 0).
Proof.
  cbn [combine]. split; [|split].
  - intros p q H t Ht. apply neighbours3 in H as [[-> ->]|[-> ->]]; cbn [fst snd] in *;
      repeat destruct Rle_dec; try lra; field_simplify; lra.
  - intros t H. specialize (H (0, 0) (or_introl eq_refl)). cbn in H. repeat destruct Rle_dec; lra.
  - intros t H. specialize (H (3, 0) (or_intror (or_intror (or_introl eq_refl)))). cbn in H. repeat destruct Rle_dec; lra.
Qed.

Example C56_case : exists v, trapezoid_between [0; 1; 3] [0; 2; 0] (1/2) 2 = Ok v /\
  is_RInt (fun t => if Rle_dec t 0 then 0 else if Rle_dec t 1 then 2 * t else if Rle_dec t 3 then 3 - t else 0) (1/2) 2 v.
Proof.
  apply C56_integral; [cbn; lia|reflexivity|repeat constructor; lra|lra|exact tent_linear].
Qed.

Example C56_case_value : trapezoid_between [0; 1; 3] [0; 2; 0] (1/2) 2 = Ok (9/4).
Proof.
  unfold trapezoid_between. cbn [List.length Nat.eqb negb upper_bound lower_bound].
  destruct (Rlt_dec (1/2) 0); [lra|]. destruct (Rlt_dec (1/2) 1); [|lra].
  destruct (Rlt_dec 0 2); [|lra]. destruct (Rlt_dec 1 2); [|lra]. destruct (Rlt_dec 3 2); [lra|].
  cbn. destruct (Rle_dec (1/2) 0); [lra|]. destruct (Rge_dec 2 3); [lra|]. unfold lerp. cbn.
  rewrite Rmax_right, Rmin_right by lra. f_equal. field.
Qed.

Print Assumptions C55_nodes_log_even.
Print Assumptions C55_nodes_even.
Print Assumptions C55_nodes_uneven_partial.
Print Assumptions C55_between.
Print Assumptions C55_copy_refuted.
Print Assumptions C56_integral.
Print Assumptions C56_additive.
Print Assumptions C56_whole.
