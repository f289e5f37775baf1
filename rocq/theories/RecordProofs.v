(** Lemmas about primary particle records. *)
From Coq Require Import Reals List Bool ZArith Lra Lia Psatz.
From Verif Require Import VectorModel RecordModel RecordSpec.
Import ListNotations.
Open Scope R_scope.

Lemma scalar_eqb_spec a b : scalar_eqb a b = true <-> a = b.
Proof. destruct a, b; cbn; split; congruence. Qed.
Lemma place_eqb_spec a b : place_eqb a b = true <-> a = b.
Proof. destruct a, b; cbn; split; congruence. Qed.
Lemma scalar_eqb_refl a : scalar_eqb a a = true. Proof. destruct a; reflexivity. Qed.
Lemma place_eqb_refl a : place_eqb a a = true. Proof. destruct a; reflexivity. Qed.
Lemma scalar_eqb_sym a b : scalar_eqb a b = scalar_eqb b a. Proof. destruct a, b; reflexivity. Qed.
Lemma place_eqb_sym a b : place_eqb a b = place_eqb b a. Proof. destruct a, b; reflexivity. Qed.

(** ** Reading leaves what was set *)
Record same_sets (r r' : primary) : Prop := {
  ss_id : p_id r' = p_id r;
  ss_type : p_type r' = p_type r;
  ss_num : forall n, s_set (p_num r' n) = s_set (p_num r n) /\ (s_set (p_num r n) = true -> p_num r' n = p_num r n);
  ss_vec : forall n, s_set (p_vec r' n) = s_set (p_vec r n) /\ (s_set (p_vec r n) = true -> p_vec r' n = p_vec r n);
  ss_start : p_start r' = p_start r;
  ss_helicity : p_helicity r' = p_helicity r }.

Lemma same_sets_refl r : same_sets r r.
Proof. constructor; intros; auto. Qed.
Lemma same_sets_trans a b c : same_sets a b -> same_sets b c -> same_sets a c.
Proof.
  intros [A1 A2 A3 A4 A5 A6] [B1 B2 B3 B4 B5 B6]. constructor; try congruence; intros n.
  - destruct (A3 n) as [P Q], (B3 n) as [P' Q']. split; [congruence|]. intros H.
    rewrite Q', Q; congruence.
  - destruct (A4 n) as [P Q], (B4 n) as [P' Q']. split; [congruence|]. intros H.
    rewrite Q', Q; congruence.
Qed.

Lemma same_put_num r n v : has r n = false -> same_sets r (put_num r n (mkslot false v)).
Proof.
  intros H. constructor; try reflexivity; intros k; cbn; [|auto].
  destruct (scalar_eqb k n) eqn:E; [|auto]. apply scalar_eqb_spec in E. subst k. cbn.
  unfold has in H. rewrite H. split; [reflexivity|discriminate].
Qed.
Lemma same_put_vec r n v : hasv r n = false -> same_sets r (put_vec r n (mkslot false v)).
Proof.
  intros H. constructor; try reflexivity; intros k; cbn; [auto|].
  destruct (place_eqb k n) eqn:E; [|auto]. apply place_eqb_spec in E. subst k. cbn.
  unfold hasv in H. rewrite H. split; [reflexivity|discriminate].
Qed.

Lemma update_num_same r n r' b : update_num r n = Some (r', b) -> same_sets r r'.
Proof.
  unfold update_num, store. destruct (s_set (p_num r n)) eqn:E.
  - intros H. injection H as <- <-. apply same_sets_refl.
  - destruct (num_from r n); intros H; try discriminate; injection H as <- <-;
      try apply same_sets_refl; apply same_put_num; exact E.
Qed.
Lemma update_vec_same r n r' b : update_vec r n = Some (r', b) -> same_sets r r'.
Proof.
  unfold update_vec, store. destruct (s_set (p_vec r n)) eqn:E.
  - intros H. injection H as <- <-. apply same_sets_refl.
  - destruct (vec_from r n); intros H; try discriminate; injection H as <- <-;
      try apply same_sets_refl; apply same_put_vec; exact E.
Qed.

Lemma get_num_same r n : same_sets r (fst (get_num r n)).
Proof.
  unfold get_num, answer. destruct (update_num r n) as [[r' []]|] eqn:E; cbn;
    try (exact (update_num_same _ _ _ _ E)); apply same_sets_refl.
Qed.
Lemma get_vec_same r n : same_sets r (fst (get_vec r n)).
Proof.
  unfold get_vec, answer. destruct (update_vec r n) as [[r' []]|] eqn:E; cbn;
    try (exact (update_vec_same _ _ _ _ E)); apply same_sets_refl.
Qed.
Lemma get_four_same r : same_sets r (fst (get_four r)).
Proof.
  unfold get_four. destruct (hasv r Momentum && has r Energy); [apply same_sets_refl|].
  destruct (update_vec r Momentum) as [[r1 []]|] eqn:E; cbn;
    try (exact (update_vec_same _ _ _ _ E)); try apply same_sets_refl.
  destruct (update_num r1 Energy) as [[r2 []]|] eqn:F; cbn;
    try (exact (update_vec_same _ _ _ _ E));
    exact (same_sets_trans _ _ _ (update_vec_same _ _ _ _ E) (update_num_same _ _ _ _ F)).
Qed.
Lemma get_time_same r : same_sets r (fst (get_time r)).
Proof.
  unfold get_time. destruct (has r Time) eqn:T; [apply same_sets_refl|].
  pose proof (get_vec_same r Initial) as S1. destruct (get_vec r Initial) as [r1 o]. cbn in S1.
  pose proof (get_vec_same r1 Vertex) as S2. destruct (get_vec r1 Vertex) as [r2 x]. cbn in S2.
  pose proof (get_num_same r2 Energy) as S3. destruct (get_num r2 Energy) as [r3 e]. cbn in S3.
  pose proof (get_num_same r3 Mass) as S4. destruct (get_num r3 Mass) as [r4 m]. cbn in S4.
  pose proof (same_sets_trans _ _ _ S1 S2) as S12.
  pose proof (same_sets_trans _ _ _ S12 S3) as S13.
  pose proof (same_sets_trans _ _ _ S13 S4) as S14.
  assert (has r4 Time = false) as T4.
  { unfold has in *. rewrite (proj1 (ss_num _ _ S14 Time)). exact T. }
  destruct o; cbn; try assumption; destruct x; cbn; try assumption;
  destruct e; cbn; try assumption; destruct m; cbn; try assumption;
  exact (same_sets_trans _ _ _ S14 (same_put_num _ _ _ T4)).
Qed.
Lemma read_num_same r n : same_sets r (fst (read_num r n)).
Proof. destruct n; try apply get_num_same. apply get_time_same. Qed.

(** ** What was set *)
Lemma given_snoc {A} (says : call -> option A) l o :
  given says (l ++ [o]) = match says o with Some v => Some v | None => given says l end.
Proof. unfold given. rewrite fold_left_app. reflexivity. Qed.

Lemma calls_snoc l o r : calls (l ++ [o]) r = match calls l r with Some r' => call_step r' o | None => None end.
Proof.
  revert r. induction l as [|x l IH]; intros r; cbn; [destruct (call_step r o); reflexivity|].
  destruct (call_step r x); [apply IH|reflexivity].
Qed.

Definition holds {A} (k : option A) (s : slot A) : Prop :=
  match k with Some v => s = mkslot true (Got v) | None => s_set s = false end.

Record tells (id type : Z) (l : list call) (r : primary) : Prop := {
  tl_id : p_id r = id;
  tl_type : p_type r = type;
  tl_num : forall n, holds (known id type l n) (p_num r n);
  tl_vec : forall n, holds (knownv id type l n) (p_vec r n);
  tl_start : p_start r = match given says_start l with Some t => t | None => 0 end }.

Lemma holds_same_num id type l r r' :
  same_sets r r' -> tells id type l r -> tells id type l r'.
Proof.
  intros [S1 S2 S3 S4 S5 S6] [T1 T2 T3 T4 T5]. constructor; try congruence; intros n.
  - specialize (T3 n). destruct (S3 n) as [P Q]. unfold holds in *.
    destruct (known id type l n); [rewrite Q; [exact T3|rewrite T3; reflexivity]|congruence].
  - specialize (T4 n). destruct (S4 n) as [P Q]. unfold holds in *.
    destruct (knownv id type l n); [rewrite Q; [exact T4|rewrite T4; reflexivity]|congruence].
Qed.

Lemma defined_same {A} (x : primary * got A) r' : defined x = Some r' -> r' = fst x.
Proof. unfold defined. destruct (snd x); congruence. Qed.

Lemma reads_says o id type : reads o = true ->
  (forall n, says_num id type n o = None) /\ (forall n, says_vec id type n o = None) /\ says_start o = None.
Proof. destruct o; cbn; try discriminate; auto. Qed.

Lemma tells_step id type l r o r' :
  tells id type l r -> call_step r o = Some r' -> tells id type (l ++ [o]) r'.
Proof.
  intros T H.
  destruct (reads o) eqn:Rd.
  - assert (same_sets r r') as S.
    { destruct o; try discriminate; cbn in H; apply defined_same in H; subst r';
      [apply read_num_same|apply get_vec_same|apply get_four_same]. }
    destruct (holds_same_num _ _ _ _ _ S T) as [T1 T2 T3 T4 T5].
    destruct (reads_says o id type Rd) as (N & V & W).
    constructor; auto; intros; unfold known, knownv; rewrite given_snoc;
      [rewrite N; apply T3|rewrite V; apply T4|rewrite W; exact T5].
  - destruct T as [T1 T2 T3 T4 T5].
    destruct o as [k v|k v|e p|h|t|a| | |]; cbn in H; try discriminate.
    + injection H as <-. constructor; auto; intros; unfold known, knownv; rewrite given_snoc; cbn; auto.
      * rewrite (scalar_eqb_sym n k). destruct (scalar_eqb k n); [reflexivity|apply T3].
      * apply T4.
    + injection H as <-. constructor; auto; intros; unfold known, knownv; rewrite given_snoc; cbn; auto.
      * apply T3.
      * rewrite (place_eqb_sym n k). destruct (place_eqb k n); [reflexivity|apply T4].
    + injection H as <-. constructor; auto; intros; unfold known, knownv; rewrite given_snoc; cbn; auto.
      * destruct n; cbn; try reflexivity; apply T3.
      * destruct n; cbn; try reflexivity; apply T4.
    + injection H as <-. constructor; auto; intros; unfold known, knownv; rewrite given_snoc; cbn; auto; [apply T3|apply T4].
    + injection H as <-. constructor; auto; intros; unfold known, knownv; rewrite given_snoc; cbn; auto; [apply T3|apply T4].
    + unfold set_particle in H. rewrite T1, T2 in H.
      destruct (Z.eqb (a_id a) id) eqn:E1; cbn in H.
      * destruct (Z.eqb (a_type a) type) eqn:E2; cbn in H.
        -- injection H as <-. constructor; auto; intros; unfold known, knownv; rewrite given_snoc; cbn; rewrite ?E1, ?E2; cbn; auto.
           ++ destruct n; cbn; try reflexivity; apply T3.
           ++ destruct n; cbn; try reflexivity; apply T4.
        -- injection H as <-. constructor; auto; intros; unfold known, knownv; rewrite given_snoc; cbn; rewrite ?E1, ?E2; cbn; auto; [apply T3|apply T4].
      * injection H as <-. constructor; auto; intros; unfold known, knownv; rewrite given_snoc; cbn; rewrite ?E1; cbn; auto; [apply T3|apply T4].
Qed.

Lemma tells_calls id type l r : calls l (fresh id type) = Some r -> tells id type l r.
Proof.
  revert r. induction l as [|o l IH] using rev_ind; intros r H.
  - cbn in H. injection H as <-. constructor; try reflexivity; intros n; reflexivity.
  - rewrite calls_snoc in H. destruct (calls l (fresh id type)) as [r0|] eqn:E; [|discriminate].
    exact (tells_step _ _ _ _ _ _ (IH _ eq_refl) H).
Qed.

(** ** Getters in terms of what was set *)
Lemma get_num_val r n : snd (get_num r n) = if has r n then num r n else num_from r n.
Proof.
  unfold get_num, answer, update_num, store, has, num.
  destruct (s_set (p_num r n)); [reflexivity|].
  destruct (num_from r n); cbn; rewrite ?scalar_eqb_refl; reflexivity.
Qed.
Lemma get_vec_val r n : snd (get_vec r n) = if hasv r n then vct r n else vec_from r n.
Proof.
  unfold get_vec, answer, update_vec, store, hasv, vct.
  destruct (s_set (p_vec r n)); [reflexivity|].
  destruct (vec_from r n); cbn; rewrite ?place_eqb_refl; reflexivity.
Qed.

(** Flags and values through [tells]. *)
Lemma tells_has id type l r n : tells id type l r ->
  match known id type l n with Some v => has r n = true /\ num r n = Got v | None => has r n = false end.
Proof.
  intros T. pose proof (tl_num _ _ _ _ T n) as H. unfold holds, has, num in *.
  destruct (known id type l n); [rewrite H; auto|exact H].
Qed.
Lemma tells_hasv id type l r n : tells id type l r ->
  match knownv id type l n with Some v => hasv r n = true /\ vct r n = Got v | None => hasv r n = false end.
Proof.
  intros T. pose proof (tl_vec _ _ _ _ T n) as H. unfold holds, hasv, vct in *.
  destruct (knownv id type l n); [rewrite H; auto|exact H].
Qed.

(** ** Vectors *)
Lemma vec_eq a b : vx a = vx b -> vy a = vy b -> vz a = vz b -> a = b.
Proof. destruct a, b; cbn; congruence. Qed.

Lemma vmag_sq v : vmag v ^ 2 = vx v * vx v + vy v * vy v + vz v * vz v.
Proof. unfold vmag. rewrite pow2_sqrt; [reflexivity|nra]. Qed.
Lemma vmag_pos v : 0 <= vmag v. Proof. apply sqrt_pos. Qed.

Lemma vmag_scale k d : 0 <= k -> vmag d = 1 -> vmag (vscale k d) = k.
Proof.
  intros Hk Hd. pose proof (vmag_sq d) as D. rewrite Hd in D.
  unfold vmag. cbn.
  replace (k * vx d * (k * vx d) + k * vy d * (k * vy d) + k * vz d * (k * vz d))
    with (k * k * (vx d * vx d + vy d * vy d + vz d * vz d)) by ring.
  rewrite <- D, pow1, Rmult_1_r.
  apply sqrt_square. exact Hk.
Qed.

Lemma vmag_scale_abs k d : vmag d = 1 -> vmag (vscale k d) = Rabs k.
Proof.
  intros Hd. pose proof (vmag_sq d) as D. rewrite Hd in D.
  unfold vmag. cbn.
  replace (k * vx d * (k * vx d) + k * vy d * (k * vy d) + k * vz d * (k * vz d))
    with (Rsqr k * (vx d * vx d + vy d * vy d + vz d * vz d)) by (unfold Rsqr; ring).
  rewrite <- D, pow1, Rmult_1_r.
  apply sqrt_Rsqr_abs.
Qed.

Lemma normal_scale k d : 0 <= k -> vmag d = 1 ->
  normal (vscale k d) = if Req_EM_T k 0 then Nan else Got d.
Proof.
  intros Hk Hd. unfold normal. rewrite (vmag_scale k d Hk Hd).
  destruct (Req_EM_T k 0) as [E|E]; [reflexivity|]. f_equal.
  apply vec_eq; cbn; field; exact E.
Qed.

Lemma vsub_vadd a b : vsub (vadd a b) a = b.
Proof. apply vec_eq; cbn; ring. Qed.
Lemma vsub_vadd2 a b : vsub (vadd a b) b = a.
Proof. apply vec_eq; cbn; ring. Qed.

Lemma unit_dot d : vmag d = 1 -> vdot d d = 1.
Proof. intros H. pose proof (vmag_sq d) as D. rewrite H in D. unfold vdot. lra. Qed.

Lemma dot_along c d k : vmag d = 1 -> vdot c d = 0 -> vdot (vadd c (vscale k d)) d = k.
Proof.
  intros Hd Hc. transitivity (vdot c d + k * vdot d d); [unfold vdot; cbn; ring|].
  rewrite Hc, (unit_dot _ Hd). ring.
Qed.

Lemma foot_along c d k : vmag d = 1 -> vdot c d = 0 -> foot (vadd c (vscale k d)) d = c.
Proof. intros Hd Hc. unfold foot. rewrite (dot_along _ _ _ Hd Hc). apply vsub_vadd2. Qed.

Lemma signed_along c d k : vmag d = 1 -> vdot c d = 0 -> signed_distance (vadd c (vscale k d)) d = k.
Proof.
  intros Hd Hc. unfold signed_distance. rewrite (foot_along _ _ _ Hd Hc), vsub_vadd.
  rewrite (vmag_scale_abs k d Hd).
  assert (vdot (vscale k d) d = k) as ->.
  { transitivity (k * vdot d d); [unfold vdot; cbn; ring|]. rewrite (unit_dot _ Hd). ring. }
  destruct (Rlt_dec 0 k) as [P|P].
  - rewrite Rabs_right; lra.
  - rewrite Rabs_left1; lra.
Qed.

Lemma root_square x : 0 <= x -> root (x * x) = Got x.
Proof. intros H. unfold root. destruct (Rlt_dec (x * x) 0); [nra|]. f_equal. apply sqrt_square. exact H. Qed.
Lemma root_eq y x : 0 <= x -> y = x * x -> root y = Got x.
Proof. intros H ->. apply root_square. exact H. Qed.
