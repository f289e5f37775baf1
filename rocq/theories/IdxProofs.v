(** Lemmas on the indexers. *)
From Coq Require Import Reals List ZArith Bool Sorted Permutation Lia Lra.
From Verif Require Import TraversalModel TransModel TransSpec IdxModel IdxSpec.
Import ListNotations.
Open Scope R_scope.

Lemma insert_perm a l : Permutation (a :: l) (insert a l).
Proof.
  induction l as [|b t IH]; cbn; [reflexivity|]. destruct (Rle_dec a b); [reflexivity|].
  etransitivity; [apply perm_swap|]. constructor. exact IH.
Qed.
Lemma sort_perm l : Permutation l (sort l).
Proof. induction l as [|a t IH]; cbn; [constructor|]. etransitivity; [constructor; exact IH|apply insert_perm]. Qed.
Lemma insert_sorted a l : ascending l -> ascending (insert a l).
Proof.
  unfold ascending. induction l as [|b t IH]; intros H; cbn; [repeat constructor|].
  pose proof H as H0. apply StronglySorted_inv in H as [S F]. destruct (Rle_dec a b) as [L|L].
  - constructor; [exact H0|]. constructor; [exact L|]. rewrite Forall_forall in *. intros c I. specialize (F c I). lra.
  - constructor; [auto|]. rewrite Forall_forall in *. intros c I. apply (Permutation_in c (Permutation_sym (insert_perm a t))) in I. destruct I as [<-|I]; [lra|auto].
Qed.
Lemma sort_sorted l : ascending (sort l).
Proof. induction l as [|a t IH]; cbn; [constructor|]. apply insert_sorted, IH. Qed.

Lemma ascending_unique l : forall m, ascending l -> ascending m -> Permutation l m -> l = m.
Proof.
  induction l as [|a t IH]; intros m A B P.
  - apply Permutation_nil in P. auto.
  - destruct m as [|b u]; [apply Permutation_sym, Permutation_nil in P; discriminate|].
    unfold ascending in *. apply StronglySorted_inv in A as [A1 A2]. apply StronglySorted_inv in B as [B1 B2]. rewrite Forall_forall in *.
    assert (E : a = b).
    { assert (I : In a (b :: u)) by (apply (Permutation_in a P); left; reflexivity). assert (J : In b (a :: t)) by (apply (Permutation_in b (Permutation_sym P)); left; reflexivity).
      destruct I as [->|I]; auto. destruct J as [->|J]; auto. specialize (A2 b J). specialize (B2 a I). lra. }
    subst b. f_equal. apply IH; auto. apply Permutation_cons_inv in P. exact P.
Qed.
Lemma sort_is data s : Permutation data s -> ascending s -> sort data = s.
Proof. intros P A. apply ascending_unique; [apply sort_sorted|exact A|]. rewrite <- (sort_perm data). exact P. Qed.

Lemma eq_list_eq l : forall m, eq_list l m = true -> l = m.
Proof.
  induction l as [|a t IH]; intros [|b u] H; cbn in H; try discriminate; auto. destruct (Req_EM_T a b) as [->|]; [|discriminate]. f_equal. auto.
Qed.
Lemma last_nth (l : list R) : last l 0 = nth (length l - 1) l 0.
Proof.
  induction l as [|a t IH]; [reflexivity|]. destruct t as [|b u]; [reflexivity|]. change (last (a :: b :: u) 0) with (last (b :: u) 0). rewrite IH. cbn. rewrite Nat.sub_0_r. reflexivity.
Qed.
Lemma hd_nth (l : list R) : hd 0 l = nth 0 l 0.
Proof. destruct l; reflexivity. Qed.

(** The flag is never set in an indexer that can be constructed. *)
Lemma never_reversed data s : Permutation data s -> ascending s -> hd 0 s < last s 0 -> reversed_flag data = false.
Proof.
  intros P A L. unfold reversed_flag. rewrite (sort_is data s P A). destruct (eq_list s data); [reflexivity|].
  destruct (eq_list s (rev s)) eqn:E; [|reflexivity]. apply eq_list_eq in E. exfalso. destruct s as [|a t]; [cbn in L; lra|].
  assert (H : hd 0 (a :: t) = last (a :: t) 0).
  { rewrite E at 1. destruct (@exists_last _ (a :: t) ltac:(discriminate)) as [u [b U]]. rewrite U. rewrite rev_app_distr. cbn. rewrite last_last. reflexivity. }
  lra.
Qed.

Lemma ascending_nth l i j : ascending l -> (i <= j)%nat -> (j < length l)%nat -> nth i l 0 <= nth j l 0.
Proof.
  unfold ascending. revert i j. induction l as [|a t IH]; intros i j A IJ J; [cbn in J; lia|]. apply StronglySorted_inv in A as [A F]. rewrite Forall_forall in F.
  destruct i as [|i]; destruct j as [|j]; try lia.
  - lra.
  - cbn. apply F, nth_In. cbn in J. lia.
  - cbn. apply IH; auto; cbn in J; lia.
Qed.

(** ** Regular *)
Lemma floor_at r z : IZR z <= r < IZR z + 1 -> Int_part r = z.
Proof.
  intros H. pose proof (base_Int_part r) as [A B]. assert (IZR (Int_part r) < IZR (z + 1)) by (rewrite plus_IZR; lra). assert (IZR z < IZR (Int_part r + 1)) by (rewrite plus_IZR; lra).
  apply lt_IZR in H0. apply lt_IZR in H1. lia.
Qed.
Lemma floor_low r : r < 0 -> (Int_part r < 0)%Z.
Proof. intros H. pose proof (base_Int_part r) as [A _]. apply lt_IZR. lra. Qed.
Lemma floor_high r z : IZR z <= r -> (z <= Int_part r)%Z.
Proof. intros H. pose proof (base_Int_part r) as [_ A]. assert (IZR z < IZR (Int_part r + 1)) by (rewrite plus_IZR; lra). apply lt_IZR in H0. lia. Qed.

Lemma make_regular_some data s : Permutation data s -> ascending s -> (2 <= length s)%nat -> hd 0 s < last s 0 ->
  make_regular data = Some (mkregular (hd 0 s) (last s 0) (last s 0 - hd 0 s) false (length s)).
Proof.
  intros P A N L. unfold make_regular. rewrite (sort_is data s P A), (never_reversed data s P A L), (Permutation_length P).
  destruct (Nat.ltb_spec (length s) 2); [lia|]. destruct (Rle_dec (Rabs (last s 0 - hd 0 s)) 0) as [B|B]; [|reflexivity]. rewrite Rabs_pos_eq in B; lra.
Qed.
Lemma make_irregular_some data s : Permutation data s -> ascending s -> (2 <= length s)%nat -> hd 0 s < last s 0 ->
  make_irregular data = Some (mkirregular s (hd 0 s) (last s 0) false).
Proof.
  intros P A N L. unfold make_irregular. rewrite (sort_is data s P A), (never_reversed data s P A L), (Permutation_length P).
  destruct (Nat.ltb_spec (length s) 2); [lia|]. destruct (Rle_dec (Rabs (last s 0 - hd 0 s)) 0) as [B|B]; [|reflexivity]. rewrite Rabs_pos_eq in B; lra.
Qed.

Lemma steps_span s : equal_steps s -> (2 <= length s)%nat -> exists d, 0 < d /\ last s 0 - hd 0 s = INR (length s - 1) * d /\ 0 < INR (length s - 1) /\
  forall i, (i < length s)%nat -> nth i s 0 = hd 0 s + INR i * d.
Proof.
  intros [d [D H]] N. exists d. split; [exact D|]. split; [rewrite last_nth, H by lia; ring|]. split; [apply lt_0_INR; lia|exact H].
Qed.
Lemma steps_ascending s : equal_steps s -> ascending s.
Proof.
  intros [d [D H]]. unfold ascending. revert H. destruct s as [|a t]; [constructor|]. cbn [hd].
  assert (G : forall l k, (forall i, (i < length l)%nat -> nth i l 0 = a + INR (k + i) * d) -> StronglySorted Rle l).
  { induction l as [|b u IH]; intros k H; [constructor|]. constructor.
    - apply (IH (S k)). intros i I. specialize (H (S i) ltac:(cbn; lia)). cbn [nth] in H. rewrite H. do 2 f_equal. f_equal. lia.
    - apply Forall_forall. intros c C. apply In_nth with (d := 0) in C. destruct C as [i [I E]]. specialize (H (S i) ltac:(cbn; lia)) as HS. cbn [nth] in HS. specialize (H O ltac:(cbn; lia)). cbn [nth] in H.
      rewrite H, <- E, HS. apply Rplus_le_compat_l. apply Rmult_le_compat_r; [lra|]. apply le_INR. lia. }
  intros H. apply (G _ O). intros i I. apply H, I.
Qed.
Lemma steps_less s : equal_steps s -> (2 <= length s)%nat -> hd 0 s < last s 0.
Proof. intros H N. destruct (steps_span s H N) as [d [D [E [P _]]]]. pose proof (Rmult_lt_0_compat _ _ P D). lra. Qed.

Lemma regular_located s x i j : equal_steps s -> (2 <= length s)%nat ->
  regular_at (mkregular (hd 0 s) (last s 0) (last s 0 - hd 0 s) false (length s)) x = Ok (i, j) ->
  located s x i j /\ (hd 0 s <= x < last s 0 -> x < nth j s 0).
Proof.
  intros H N. destruct (steps_span s H N) as [d [D [E [P G]]]]. unfold regular_at. cbn [g_low g_high g_range g_reversed g_n]. rewrite E.
  replace ((x - hd 0 s) / (INR (length s - 1) * d) * INR (length s - 1)) with ((x - hd 0 s) / d) by (field; lra).
  set (q := (x - hd 0 s) / d). assert (Q : x = hd 0 s + q * d) by (unfold q; field; lra). assert (EL : last s 0 = hd 0 s + INR (length s - 1) * d) by lra.
  destruct (fits_int (Int_part q)); [|discriminate]. intros R.
  destruct (base_Int_part q) as [B1 B2].
  destruct (Z.ltb_spec (Int_part q) 0) as [L|L].
  - injection R as <- <-. assert (QN : q < 0) by (apply Rlt_le_trans with (IZR (Int_part q + 1)); [rewrite plus_IZR; lra|apply IZR_le; lia]).
    assert (XL : x < hd 0 s) by (rewrite Q; pose proof (Rmult_lt_0_compat (- q) d ltac:(lra) D); lra).
    cbn. split; [|lra]. split; [reflexivity|]. split; [lia|]. split; [intros; lra|]. split; [auto|]. pose proof (Rmult_lt_0_compat _ _ P D). lra.
  - destruct (Z.leb_spec (Z.of_nat (length s) - 1) (Int_part q)) as [M|M]; cbn zeta in R.
    + injection R as <- <-. replace (Z.to_nat (Z.of_nat (length s) - 2)) with (length s - 2)%nat by lia.
      assert (QB : INR (length s - 1) <= q). { rewrite INR_IZR_INZ. apply Rle_trans with (IZR (Int_part q)); [apply IZR_le; lia|lra]. }
      assert (XL : last s 0 <= x) by (rewrite Q, EL; apply Rplus_le_compat_l, Rmult_le_compat_r; lra).
      split; [|lra]. split; [reflexivity|]. split; [lia|]. split; [|split].
      * intros [_ X2]. rewrite (G (length s - 2)%nat) by lia. rewrite (G (S (length s - 2))) by lia. replace (S (length s - 2)) with (length s - 1)%nat by lia. rewrite <- EL. split; [|exact X2].
        apply Rle_trans with (last s 0); [|exact XL]. rewrite EL. apply Rplus_le_compat_l, Rmult_le_compat_r; [lra|]. apply le_INR. lia.
      * intros X. pose proof (Rmult_lt_0_compat _ _ P D). lra.
      * intros _. lia.
    + injection R as <- <-. set (k := Z.to_nat (Int_part q)). assert (K : Int_part q = Z.of_nat k) by (unfold k; lia). assert (KI : IZR (Int_part q) = INR k) by (rewrite K, INR_IZR_INZ; reflexivity).
      rewrite KI in B1, B2.
      assert (X1 : hd 0 s + INR k * d <= x) by (rewrite Q; apply Rplus_le_compat_l, Rmult_le_compat_r; lra).
      assert (X2 : x < hd 0 s + INR (S k) * d) by (rewrite Q; apply Rplus_lt_compat_l, Rmult_lt_compat_r; [lra|rewrite S_INR; lra]).
      split; [|intros _; rewrite (G (S k)) by lia; exact X2]. split; [reflexivity|]. split; [lia|]. split; [|split].
      * intros _. rewrite (G k), (G (S k)) by lia. lra.
      * intros X. pose proof (Rmult_le_pos (INR k) d (pos_INR k) ltac:(lra)). lra.
      * intros X. assert (INR (S k) <= INR (length s - 1)) by (apply le_INR; lia). pose proof (Rmult_le_compat_r d _ _ ltac:(lra) H0). lra.
Qed.

Lemma regular_defined s x : equal_steps s -> (2 <= length s)%nat -> (Z.of_nat (length s) < 2 ^ 31)%Z -> hd 0 s <= x <= last s 0 ->
  exists i, regular_at (mkregular (hd 0 s) (last s 0) (last s 0 - hd 0 s) false (length s)) x = Ok (i, S i).
Proof.
  intros H N B X. destruct (steps_span s H N) as [d [D [E [P G]]]]. unfold regular_at. cbn [g_low g_high g_range g_reversed g_n].
  set (q := (x - hd 0 s) / (last s 0 - hd 0 s) * INR (length s - 1)).
  assert (W : 0 < last s 0 - hd 0 s) by (rewrite E; apply Rmult_lt_0_compat; lra).
  assert (Q : 0 <= (x - hd 0 s) / (last s 0 - hd 0 s) <= 1).
  { split; [apply Rmult_le_pos; [lra|left; apply Rinv_0_lt_compat, W]|]. apply Rmult_le_reg_r with (last s 0 - hd 0 s); [exact W|]. unfold Rdiv. rewrite Rmult_assoc, Rinv_l; lra. }
  assert (Q0 : 0 <= q <= INR (length s - 1)).
  { unfold q. split; [apply Rmult_le_pos; lra|]. rewrite <- (Rmult_1_l (INR (length s - 1))) at 2. apply Rmult_le_compat_r; lra. }
  assert (F : (0 <= Int_part q < 2 ^ 31)%Z).
  { split; [apply (floor_high q 0); lra|]. pose proof (base_Int_part q) as [A _]. rewrite INR_IZR_INZ in Q0. assert (IZR (Int_part q) <= IZR (Z.of_nat (length s - 1))) by lra. apply le_IZR in H0. lia. }
  replace (fits_int (Int_part q)) with true; [eexists; reflexivity|]. unfold fits_int. symmetry. apply andb_true_intro. split; [apply Z.leb_le|apply Z.ltb_lt]; lia.
Qed.

(** ** Irregular *)
Lemma first_not_less_spec l x : ascending l ->
  let k := first_not_less l x in (k <= length l)%nat /\ (forall i, (i < k)%nat -> nth i l 0 < x) /\ (forall i, (k <= i)%nat -> (i < length l)%nat -> x <= nth i l 0).
Proof.
  unfold ascending. induction l as [|a t IH]; intros A; cbn [first_not_less]; cbv zeta; [repeat split; intros; cbn in *; lia|]. apply StronglySorted_inv in A as [A F].
  destruct (Rlt_dec a x) as [L|L].
  - specialize (IH A). cbv zeta in IH. destruct IH as [I1 [I2 I3]]. split; [cbn; lia|]. split.
    + intros [|i] H; cbn; [exact L|]. apply I2. lia.
    + intros [|i] H H'; [lia|]. cbn. apply I3; cbn in H'; lia.
  - split; [lia|]. split; [intros; lia|]. intros [|i] _ H; cbn; [lra|]. rewrite Forall_forall in F. specialize (F (nth i t 0)). assert (a <= nth i t 0) by (apply F, nth_In; cbn in H; lia). lra.
Qed.

Lemma irregular_located s x : ascending s -> (2 <= length s)%nat -> hd 0 s < last s 0 ->
  located s x (fst (irregular_at (mkirregular s (hd 0 s) (last s 0) false) x)) (snd (irregular_at (mkirregular s (hd 0 s) (last s 0) false) x)).
Proof.
  intros A N W. unfold irregular_at. cbn [h_data h_low h_high h_reversed]. destruct (Rle_dec x (hd 0 s)) as [L|L]; [|destruct (Rle_dec (last s 0) x) as [M|M]]; cbn [fst snd].
  - split; [reflexivity|]. split; [lia|]. split; [|split; [auto|lra]]. intros [X _]. assert (E : x = hd 0 s) by lra. rewrite E, hd_nth. split; [lra|]. apply ascending_nth; auto; lia.
  - split; [lia|]. split; [lia|]. split; [|split; [lra|intros; lia]]. intros [_ X]. assert (E : x = last s 0) by lra. rewrite E, last_nth. split; [apply ascending_nth; auto; lia|lra].
  - destruct (first_not_less_spec s x A) as [K1 [K2 K3]]. set (k := first_not_less s x) in *.
    assert (K : (1 <= k)%nat). { destruct k; [|lia]. specialize (K3 O ltac:(lia) ltac:(lia)). rewrite <- hd_nth in K3. lra. }
    assert (K' : (k < length s)%nat). { destruct (Nat.eq_dec k (length s)) as [E|]; [|lia]. specialize (K2 (length s - 1)%nat ltac:(lia)). rewrite <- last_nth in K2. lra. }
    destruct (Nat.leb_spec (length s - 1) (k - 1)); [lia|]. cbn [fst snd]. split; [reflexivity|]. split; [lia|]. split; [|split; lra]. intros _.
    replace (S (k - 1)) with k by lia. split; [left; apply K2; lia|apply K3; lia].
Qed.
