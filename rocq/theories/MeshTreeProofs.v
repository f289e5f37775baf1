(** The tree of boxes: construction and search. *)
From Coq Require Import Reals List Bool ZArith Lia Lra Psatz Permutation.
From Verif Require Import TraversalModel VectorModel MeshModel MeshSpec MeshProofs.
Import ListNotations.
Open Scope R_scope.

(** ** Boxes *)
Definition in_box (b : box) (p : vec) : Prop := forall k, coord k (b_lo b) <= coord k p <= coord k (b_hi b).

Lemma inverse_zero x : inverse_of x = 0 <-> x = 0.
Proof.
  unfold inverse_of. destruct (Req_EM_T x 0); [tauto|]. split; [|intros; contradiction].
  intros E. exfalso. assert (x * (1 / x) = 1) by (field; auto). rewrite E in H. lra.
Qed.

Lemma slab_in lo hi o x s : x <> 0 -> lo <= o + s * x <= hi -> fst (slab lo hi o (inverse_of x)) <= s <= snd (slab lo hi o (inverse_of x)).
Proof.
  intros N [L H]. unfold slab, inverse_of. destruct (Req_EM_T x 0); [contradiction|]. cbn.
  assert (S : s = (o + s * x - o) * (1 / x)) by (field; auto).
  destruct (Rlt_dec 0 x) as [P|P].
  - assert (0 < 1 / x) by (apply Rdiv_lt_0_compat; lra). split.
    + eapply Rle_trans; [apply Rmin_l|]. rewrite S. apply Rmult_le_compat_r; lra.
    + eapply Rle_trans; [|apply Rmax_r]. rewrite S. apply Rmult_le_compat_r; lra.
  - assert (1 / x < 0). { assert (0 < 1 / - x) by (apply Rdiv_lt_0_compat; lra). replace (1 / x) with (- (1 / - x)) by (field; lra). lra. } split.
    + eapply Rle_trans; [apply Rmin_r|]. rewrite S. nra.
    + eapply Rle_trans; [|apply Rmax_l]. rewrite S. nra.
Qed.

Lemma slab_out lo hi o x s : x <> 0 -> lo <= hi -> fst (slab lo hi o (inverse_of x)) <= s <= snd (slab lo hi o (inverse_of x)) -> lo <= o + s * x <= hi.
Proof.
  intros N LH. unfold slab, inverse_of. destruct (Req_EM_T x 0); [contradiction|]. cbn. intros [L H].
  destruct (Rlt_dec 0 x) as [P|P].
  - assert (0 < 1 / x) by (apply Rdiv_lt_0_compat; lra).
    assert ((lo - o) * (1 / x) <= (hi - o) * (1 / x)) by (apply Rmult_le_compat_r; lra).
    rewrite Rmin_left in L by auto. rewrite Rmax_right in H by auto.
    apply (Rmult_le_compat_r x) in L; [|lra]. apply (Rmult_le_compat_r x) in H; [|lra].
    replace ((lo - o) * (1 / x) * x) with (lo - o) in L by (field; auto). replace ((hi - o) * (1 / x) * x) with (hi - o) in H by (field; auto). lra.
  - assert (Q : 1 / x < 0). { assert (0 < 1 / - x) by (apply Rdiv_lt_0_compat; lra). replace (1 / x) with (- (1 / - x)) by (field; lra). lra. }
    assert ((hi - o) * (1 / x) <= (lo - o) * (1 / x)) by nra.
    rewrite Rmin_right in L by auto. rewrite Rmax_left in H by auto.
    assert (X : x < 0) by lra.
    apply (Rmult_le_compat_neg_l x) in L; [|lra]. apply (Rmult_le_compat_neg_l x) in H; [|lra].
    replace (x * ((lo - o) * (1 / x))) with (lo - o) in H by (field; auto). replace (x * ((hi - o) * (1 / x))) with (hi - o) in L by (field; auto). lra.
Qed.

Lemma beside_false lo hi o : beside lo hi o = false <-> lo <= o <= hi.
Proof. unfold beside. destruct (Rlt_dec o lo), (Rlt_dec hi o); cbn; split; intros; try discriminate; auto; lra. Qed.

Definition within_slab (s : R) (p : option (R * R)) : Prop := match p with Some (a, b) => a <= s <= b | None => False end.

Lemma next_in lo hi o x s p : within_slab s p -> lo <= o + s * x <= hi -> within_slab s (slab_next lo hi o (inverse_of x) p).
Proof.
  unfold slab_next. destruct p as [[a b]|]; [|tauto]. cbn. intros [A B] L. destruct (Req_EM_T (inverse_of x) 0) as [E|E].
  - apply (proj1 (inverse_zero x)) in E. rewrite E in L. replace (beside lo hi o) with false; [cbn; lra|]. symmetry. apply beside_false. lra.
  - assert (x <> 0) by (intro; apply E; apply (proj2 (inverse_zero x)); auto). destruct (slab_in lo hi o x s H L) as [C D]. unfold slab in *. cbn in *.
    split; [apply Rmax_lub|apply Rmin_glb]; auto.
Qed.
Lemma next_out lo hi o x s p : lo <= hi -> within_slab s (slab_next lo hi o (inverse_of x) p) -> within_slab s p /\ lo <= o + s * x <= hi.
Proof.
  intros LH. unfold slab_next. destruct p as [[a b]|]; [|cbn; tauto]. destruct (Req_EM_T (inverse_of x) 0) as [E|E].
  - apply (proj1 (inverse_zero x)) in E. subst. destruct (beside lo hi o) eqn:B; cbn; [tauto|]. apply beside_false in B. intros. split; auto. lra.
  - assert (N : x <> 0) by (intro; apply E; apply (proj2 (inverse_zero x)); auto). destruct (slab lo hi o (inverse_of x)) as [c d] eqn:SL. cbn. intros [A B].
    pose proof (Rmax_l a c). pose proof (Rmax_r a c). pose proof (Rmin_l b d). pose proof (Rmin_r b d).
    split; [lra|]. apply slab_out; auto. rewrite SL. cbn. lra.
Qed.
Lemma first_in lo hi o x s : (x = 0 -> Rabs s <= huge) -> lo <= o + s * x <= hi -> within_slab s (slab_first lo hi o (inverse_of x)).
Proof.
  intros B L. unfold slab_first. destruct (Req_EM_T (inverse_of x) 0) as [E|E].
  - apply (proj1 (inverse_zero x)) in E. specialize (B E). rewrite E in L. replace (beside lo hi o) with false; [|symmetry; apply beside_false; lra].
    unfold within_slab. revert B. generalize huge. intros h B. pose proof (Rle_abs s). pose proof (Rle_abs (- s)). rewrite Rabs_Ropp in H0. lra.
  - assert (N : x <> 0) by (intro; apply E; apply (proj2 (inverse_zero x)); auto). pose proof (slab_in lo hi o x s N L). destruct (slab _ _ _ _). auto.
Qed.
Lemma first_out lo hi o x s : lo <= hi -> within_slab s (slab_first lo hi o (inverse_of x)) -> lo <= o + s * x <= hi.
Proof.
  intros LH. unfold slab_first. destruct (Req_EM_T (inverse_of x) 0) as [E|E].
  - apply (proj1 (inverse_zero x)) in E. subst. destruct (beside lo hi o) eqn:B; cbn; [tauto|]. apply beside_false in B. intros. lra.
  - assert (N : x <> 0) by (intro; apply E; apply (proj2 (inverse_zero x)); auto). intros. apply slab_out; auto.
Qed.

Lemma box_met b o d s : (vx d = 0 -> Rabs s <= huge) -> in_box b (point o d s) -> ray_box b o (inverse_dir d) = true.
Proof.
  intros B I. unfold ray_box, inverse_dir. cbn.
  assert (H : within_slab s (slab_next (vz (b_lo b)) (vz (b_hi b)) (vz o) (inverse_of (vz d))
          (slab_next (vy (b_lo b)) (vy (b_hi b)) (vy o) (inverse_of (vy d))
            (slab_first (vx (b_lo b)) (vx (b_hi b)) (vx o) (inverse_of (vx d)))))).
  { apply next_in; [apply next_in; [apply first_in; auto|]|]; [apply (I AX)|apply (I AY)|apply (I AZ)]. }
  destruct (slab_next _ _ _ _ _) as [[a c]|]; cbn in H; [|tauto]. destruct (Rle_dec a c); auto. lra.
Qed.
Lemma box_sound b o d : (forall k, coord k (b_lo b) <= coord k (b_hi b)) -> ray_box b o (inverse_dir d) = true -> exists s, in_box b (point o d s).
Proof.
  intros LH. unfold ray_box, inverse_dir. cbn.
  destruct (slab_next (vz (b_lo b)) _ _ _ _) as [[a c]|] eqn:E; [|discriminate]. destruct (Rle_dec a c) as [L|]; [|discriminate]. intros _.
  exists a. assert (W : within_slab a (Some (a, c))) by (cbn; lra). rewrite <- E in W.
  apply next_out in W; [|apply (LH AZ)]. destruct W as [W Z]. apply next_out in W; [|apply (LH AY)]. destruct W as [W Y]. apply first_out in W; [|apply (LH AX)].
  intros k. destruct k; cbn; auto.
Qed.

(** ** Lists *)
Lemma put_length {A} (l : list A) i x : length (put l i x) = length l.
Proof. revert i. induction l; intros [|i]; cbn; auto. Qed.
Lemma put_same {A} (l : list A) i x : (i < length l)%nat -> nth_error (put l i x) i = Some x.
Proof. revert i. induction l; intros [|i]; cbn; intros; try lia; auto. apply IHl. lia. Qed.
Lemma put_other {A} (l : list A) i j x : i <> j -> nth_error (put l i x) j = nth_error l j.
Proof. revert i j. induction l; intros [|i] [|j]; cbn; intros; auto; try congruence. Qed.

Lemma nth_firstn {A} (l : list A) n j : (j < n)%nat -> nth_error (firstn n l) j = nth_error l j.
Proof. revert n j. induction l; intros [|n] [|j]; cbn; intros; auto; try lia. apply IHl. lia. Qed.
Lemma nth_skipn {A} (l : list A) n j : nth_error (skipn n l) j = nth_error l (n + j).
Proof. revert n. induction l; intros [|n]; cbn; auto. destruct j; auto. Qed.

Lemma skip_skip {A} (l : list A) m n : skipn m (skipn n l) = skipn (n + m) l.
Proof. revert n. induction l; intros [|n]; cbn; auto. destruct m; auto. Qed.

(** The part of a list between two positions. *)
Definition part {A} (b e : nat) (l : list A) : list A := firstn (e - b) (skipn b l).
Lemma part_length {A} b e (l : list A) : (b <= e)%nat -> (e <= length l)%nat -> length (part b e l) = (e - b)%nat.
Proof. intros. unfold part. rewrite firstn_length, skipn_length. lia. Qed.
Lemma nth_part {A} b e (l : list A) j : (j < e - b)%nat -> nth_error (part b e l) j = nth_error l (b + j).
Proof. intros. unfold part. rewrite nth_firstn by auto. apply nth_skipn. Qed.
Lemma three_parts {A} b e (l : list A) : (b <= e)%nat -> l = firstn b l ++ part b e l ++ skipn e l.
Proof.
  intros. unfold part. rewrite <- (firstn_skipn b l) at 1. f_equal. rewrite <- (firstn_skipn (e - b) (skipn b l)) at 1. f_equal.
  rewrite skip_skip. f_equal. lia.
Qed.

(** Exchange of a part by a rearrangement. *)
Record moved (b e : nat) (l l' : list nat) : Prop := mkmoved
  { mv_perm : Permutation l' l;
    mv_out : forall j, (j < b \/ e <= j)%nat -> nth_error l' j = nth_error l j;
    mv_in : forall j, (b <= j < e)%nat -> exists j', (b <= j' < e)%nat /\ nth_error l' j = nth_error l j' }.
Lemma moved_refl b e l : moved b e l l.
Proof. constructor; auto. intros. exists j. auto. Qed.
Lemma moved_wider b e b' e' l l' : (b' <= b)%nat -> (e <= e')%nat -> moved b e l l' -> moved b' e' l l'.
Proof.
  intros ? ? [P O I]. constructor; auto.
  - intros. apply O. lia.
  - intros j J. destruct (le_lt_dec b j); [destruct (le_lt_dec e j)|].
    + exists j. split; [auto|apply O; lia].
    + destruct (I j) as (k & ? & ?); [lia|]. exists k. split; auto. lia.
    + exists j. split; [auto|apply O; lia].
Qed.
Lemma moved_trans b e l l' l'' : moved b e l l' -> moved b e l' l'' -> moved b e l l''.
Proof.
  intros [P O I] [P' O' I']. constructor.
  - etransitivity; eauto.
  - intros. rewrite O' by auto. auto.
  - intros j J. destruct (I' j J) as (k & K & ->). apply I. auto.
Qed.
Lemma moved_part b e l m : (b <= e)%nat -> (e <= length l)%nat -> Permutation m (part b e l) -> moved b e l (firstn b l ++ m ++ skipn e l).
Proof.
  intros BE EL P. pose proof (Permutation_length P) as L. rewrite part_length in L by auto.
  assert (FB : length (firstn b l) = b) by (rewrite firstn_length; lia).
  constructor.
  - rewrite (three_parts b e l BE) at 3. apply Permutation_app_head. apply Permutation_app_tail. auto.
  - intros j [J|J].
    + rewrite nth_error_app1 by lia. apply nth_firstn. auto.
    + rewrite nth_error_app2 by lia. rewrite nth_error_app2 by lia. rewrite nth_skipn. f_equal. lia.
  - intros j J. rewrite nth_error_app2 by lia. rewrite FB. rewrite nth_error_app1 by lia.
    destruct (nth_error m (j - b)) as [x|] eqn:E; [|apply nth_error_None in E; lia].
    assert (In x (part b e l)) by (eapply Permutation_in; [exact P|]; eapply nth_error_In; eauto).
    apply In_nth_error in H. destruct H as [k K]. assert (k < e - b)%nat by (rewrite <- (part_length b e l) by auto; apply nth_error_Some; congruence).
    exists (b + k)%nat. split; [lia|]. rewrite nth_part in K by auto. auto.
Qed.
Lemma moved_length b e l l' : moved b e l l' -> length l' = length l.
Proof. intros [P _ _]. apply Permutation_length; auto. Qed.

(** ** The tree that was built *)
Definition cap : nat := Z.to_nat 65535.
Lemma cap_8 : (8 <= cap)%nat. Proof. unfold cap. lia. Qed.

Section Tree.
Variable fl : R -> R.
Variable pick : (nat -> R) -> list nat -> nat -> list nat.
Variable tris : list triangle.
Hypothesis pick_perm : forall f l k, Permutation (pick f l k) l.

(** The box of a node holds the rounded extents of a triangle. *)
Definition holds (b : box) (ti : nat) : Prop :=
  forall k, coord k (b_lo b) <= least fl k (tri_at tris ti) /\ greatest fl k (tri_at tris ti) <= coord k (b_hi b).

Inductive tree (P : nat -> Prop) (ns : list node) (idx : list nat) : nat -> nat -> nat -> nat -> Prop :=
| tleaf i b e nd : P i -> nth_error ns i = Some nd -> (b < e)%nat -> n_offset nd = b -> n_count nd = Nat.min (e - b) cap ->
    (forall j ti, (b <= j < e)%nat -> nth_error idx j = Some ti -> holds (n_box nd) ti) -> tree P ns idx 1 i b e
| tinner i b m e nd l k1 k2 : P i -> nth_error ns i = Some nd -> (b < m < e)%nat -> n_offset nd = S l -> n_count nd = 0%nat ->
    (forall j ti, (b <= j < e)%nat -> nth_error idx j = Some ti -> holds (n_box nd) ti) ->
    tree P ns idx k1 l b m -> tree P ns idx k2 (S l) m e -> tree P ns idx (S (k1 + k2)) i b e.

Lemma tree_frame P ns idx k i b e (P' : nat -> Prop) ns' idx' : tree P ns idx k i b e -> (forall j, P j -> P' j) ->
  (forall j, P j -> nth_error ns' j = nth_error ns j) -> (forall j, (b <= j < e)%nat -> nth_error idx' j = nth_error idx j) ->
  tree P' ns' idx' k i b e.
Proof.
  intros T M N. induction T; intros X.
  - eapply tleaf; eauto; [rewrite N; auto|]. intros j ti J E. rewrite X in E by auto. eauto.
  - eapply tinner; eauto; [rewrite N; auto| | |].
    + intros j ti J E. rewrite X in E by auto. eauto.
    + apply IHT1. intros. apply X. lia.
    + apply IHT2. intros. apply X. lia.
Qed.

(** The smallest and largest of some numbers. *)
Lemma fold_min (f : nat -> R) l x : fold_left (fun b i => Rmin b (f i)) l x <= x /\ forall i, In i l -> fold_left (fun b i => Rmin b (f i)) l x <= f i.
Proof.
  revert x. induction l as [|a l IH]; intros x; cbn; [split; [lra|tauto]|].
  destruct (IH (Rmin x (f a))) as [A B]. pose proof (Rmin_l x (f a)). pose proof (Rmin_r x (f a)). split; [lra|].
  intros i [->|I]; [lra|auto].
Qed.
Lemma fold_max (f : nat -> R) l x : x <= fold_left (fun b i => Rmax b (f i)) l x /\ forall i, In i l -> f i <= fold_left (fun b i => Rmax b (f i)) l x.
Proof.
  revert x. induction l as [|a l IH]; intros x; cbn; [split; [lra|tauto]|].
  destruct (IH (Rmax x (f a))) as [A B]. pose proof (Rmax_l x (f a)). pose proof (Rmax_r x (f a)). split; [lra|].
  intros i [->|I]; [lra|auto].
Qed.
Lemma box_holds l ti : In ti l -> holds (box_of fl tris l) ti.
Proof.
  intros I k. unfold box_of, low, high. split.
  - destruct k; cbn; apply (proj2 (fold_min (fun i => least fl _ (tri_at tris i)) l big)); auto.
  - destruct k; cbn; apply (proj2 (fold_max (fun i => greatest fl _ (tri_at tris i)) l (- big))); auto.
Qed.

Lemma build_subtree capacity : forall m i b e ns idx, (e - b <= m)%nat -> (b < e)%nat -> (e <= length idx)%nat -> (i < length ns)%nat ->
  (length ns + 2 * (e - b) - 2 <= capacity)%nat ->
  exists k ns' idx', (1 <= k <= 2 * (e - b) - 1)%nat /\ (length ns' + 1 = length ns + k)%nat /\
    (forall fuel rest, build_loop fl pick tris (k + fuel) capacity (mkbuilding ns idx ((i, b, e) :: rest)) = build_loop fl pick tris fuel capacity (mkbuilding ns' idx' rest)) /\
    (forall j, (j < length ns)%nat -> j <> i -> nth_error ns' j = nth_error ns j) /\
    moved b e idx idx' /\
    tree (fun j => j = i \/ (length ns <= j < length ns')%nat) ns' idx' k i b e.
Proof.
  induction m as [|m IH]; intros i b e ns idx M BE EL IL C; [lia|].
  assert (PART : firstn (e - b) (skipn b idx) = part b e idx) by reflexivity.
  assert (INP : forall j ti, (b <= j < e)%nat -> nth_error idx j = Some ti -> In ti (part b e idx)).
  { intros j ti J E. apply (nth_error_In _ (j - b)). rewrite nth_part by lia. replace (b + (j - b))%nat with j by lia. auto. }
  assert (LEAF : forall ct, ct = Nat.min (e - b) cap ->
    tree (fun j => j = i \/ (length ns <= j < length (put ns i (mknode (box_of fl tris (part b e idx)) b ct)))%nat) (put ns i (mknode (box_of fl tris (part b e idx)) b ct)) idx 1 i b e).
  { intros ct ->. eapply tleaf; eauto; [apply put_same; auto|reflexivity|reflexivity|]. cbn. intros. apply box_holds; eauto. }
  destruct (Nat.leb (e - b) 8) eqn:L8.
  - apply Nat.leb_le in L8. exists 1%nat, (put ns i (mknode (box_of fl tris (part b e idx)) b (e - b))), idx.
    split; [lia|]. split; [rewrite put_length; lia|]. split.
    { intros. cbn. unfold build_step. cbn. apply Nat.leb_le in L8. rewrite L8. reflexivity. }
    split; [intros; apply put_other; auto|]. split; [apply moved_refl|]. apply LEAF. pose proof cap_8. lia.
  - set (k := long_axis fl tris (part b e idx)).
    destruct (Rlt_dec (extent fl tris k (part b e idx)) (1 / 10 ^ 10)) as [X|X].
    + exists 1%nat, (put ns i (mknode (box_of fl tris (part b e idx)) b (Nat.min (e - b) cap))), idx.
      split; [lia|]. split; [rewrite put_length; lia|]. split.
      { intros. cbn. unfold build_step. cbv zeta. cbn [nodes indices tasks]. rewrite L8, PART. fold k.
        destruct (Rlt_dec (extent fl tris k (part b e idx)) (1 / 10 ^ 10)); [|contradiction]. reflexivity. }
      split; [intros; apply put_other; auto|]. split; [apply moved_refl|]. apply LEAF; auto.
    + apply Nat.leb_gt in L8.
      set (half := Nat.div (e - b) 2). assert (HF : (1 <= half < e - b)%nat) by (unfold half; split; [apply Nat.div_le_lower_bound; lia|apply Nat.div_lt; lia]).
      set (seg' := pick (centroid fl tris k) (part b e idx) half).
      set (idx1 := firstn b idx ++ seg' ++ skipn e idx).
      assert (M1 : moved b e idx idx1) by (apply moved_part; [lia|auto|apply pick_perm]).
      pose proof (moved_length _ _ _ _ M1) as LM1.
      set (bb := box_of fl tris (part b e idx)).
      set (l := length ns). set (ns1 := put (ns ++ [blank; blank]) i (mknode bb (l + 1) 0)).
      assert (LN1 : length ns1 = (l + 2)%nat) by (unfold ns1; rewrite put_length, app_length; cbn; unfold l; lia).
      assert (NI : nth_error ns1 i = Some (mknode bb (l + 1) 0)) by (apply put_same; rewrite app_length; cbn; lia).
      destruct (IH l b (b + half)%nat ns1 idx1) as (k1 & ns2 & idx2 & K1 & L2 & R1 & F1 & M2 & T1); [lia|lia|lia|lia|unfold l in *; lia|].
      pose proof (moved_length _ _ _ _ M2) as LM2.
      destruct (IH (l + 1)%nat (b + half)%nat e ns2 idx2) as (k2 & ns3 & idx3 & K2 & L3 & R2 & F2 & M3 & T2); [lia|lia|lia|lia|unfold l in *; lia|].
      assert (MV : moved b e idx idx3).
      { eapply moved_trans; [exact M1|]. eapply moved_trans; [eapply moved_wider; [| |exact M2]; lia|]. eapply moved_wider; [| |exact M3]; lia. }
      exists (S (k1 + k2)), ns3, idx3. split; [lia|]. split; [lia|]. split.
      { intros fuel rest. cbn [build_loop Nat.add tasks]. unfold build_step. cbv zeta. cbn [nodes indices tasks].
        assert (G : Nat.leb (e - b) 8 = false) by (apply Nat.leb_gt; auto). rewrite G, PART. fold k. fold bb.
        destruct (Rlt_dec (extent fl tris k (part b e idx)) (1 / 10 ^ 10)); [contradiction|]. fold half. fold seg'. fold l. fold idx1.
        assert (G2 : Nat.ltb capacity (l + 2) = false) by (apply Nat.ltb_ge; lia). rewrite G2. fold ns1.
        rewrite <- Nat.add_assoc. rewrite R1. rewrite R2. reflexivity. }
      split.
      { intros j J NJ. fold l in J. rewrite F2 by lia. rewrite F1 by lia. unfold ns1. rewrite put_other by auto. apply nth_error_app1; auto. }
      split; [auto|].
      eapply (tinner _ _ _ i b (b + half) e (mknode bb (l + 1) 0) l); auto.
      * rewrite F2 by lia. rewrite F1 by lia. auto.
      * lia.
      * cbn. lia.
      * intros j ti J E. cbn. apply box_holds. destruct (mv_in _ _ _ _ MV j J) as (j' & J' & E'). rewrite E' in E. eauto.
      * eapply tree_frame; [exact T1| | |].
        -- intros j [->|]; right; fold l; lia.
        -- intros j [->|D]; apply F2; lia.
        -- intros j J. apply (mv_out _ _ _ _ M3). lia.
      * replace (S l) with (l + 1)%nat by lia. eapply tree_frame; [exact T2| | |auto].
        -- intros j [->|]; right; fold l; lia.
        -- auto.
Qed.

Lemma build_ok : tris <> [] -> exists k s, build fl pick tris = Ok s /\ tree (fun _ => True) (nodes s) (indices s) k 0 0 (length tris) /\
  Permutation (indices s) (seq 0 (length tris)) /\ length (nodes s) = k /\ (k <= 2 * length tris - 1)%nat.
Proof.
  intros N. assert (L : (0 < length tris)%nat) by (destruct tris; [contradiction|cbn; lia]).
  destruct (build_subtree (2 * length tris) (length tris) 0 0 (length tris) [blank] (seq 0 (length tris))) as (k & ns & idx & K & LN & Rn & _ & M & T).
  - lia. - auto. - rewrite seq_length. auto. - cbn. lia. - cbn. lia.
  - exists k, (mkbuilding ns idx []). split.
    + unfold build. destruct (length tris) eqn:E; [lia|]. rewrite <- E in *.
      replace (2 * length tris)%nat with (k + (2 * length tris - k))%nat at 1 by lia. rewrite Rn. destruct (2 * length tris - k)%nat; reflexivity.
    + cbn. split; [eapply tree_frame; [exact T| | |]; auto|]. split; [apply (mv_perm _ _ _ _ M)|]. cbn in LN. lia.
Qed.
End Tree.
