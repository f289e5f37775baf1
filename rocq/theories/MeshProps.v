(** Crossings of a ray with a mesh of triangles. *)
From Coq Require Import Reals List Bool ZArith Lia Lra Permutation Sorting.Sorted.
From Verif Require Import TraversalModel VectorModel MeshModel MeshSpec MeshProofs MeshTreeProofs MeshSearchProofs MeshFloat.
Import ListNotations.
Open Scope R_scope.

(** ** C112: a ray and a triangle *)
(** The distance found is that of a point of the triangle, and the ray is not along the triangle. The front is hit when the ray goes against the normal. *)
Theorem C112_hit o d t h : d <> mkv 0 0 0 -> woop (prepare_ray o d) t = Some h ->
  mean_of (ta t) (tb t) (tc t) (point o d (h_t h)) /\ vdot (normal (ta t) (tb t) (tc t)) d <> 0 /\
  (h_front h = true <-> vdot (normal (ta t) (tb t) (tc t)) d < 0).
Proof. apply woop_sound. Qed.
(** A triangle the line goes through, borders included, is found at that distance. *)
Theorem C112_found o d t s : d <> mkv 0 0 0 -> vdot (normal (ta t) (tb t) (tc t)) d <> 0 -> mean_of (ta t) (tb t) (tc t) (point o d s) ->
  exists f, woop (prepare_ray o d) t = Some (mkhit s f).
Proof. apply woop_complete. Qed.
(** A ray along the triangle does not hit it. *)
Theorem C112_along o d t : d <> mkv 0 0 0 -> vdot (normal (ta t) (tb t) (tc t)) d = 0 -> woop (prepare_ray o d) t = None.
Proof. apply woop_parallel. Qed.

Definition sheet : triangle := mktri (mkv 0 0 1) (mkv 4 0 1) (mkv 0 4 1).
Lemma up_nonzero : mkv 0 0 (1) <> mkv 0 0 0.
Proof. intro E. injection E. lra. Qed.
Lemma sheet_met : woop (prepare_ray (mkv 1 1 0) (mkv 0 0 1)) sheet = Some (mkhit 1 false).
Proof.
  assert (N : vdot (normal (ta sheet) (tb sheet) (tc sheet)) (mkv 0 0 1) = 16) by (unfold normal, vdot; cbn; ring).
  destruct (C112_found (mkv 1 1 0) (mkv 0 0 1) sheet 1) as [f E].
  - apply up_nonzero.
  - rewrite N. lra.
  - exists (1/2), (1/4), (1/4). repeat split; try lra. apply veq3; cbn; field.
  - rewrite E. f_equal. f_equal. destruct f; auto. exfalso. destruct (C112_hit _ _ _ _ up_nonzero E) as (_ & _ & F). cbn [h_front] in F. assert (vdot (normal (ta sheet) (tb sheet) (tc sheet)) (mkv 0 0 1) < 0) by (apply F; reflexivity). lra.
Qed.
Example C112_case : mkv 0 0 1 <> mkv 0 0 0 /\ woop (prepare_ray (mkv 1 1 0) (mkv 0 0 1)) sheet = Some (mkhit 1 false) /\ mean_of (ta sheet) (tb sheet) (tc sheet) (point (mkv 1 1 0) (mkv 0 0 1) 1).
Proof.
  split; [apply up_nonzero|]. split; [apply sheet_met|]. exact (proj1 (C112_hit _ _ _ _ up_nonzero sheet_met)).
Qed.

(** ** C113: the tree of boxes *)
(** What trying every triangle finds. *)
Definition tried (o d : vec) (tris : list triangle) : list hit :=
  flat_map (fun t => match woop (prepare_ray o d) t with Some h => [h] | None => [] end) tris.

Lemma found_tried tris r : flat_map (found tris r) (seq 0 (length tris)) = flat_map (fun t => match woop r t with Some h => [h] | None => [] end) tris.
Proof.
  assert (G : forall l pre, tris = pre ++ l -> flat_map (found tris r) (seq (length pre) (length l)) = flat_map (fun t => match woop r t with Some h => [h] | None => [] end) l).
  { induction l as [|t l IH]; intros pre E; cbn; auto. f_equal.
    - unfold found, tri_at. rewrite E, nth_middle. reflexivity.
    - rewrite <- (IH (pre ++ [t])); [|rewrite E, <- app_assoc; reflexivity]. rewrite app_length. cbn. rewrite Nat.add_1_r. reflexivity. }
  apply (G tris []). reflexivity.
Qed.

(** A line is parallel to the first axis only if its parameters stay within the numbers of the test. *)
Definition in_range (o d : vec) (tris : list triangle) : Prop :=
  vx d = 0 -> forall t s, In t tris -> mean_of (ta t) (tb t) (tc t) (point o d s) -> Rabs s <= huge.

Definition representable (fl : R -> R) (tris : list triangle) : Prop :=
  forall t k, In t tris -> fl (coord k (ta t)) = coord k (ta t) /\ fl (coord k (tb t)) = coord k (tb t) /\ fl (coord k (tc t)) = coord k (tc t).

Lemma mean_box a b c p k : mean_of a b c p -> Rmin (coord k a) (Rmin (coord k b) (coord k c)) <= coord k p <= Rmax (coord k a) (Rmax (coord k b) (coord k c)).
Proof.
  intros (u & v & w & U & V & W & S & ->). rewrite !coord_vadd, !coord_vscale.
  set (x := coord k a). set (y := coord k b). set (z := coord k c).
  set (lo := Rmin x (Rmin y z)). set (hi := Rmax x (Rmax y z)).
  assert (lo <= x /\ lo <= y /\ lo <= z) by (unfold lo; pose proof (Rmin_l x (Rmin y z)); pose proof (Rmin_r x (Rmin y z)); pose proof (Rmin_l y z); pose proof (Rmin_r y z); lra).
  assert (x <= hi /\ y <= hi /\ z <= hi) by (unfold hi; pose proof (Rmax_l x (Rmax y z)); pose proof (Rmax_r x (Rmax y z)); pose proof (Rmax_l y z); pose proof (Rmax_r y z); lra).
  clearbody lo hi x y z. assert (lo = (u + v + w) * lo) by (rewrite S; ring). assert (hi = (u + v + w) * hi) by (rewrite S; ring).
  assert (u * lo <= u * x) by (apply Rmult_le_compat_l; tauto). assert (v * lo <= v * y) by (apply Rmult_le_compat_l; tauto). assert (w * lo <= w * z) by (apply Rmult_le_compat_l; tauto).
  assert (u * x <= u * hi) by (apply Rmult_le_compat_l; tauto). assert (v * y <= v * hi) by (apply Rmult_le_compat_l; tauto). assert (w * z <= w * hi) by (apply Rmult_le_compat_l; tauto).
  lra.
Qed.
Lemma min3 x y z : Rmin x (Rmin y z) = x \/ Rmin x (Rmin y z) = y \/ Rmin x (Rmin y z) = z.
Proof. unfold Rmin. destruct (Rle_dec y z); destruct (Rle_dec x _); auto. Qed.
Lemma max3 x y z : Rmax x (Rmax y z) = x \/ Rmax x (Rmax y z) = y \/ Rmax x (Rmax y z) = z.
Proof. unfold Rmax. destruct (Rle_dec y z); destruct (Rle_dec x _); auto. Qed.

Lemma is_complete fl tris idx o d : d <> mkv 0 0 0 -> representable fl tris -> in_range o d tris -> (length idx <= cap)%nat -> (forall i, In i idx -> (i < length tris)%nat) ->
  complete fl tris idx (prepare_ray o d) (inverse_dir d).
Proof.
  intros N RP IR L B. split; auto. intros nd ti h I HD W.
  assert (IT : In (tri_at tris ti) tris) by (apply nth_In; auto).
  destruct (woop_sound _ _ _ _ N W) as (M & _ & _).
  assert (OO : w_org (prepare_ray o d) = o) by (unfold prepare_ray; destruct (Rlt_dec _ 0); reflexivity). rewrite OO.
  apply (box_met _ _ _ (h_t h)); [intros X; eapply IR; eauto|].
  intros k. destruct (HD k) as [H1 H2]. unfold least in H1. unfold greatest in H2. pose proof (mean_box _ _ _ _ k M) as [M1 M2].
  destruct (RP _ k IT) as (F1 & F2 & F3).
  split.
  - eapply Rle_trans; [exact H1|]. eapply Rle_trans; [|exact M1]. destruct (min3 (coord k (ta (tri_at tris ti))) (coord k (tb (tri_at tris ti))) (coord k (tc (tri_at tris ti)))) as [E|[E|E]]; rewrite E; lra.
  - eapply Rle_trans; [|exact H2]. eapply Rle_trans; [exact M2|]. destruct (max3 (coord k (ta (tri_at tris ti))) (coord k (tb (tri_at tris ti))) (coord k (tc (tri_at tris ti)))) as [E|[E|E]]; rewrite E; lra.
Qed.

Section C113.
Variable fl : R -> R.
Variable pick : (nat -> R) -> list nat -> nat -> list nat.
Hypothesis pick_perm : forall f l k, Permutation (pick f l k) l.

(** Construction ends within the room reserved: fewer than twice as many nodes as triangles, and the indices are rearranged. *)
Theorem C113_build tris : exists s, build fl pick tris = Ok s /\ Permutation (indices s) (seq 0 (length tris)) /\
  (length (nodes s) <= 2 * length tris)%nat /\ (tris <> [] -> nodes s <> []).
Proof.
  assert (D : tris = [] \/ tris <> []) by (destruct tris; [left; auto|right; discriminate]).
  destruct D as [->|NE]; [exists (mkbuilding [] [] []); cbn; repeat split; auto; intros N; exfalso; apply N; reflexivity|].
  destruct (build_ok fl pick tris pick_perm NE) as (k & s & B & T & P & L & K).
  pose proof (tree_size _ _ _ _ _ _ _ _ _ T) as [K0 _]. exists s. split; [auto|]. split; [auto|]. split; [lia|]. intros _ N. rewrite N in L. cbn in L. lia.
Qed.

(** The search ends, reads no index out of range, and gives no crossing that is not one. *)
Theorem C113_safe tris s o d : build fl pick tris = Ok s ->
  exists l lost, raw_hits tris s o d = Ok l /\ Permutation (l ++ lost) (tried o d tris) /\
    (d <> mkv 0 0 0 -> representable fl tris -> in_range o d tris -> (Z.of_nat (length tris) <= 65535)%Z -> lost = []).
Proof.
  intros B. assert (D : tris = [] \/ tris <> []) by (destruct tris; [left; auto|right; discriminate]).
  destruct D as [->|NE]; [exists [], []; cbn; auto|].
  destruct (build_ok fl pick tris pick_perm NE) as (k & s' & B' & T & P & L & K). rewrite B in B'. injection B' as <-.
  pose proof (Permutation_length P) as LI. rewrite seq_length in LI.
  assert (RH : raw_hits tris s o d = search tris (length (nodes s)) (nodes s) (indices s) (prepare_ray o d) (inverse_dir d) [O] [] []).
  { unfold raw_hits. pose proof (tree_size _ _ _ _ _ _ _ _ _ T) as [K0 _]. clear - NE L K0. destruct tris; [contradiction|]. destruct (nodes s); [cbn in L; lia|]. reflexivity. }
  destruct (search_all fl tris (nodes s) (indices s) (prepare_ray o d) (inverse_dir d) (length (nodes s)) [] [(k, 0, 0, length tris)%nat] []) as (res & extra & S & PR & C).
  - auto.
  - constructor; auto. split; cbn; [exact T|unfold p_end; cbn; lia].
  - unfold sizes, p_size. cbn. lia.
  - exists res, extra. split; [rewrite RH; exact S|]. split.
    + rewrite PR. unfold all_found, found_in, p_begin, p_end. cbn. rewrite app_nil_r. unfold part. cbn. rewrite Nat.sub_0_r. rewrite <- LI, firstn_all.
      rewrite P. unfold tried. rewrite <- found_tried. reflexivity.
    + intros N RP IR M. apply C. apply is_complete; auto.
      * rewrite LI. unfold cap. lia.
      * intros i I. assert (I' : In i (seq 0 (length tris))) by (eapply Permutation_in; eauto). apply in_seq in I'. lia.
Qed.

(** With numbers representable as floats and at most 65535 triangles the search gives exactly what trying every triangle gives. *)
Theorem C113_search tris o d : d <> mkv 0 0 0 -> representable fl tris -> in_range o d tris -> (Z.of_nat (length tris) <= 65535)%Z ->
  exists s l, build fl pick tris = Ok s /\ raw_hits tris s o d = Ok l /\ Permutation l (tried o d tris).
Proof.
  intros N RP IR M. destruct (C113_build tris) as (s & B & _). destruct (C113_safe tris s o d B) as (l & lost & E & P & C).
  exists s, l. rewrite (C N RP IR M), app_nil_r in P. auto.
Qed.

(** In terms of points: the crossings are those of the line with the triangles it is not along. *)
Theorem C113_crossings tris o d : d <> mkv 0 0 0 -> representable fl tris -> in_range o d tris -> (Z.of_nat (length tris) <= 65535)%Z ->
  exists s l, build fl pick tris = Ok s /\ raw_hits tris s o d = Ok l /\
    forall x f, In (mkhit x f) l <-> exists t, In t tris /\ mean_of (ta t) (tb t) (tc t) (point o d x) /\
      vdot (normal (ta t) (tb t) (tc t)) d <> 0 /\ (f = true <-> vdot (normal (ta t) (tb t) (tc t)) d < 0).
Proof.
  intros N RP IR M. destruct (C113_search tris o d N RP IR M) as (s & l & B & E & P). exists s, l. split; auto. split; auto.
  intros x f. split.
  - intros I. assert (J : In (mkhit x f) (tried o d tris)) by (eapply Permutation_in; eauto). unfold tried in J. apply in_flat_map in J.
    destruct J as (t & T & W). exists t. split; auto. destruct (woop (prepare_ray o d) t) as [h|] eqn:Wo; [|contradiction]. destruct W as [->|[]].
    apply (C112_hit o d t _ N Wo).
  - intros (t & T & A & D & F). apply (Permutation_in _ (Permutation_sym P)). unfold tried. apply in_flat_map. exists t. split; auto.
    destruct (C112_found o d t x N D A) as [f' W]. rewrite W. left. f_equal. destruct (C112_hit _ _ _ _ N W) as (_ & _ & G). cbn in G.
    destruct f, f'; auto; destruct G, F; intuition congruence.
Qed.
End C113.

Definition as_is (f : nat -> R) (l : list nat) (k : nat) : list nat := l.
Lemma as_is_perm f l k : Permutation (as_is f l k) l.
Proof. reflexivity. Qed.

(** Two sheets, above one another. *)
Definition sheets : list triangle := [mktri (mkv 0 0 1) (mkv 1 0 1) (mkv 0 1 1); mktri (mkv 0 0 (-1)) (mkv 1 0 (-1)) (mkv 0 1 (-1))].
Lemma sheets_fit : representable to_float sheets.
Proof.
  assert (M : to_float (-1) = -1) by (replace (-1) with (- (1)) by ring; rewrite float_opp, float_1; ring).
  intros t k [<-|[<-|[]]]; destruct k; cbn; rewrite ?float_0, ?float_1, ?M; auto.
Qed.
Lemma sheets_range : in_range (mkv 0 0 0) (mkv 0 0 1) sheets.
Proof.
  intros _ t s I (u & v & w & _ & _ & _ & S & E). assert (F := f_equal vz E). cbn in F.
  assert (1 <= huge) by (apply pow_R1_Rle; lra). revert H. generalize huge. intros h H.
  destruct I as [<-|[<-|[]]]; cbn in F.
  - replace s with 1 by lra. rewrite Rabs_right; lra.
  - replace s with (-1) by lra. rewrite Rabs_left; lra.
Qed.
Example C113_case : mkv 0 0 1 <> mkv 0 0 0 /\ representable to_float sheets /\ in_range (mkv 0 0 0) (mkv 0 0 1) sheets /\ (Z.of_nat (length sheets) <= 65535)%Z /\
  exists s l, build to_float as_is sheets = Ok s /\ raw_hits sheets s (mkv 0 0 0) (mkv 0 0 1) = Ok l /\ In (mkhit 1 false) l.
Proof.
  split; [apply up_nonzero|]. split; [apply sheets_fit|]. split; [apply sheets_range|]. split; [cbn; lia|].
  destruct (C113_crossings to_float as_is as_is_perm sheets (mkv 0 0 0) (mkv 0 0 1) up_nonzero sheets_fit sheets_range) as (s & l & B & E & C); [cbn; lia|].
  exists s, l. split; auto. split; auto. apply C. exists (mktri (mkv 0 0 1) (mkv 1 0 1) (mkv 0 1 1)). split; [left; reflexivity|].
  split; [|unfold normal, vdot; cbn; split; [lra|split; [discriminate|lra]]].
  exists 1, 0, 0. repeat split; try lra. apply veq3; cbn; ring.
Qed.

(** ** Rounding of the boxes *)
(** The bottom of a tetrahedron, the apex at 3/2: the least height is rounded up. *)
Definition floor : R := 1 + 3 / 33554432.
Definition between : R := 1 + 7 / 67108864.
Definition pyramid : list triangle :=
  let a := mkv 0 (-1) floor in let b := mkv 0 1 floor in let c := mkv 1 0 floor in let p := mkv 0 0 (3/2) in
  [mktri a b p; mktri b c p; mktri c a p; mktri a c b].
Lemma floor_up : to_float floor = 1 + 1 / 8388608.
Proof. rewrite (float_near floor 8388609); [lra|unfold floor; lra|]. unfold floor. apply Rabs_def1; lra. Qed.

Lemma pyramid_tree : exists bb, build to_float as_is pyramid = Ok (mkbuilding [mknode bb 0 4] [0; 1; 2; 3]%nat []) /\ vz (b_lo bb) = 1 + 1 / 8388608.
Proof.
  exists (box_of to_float pyramid [0; 1; 2; 3]%nat). split; [reflexivity|].
  assert (F : floor < 3 / 2) by (unfold floor; lra).
  assert (L : forall i, In i [0; 1; 2; 3]%nat -> least to_float AZ (tri_at pyramid i) = 1 + 1 / 8388608).
  { rewrite <- floor_up. intros i [<-|[<-|[<-|[<-|[]]]]]; unfold least; f_equal; cbn.
    - rewrite (Rmin_left floor (3/2)) by lra. apply Rmin_left. lra.
    - rewrite (Rmin_left floor (3/2)) by lra. apply Rmin_left. lra.
    - rewrite (Rmin_left floor (3/2)) by lra. apply Rmin_left. lra.
    - rewrite (Rmin_left floor floor) by lra. apply Rmin_left. lra. }
  unfold box_of. cbn [b_lo vz]. unfold low. cbn [fold_left]. rewrite !L by (cbn; auto).
  set (h := 1 + 1 / 8388608). assert (h <= big). { unfold h, big. apply Rle_trans with (10 ^ 1); [lra|apply Rle_pow; [lra|lia]]. }
  rewrite (Rmin_right big h) by auto. rewrite !(Rmin_left h h) by lra. reflexivity.
Qed.

(** A crossing is lost when the bounds of a node, rounded to the nearest float, do not hold its triangles. *)
Theorem C113_rounding_refuted : exists tris s o d, build to_float as_is tris = Ok s /\
  (exists t x, In t tris /\ mean_of (ta t) (tb t) (tc t) (point o d x) /\ vdot (normal (ta t) (tb t) (tc t)) d <> 0) /\ raw_hits tris s o d = Ok [].
Proof.
  destruct pyramid_tree as (bb & B & L). exists pyramid. eexists. exists (mkv (-1) 0 between), (mkv 1 0 0). split; [exact B|]. split.
  - exists (mktri (mkv 0 (-1) floor) (mkv 0 1 floor) (mkv 0 0 (3/2))), 1. split; [left; reflexivity|]. cbn [ta tb tc]. split.
    + set (w := (between - floor) / (3/2 - floor)).
      assert (W : w * (3/2 - floor) = between - floor) by (unfold w; field; unfold floor; lra).
      assert (W2 : 0 <= w <= 1).
      { assert (0 < 3/2 - floor) by (unfold floor; lra). assert (0 <= between - floor <= 3/2 - floor) by (unfold between, floor; lra).
        split; [apply Rmult_le_pos; [lra|apply Rlt_le, Rinv_0_lt_compat; lra]|]. apply (Rmult_le_reg_r (3/2 - floor)); [lra|]. rewrite W. lra. }
      clearbody w. exists ((1 - w) / 2), ((1 - w) / 2), w. repeat split; try lra. apply veq3; cbn; [ring|field|]. lra.
    + unfold normal, vdot; cbn. unfold floor. lra.
  - unfold raw_hits. cbn [nodes indices pyramid length search hd tl nth_error n_box].
    assert (RB : ray_box bb (mkv (-1) 0 between) (inverse_dir (mkv 1 0 0)) = false).
    { unfold ray_box, inverse_dir. cbn [vx vy vz]. rewrite L. unfold inverse_of at 1. destruct (Req_EM_T 0 0); [|lra].
      unfold slab_next at 1. destruct (slab_next _ _ _ _ _) as [[p q]|]; auto. destruct (Req_EM_T 0 0); [|lra].
      unfold beside. destruct (Rlt_dec between (1 + 1 / 8388608)) as [|H]; [reflexivity|]. exfalso. apply H. unfold between. lra. }
    assert (OO : w_org (prepare_ray (mkv (-1) 0 between) (mkv 1 0 0)) = mkv (-1) 0 between) by (unfold prepare_ray; destruct (Rlt_dec _ 0); reflexivity).
    rewrite OO, RB. reflexivity.
Qed.

(** ** Many triangles about one point *)
Lemma cap_value : cap = Z.to_nat 65535. Proof. reflexivity. Qed.
Local Opaque cap.
Definition small_one : triangle := mktri (mkv 1 0 0) (mkv 0 1 0) (mkv (-1) (-1) 0).
Definition large_one : triangle := mktri (mkv 10 0 0) (mkv 0 10 0) (mkv (-10) (-10) 0).
Definition crowd : list triangle := repeat small_one cap ++ [large_one].

Lemma crowd_centroid k i : (i < length crowd)%nat -> centroid to_float crowd k i = 0.
Proof.
  intros L. unfold centroid, tri_at. unfold crowd in *. rewrite app_length, repeat_length in L. change (length [large_one]) with 1%nat in L.
  assert (E : nth i (repeat small_one cap ++ [large_one]) flat = small_one \/ nth i (repeat small_one cap ++ [large_one]) flat = large_one).
  { destruct (le_lt_dec cap i).
    - right. rewrite app_nth2; rewrite repeat_length; [|lia]. replace (i - cap)%nat with 0%nat by lia. reflexivity.
    - left. rewrite app_nth1; [|rewrite repeat_length; lia]. apply (repeat_spec cap). apply nth_In. rewrite repeat_length. lia. }
  rewrite <- float_0. f_equal. destruct E as [-> | ->]; destruct k; cbn; field.
Qed.
Lemma fold_zero_min (f : nat -> R) l x : (forall i, In i l -> f i = 0) -> l <> [] -> 0 <= x -> fold_left (fun b i => Rmin b (f i)) l x = 0.
Proof.
  intros F N X. revert x X. induction l as [|a l IH]; [contradiction|]. intros x X. cbn. rewrite (F a) by (left; auto). rewrite Rmin_right by lra.
  destruct l as [|b l]; [reflexivity|]. apply IH; [intros; apply F; right; auto|discriminate|lra].
Qed.
Lemma fold_zero_max (f : nat -> R) l x : (forall i, In i l -> f i = 0) -> l <> [] -> x <= 0 -> fold_left (fun b i => Rmax b (f i)) l x = 0.
Proof.
  intros F N X. revert x X. induction l as [|a l IH]; [contradiction|]. intros x X. cbn. rewrite (F a) by (left; auto). rewrite Rmax_right by lra.
  destruct l as [|b l]; [reflexivity|]. apply IH; [intros; apply F; right; auto|discriminate|lra].
Qed.
Lemma big_pos : 0 <= big.
Proof. unfold big. apply pow_le. lra. Qed.

Lemma crowd_length : length crowd = S cap.
Proof. unfold crowd. rewrite app_length, repeat_length. change (length [large_one]) with 1%nat. lia. Qed.

Lemma crowd_tree : exists bb, build to_float as_is crowd = Ok (mkbuilding [mknode bb 0 cap] (seq 0 (length crowd)) []).
Proof.
  exists (box_of to_float crowd (seq 0 (length crowd))). unfold build. pose proof crowd_length as L. pose proof cap_8 as C8.
  destruct (length crowd) as [|n] eqn:E; [lia|]. rewrite <- E in *.
  assert (F : firstn (length crowd - 0) (skipn 0 (seq 0 (length crowd))) = seq 0 (length crowd)).
  { cbn [skipn]. rewrite Nat.sub_0_r. rewrite <- (seq_length (length crowd) 0) at 1. apply firstn_all. }
  assert (B : exists f, (2 * length crowd = S (S f))%nat) by (exists (2 * length crowd - 2)%nat; lia). destruct B as [f B].
  rewrite B at 1. cbn [build_loop tasks nodes indices]. unfold build_step. cbn [nodes indices tasks]. rewrite F.
  assert (G : Nat.leb (length crowd - 0) 8 = false) by (apply Nat.leb_gt; lia). rewrite G.
  set (k := long_axis to_float crowd (seq 0 (length crowd))).
  assert (X : extent to_float crowd k (seq 0 (length crowd)) = 0).
  { unfold extent, high, low. assert (NE : seq 0 (length crowd) <> []) by (rewrite E; discriminate).
    assert (Z : forall i, In i (seq 0 (length crowd)) -> centroid to_float crowd k i = 0) by (intros i I; apply in_seq in I; apply crowd_centroid; lia).
    rewrite fold_zero_min, fold_zero_max; auto; [lra|pose proof big_pos; lra|apply big_pos]. }
  rewrite X. destruct (Rlt_dec 0 (1 / 10 ^ 10)) as [|H]; [|exfalso; apply H; apply Rdiv_lt_0_compat; [lra|apply pow_lt; lra]].
  rewrite <- cap_value. rewrite Nat.min_r by lia. reflexivity.
Qed.

(** Of more than 65535 triangles about one point the rest is never looked at. *)
Theorem C113_many_refuted : exists tris s o d, build to_float as_is tris = Ok s /\
  (exists t x, In t tris /\ mean_of (ta t) (tb t) (tc t) (point o d x) /\ vdot (normal (ta t) (tb t) (tc t)) d <> 0) /\ raw_hits tris s o d = Ok [].
Proof.
  destruct crowd_tree as [bb B]. exists crowd. eexists. exists (mkv 3 3 (-1)), (mkv 0 0 1). split; [exact B|]. split.
  - exists large_one, 1. split; [apply in_or_app; right; left; reflexivity|]. split.
    + exists (13/30), (13/30), (2/15). repeat split; try lra. apply veq3; cbn; field.
    + unfold normal, vdot; cbn. lra.
  - assert (NE : raw_hits crowd (mkbuilding [mknode bb 0 cap] (seq 0 (length crowd)) []) (mkv 3 3 (-1)) (mkv 0 0 1) =
      search crowd 1 [mknode bb 0 cap] (seq 0 (length crowd)) (prepare_ray (mkv 3 3 (-1)) (mkv 0 0 1)) (inverse_dir (mkv 0 0 1)) [0%nat] [] []).
    { unfold raw_hits. cbn [nodes indices length]. pose proof crowd_length. destruct crowd; [discriminate|]. reflexivity. }
    rewrite NE, search_stack. unfold visit. cbn [nth_error n_box n_count n_offset].
    destruct (ray_box _ _ _); [|reflexivity]. cbn [negb].
    assert (C : Nat.ltb 0 cap = true) by (apply Nat.ltb_lt; pose proof cap_8; lia). rewrite C.
    rewrite leaf_all by (rewrite seq_length, crowd_length; lia).
    assert (F : found_in crowd (seq 0 (length crowd)) (prepare_ray (mkv 3 3 (-1)) (mkv 0 0 1)) 0 (0 + cap) = []).
    { unfold found_in, part. rewrite Nat.add_0_l, Nat.sub_0_r. cbn [skipn].
      assert (H : forall i, In i (firstn cap (seq 0 (length crowd))) -> found crowd (prepare_ray (mkv 3 3 (-1)) (mkv 0 0 1)) i = []).
      { intros i I. rewrite crowd_length in I. replace (S cap) with (cap + 1)%nat in I by lia. rewrite seq_app in I.
        rewrite firstn_app, firstn_all2, seq_length, Nat.sub_diag in I by (rewrite seq_length; lia). rewrite firstn_O, app_nil_r in I. apply in_seq in I.
        unfold found, tri_at, crowd. rewrite app_nth1 by (rewrite repeat_length; lia).
        replace (nth i (repeat small_one cap) flat) with small_one by (symmetry; apply (repeat_spec cap); apply nth_In; rewrite repeat_length; lia).
        destruct (woop _ small_one) as [h|] eqn:W; [|reflexivity]. exfalso. destruct (C112_hit _ _ _ _ up_nonzero W) as ((u & v & w & U & V & Wp & S & E) & _).
        assert (E1 := f_equal vx E). assert (E2 := f_equal vy E). cbn in E1, E2. lra. }
      induction (firstn cap (seq 0 (length crowd))) as [|a l IH]; [reflexivity|]. cbn. rewrite H by (left; auto). apply IH. intros; apply H; right; auto. }
    rewrite F. reflexivity.
Qed.

Print Assumptions C112_hit.
Print Assumptions C112_found.
Print Assumptions C112_along.
Print Assumptions C113_build.
Print Assumptions C113_safe.
Print Assumptions C113_search.
Print Assumptions C113_crossings.
Print Assumptions C113_rounding_refuted.
Print Assumptions C113_many_refuted.
