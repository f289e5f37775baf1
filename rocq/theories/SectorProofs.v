(** Proofs about sector registration and sector queries. *)
From Coq Require Import Reals ZArith String Lra Lia List Bool Permutation Arith.
From Verif Require Import TraversalModel VectorModel QuatModel QuatSpec QuatProofs GeometryModel GeometrySpec GeometryProofs GeometryCsg GeometryShape SectorModel SectorSpec.
Import ListNotations.
Open Scope R_scope.

Section Hierarchy.
Context {A : Type}.
Variable big : R.
Variable plan : list (nat * aabb) -> option (list (nat * aabb) * nat).
Hypothesis Pl : rearranges plan.

Definition inside_of (b c : aabb) : Prop := forall q, in_aabb c q -> in_aabb b q.

Lemma node_bounds_ok l : forall e, In e l -> inside_of (node_bounds big l) (snd e).
Proof.
  unfold node_bounds.
  assert (G : forall l b, (forall e, In e l -> inside_of (fold_left (fun b e => expand_box b (snd e)) l b) (snd e)) /\
    inside_of (fold_left (fun b (e : nat * aabb) => expand_box b (snd e)) l b) b).
  { clear l. induction l as [|a l IH]; intros b; cbn; [split; [intros e []|intros q H; exact H]|].
    destruct (IH (expand_box b (snd a))) as [U V]. split.
    - intros e [<-|E]; auto. intros q H. apply V. apply expand_box_ok. auto.
    - intros q H. apply V. apply expand_box_ok. auto. }
  apply G.
Qed.

(** A tree over a list of sectors with their boxes. *)
Fixpoint leaves (t : bvh) : list nat := match t with Leaf _ i => [i] | Node _ l r => leaves l ++ leaves r end.
Inductive tree_ok : bvh -> list (nat * aabb) -> Prop :=
| ok_leaf b i c : inside_of b c -> tree_ok (Leaf b i) [(i, c)]
| ok_node b l r la lb lc : (forall e, In e lc -> inside_of b (snd e)) -> Permutation lc (la ++ lb) -> tree_ok l la -> tree_ok r lb -> tree_ok (Node b l r) lc.

Lemma build_ok : forall k l, (0 < List.length l <= k)%nat -> exists t, build big plan k l = Some t /\ tree_ok t l.
Proof.
  induction k as [|k IH]; intros l L; [lia|]. destruct l as [|[i c] [|e l]]; [cbn in L; lia| |].
  - exists (Leaf (node_bounds big [(i, c)]) i). split; [reflexivity|]. constructor. exact (node_bounds_ok [(i, c)] (i, c) (or_introl eq_refl)).
  - set (all := (i, c) :: e :: l) in *. cbn [build]. fold all.
    assert (S : exists l' mid, (match plan all with None => (all, Nat.div (List.length all) 2) | Some (l', m) => (l', Nat.min (Nat.max m 1) (List.length all - 1)) end) = (l', mid) /\
      Permutation l' all /\ (0 < mid < List.length all)%nat).
    { assert (N : (2 <= List.length all)%nat) by (unfold all; cbn; lia). destruct (plan all) as [[l' m]|] eqn:E.
      - exists l', (Nat.min (Nat.max m 1) (List.length all - 1)). split; auto. split; [eapply Pl; eauto|lia].
      - exists all, (Nat.div (List.length all) 2). split; auto. split; [apply Permutation_refl|].
        split; [apply Nat.div_str_pos; lia|apply Nat.div_lt; lia]. }
    destruct S as (l' & mid & E & P & M). unfold all at 1. fold all. rewrite E.
    pose proof (Permutation_length P) as Lp.
    destruct (IH (firstn mid l')) as (ta & Ea & Ta); [rewrite firstn_length; lia|].
    destruct (IH (skipn mid l')) as (tb & Eb & Tb); [rewrite skipn_length; lia|].
    rewrite Ea, Eb. eexists. split; [reflexivity|]. eapply ok_node; [apply node_bounds_ok| |exact Ta|exact Tb].
    rewrite firstn_skipn. apply Permutation_sym. exact P.
Qed.
Lemma tree_leaves t l : tree_ok t l -> Permutation (leaves t) (map fst l).
Proof.
  induction 1 as [b i c H|b l r la lb lc H P Tl IHl Tr IHr]; cbn; [auto|].
  eapply perm_trans; [apply Permutation_app; eassumption|]. rewrite <- map_app. apply Permutation_map, Permutation_sym. exact P.
Qed.

(** The three kinds of sectors. *)
Lemma classify_ok : forall (l : list (sector A)) i inf inv fin, classify big i l = (inf, inv, fin) ->
  Permutation (seq i (List.length l)) (inf ++ inv ++ map fst fin) /\
  (forall j, In j inf -> exists s, nth_error l (j - i) = Some s /\ world_box big (s_geo s) = None) /\
  (forall j, In j inv -> exists s b, nth_error l (j - i) = Some s /\ world_box big (s_geo s) = Some b /\ aabb_valid b = false) /\
  (forall e, In e fin -> exists s, nth_error l (fst e - i) = Some s /\ world_box big (s_geo s) = Some (snd e) /\ aabb_valid (snd e) = true).
Proof.
  induction l as [|s l IH]; intros i inf inv fin E; cbn in E.
  - injection E as <- <- <-. split; [apply Permutation_refl|]. repeat split; intros ? [].
  - destruct (classify big (S i) l) as [[inf0 inv0] fin0] eqn:E0. destruct (IH _ _ _ _ E0) as (P & Q1 & Q2 & Q3).
    assert (ge : forall j, In j (inf0 ++ inv0 ++ map fst fin0) -> (S i <= j)%nat).
    { intros j J. apply (Permutation_in _ (Permutation_sym P)) in J. apply in_seq in J. lia. }
    assert (nth : forall j, (S i <= j)%nat -> nth_error (s :: l) (j - i) = nth_error l (j - S i)) by (intros j J; replace (j - i)%nat with (S (j - S i)) by lia; reflexivity).
    assert (R1 : forall j, In j inf0 -> exists s0, nth_error (s :: l) (j - i) = Some s0 /\ world_box big (s_geo s0) = None).
    { intros j J. rewrite nth by (apply ge, in_or_app; auto). auto. }
    assert (R2 : forall j, In j inv0 -> exists s0 b, nth_error (s :: l) (j - i) = Some s0 /\ world_box big (s_geo s0) = Some b /\ aabb_valid b = false).
    { intros j J. rewrite nth by (apply ge; rewrite !in_app_iff; auto). auto. }
    assert (R3 : forall e, In e fin0 -> exists s0, nth_error (s :: l) (fst e - i) = Some s0 /\ world_box big (s_geo s0) = Some (snd e) /\ aabb_valid (snd e) = true).
    { intros e J. rewrite nth by (apply ge; rewrite !in_app_iff; right; right; apply in_map; auto). auto. }
    assert (Z0 : nth_error (s :: l) (i - i) = Some s) by (rewrite Nat.sub_diag; reflexivity).
    cbn [List.length seq]. destruct (world_box big (s_geo s)) as [b|] eqn:W; [destruct (aabb_valid b) eqn:V|]; injection E as <- <- <-.
    + split; [|split; [auto|split; auto]].
      * cbn. eapply perm_trans; [apply perm_skip, P|]. rewrite !app_assoc. apply Permutation_middle.
      * intros e [<-|H]; auto. exists s. cbn [fst snd]. auto.
    + split; [|split; [auto|split; auto]].
      * cbn. eapply perm_trans; [apply perm_skip, P|]. apply Permutation_middle.
      * intros j [<-|H]; auto. exists s, b. auto.
    + split; [|split; [|auto]].
      * cbn. apply perm_skip. exact P.
      * intros j [<-|H]; auto. exists s. auto.
Qed.

(** What a query starts from. *)
Record cached (m : detector A) : Prop := {
  ca_perm : exists fin, Permutation (seq 0 (List.length (d_sectors m))) (c_infinite (d_cache m) ++ c_invalid (d_cache m) ++ map fst fin) /\
    match c_tree (d_cache m) with None => fin = [] | Some t => tree_ok t fin end /\
    (forall e, In e fin -> exists s, nth_error (d_sectors m) (fst e) = Some s /\ world_box big (s_geo s) = Some (snd e) /\ aabb_valid (snd e) = true);
  ca_inf : forall j, In j (c_infinite (d_cache m)) -> exists s, nth_error (d_sectors m) j = Some s /\ world_box big (s_geo s) = None;
  ca_inv : forall j, In j (c_invalid (d_cache m)) -> exists s b, nth_error (d_sectors m) j = Some s /\ world_box big (s_geo s) = Some b /\ aabb_valid b = false
}.
Lemma rebuild_cached (m : detector A) : cached (rebuild big plan m).
Proof.
  unfold rebuild. destruct (classify big 0 (d_sectors m)) as [[inf inv] fin] eqn:E. destruct (classify_ok _ _ _ _ _ E) as (P & Q1 & Q2 & Q3).
  assert (Z : forall j, (j - 0)%nat = j) by (intros; lia).
  constructor; cbn [d_sectors d_cache c_infinite c_invalid c_tree].
  - exists fin. split; [exact P|]. split.
    + destruct fin as [|e fin]; [reflexivity|]. destruct (build_ok (List.length (e :: fin)) (e :: fin)) as (t & -> & T); [cbn; lia|exact T].
    + intros e H. destruct (Q3 e H) as (s & S). rewrite Z in S. eauto.
  - intros j H. destruct (Q1 j H) as (s & S). rewrite Z in S. eauto.
  - intros j H. destruct (Q2 j H) as (s & b & S). rewrite Z in S. eauto.
Qed.

(** ** Containing sector *)
Definition best_of (imin : Z) (p : vec) (seen : list (sector A)) (b : best A) : Prop :=
  match snd b with
  | None => fst b = imin /\ forall s, In s seen -> geo_inside (s_geo s) p = false
  | Some s => fst b = s_level s /\ In s seen /\ geo_inside (s_geo s) p = true /\ forall s', In s' seen -> geo_inside (s_geo s') p = true -> (s_level s' <= s_level s)%Z
  end.
Lemma best_more imin p seen s b : best_of imin p seen b -> geo_inside (s_geo s) p = false -> best_of imin p (seen ++ [s]) b.
Proof.
  intros B N. unfold best_of in *. destruct (snd b) as [s0|].
  - destruct B as (B1 & B2 & B3 & B4). split; [auto|]. split; [apply in_or_app; auto|]. split; [auto|].
    intros s' H I. apply in_app_or in H as [H|[<-|[]]]; auto. congruence.
  - destruct B as (B1 & B2). split; auto. intros s' H. apply in_app_or in H as [H|[<-|[]]]; auto.
Qed.
Lemma consider_ok imin p seen s b (al : bool) : best_of imin p seen b -> (if al then imin <= s_level s else imin < s_level s)%Z ->
  best_of imin p (seen ++ [s]) (consider al (geo_inside (s_geo s) p) s b).
Proof.
  intros B L. unfold consider. destruct (geo_inside (s_geo s) p) eqn:I; [|rewrite andb_false_r; apply best_more; auto].
  rewrite andb_true_r. destruct (if al then (fst b <=? s_level s)%Z else (fst b <? s_level s)%Z) eqn:C.
  - unfold best_of. cbn. split; [auto|]. split; [apply in_or_app; right; left; auto|]. split; [auto|].
    assert (C' : (fst b <= s_level s)%Z) by (destruct al; [apply Z.leb_le in C; lia|apply Z.ltb_lt in C; lia]).
    intros s' H I'. apply in_app_or in H as [H|[<-|[]]]; [|lia]. unfold best_of in B. destruct (snd b) as [s0|].
    + destruct B as (B1 & B2 & B3 & B4). specialize (B4 s' H I'). lia.
    + destruct B as (B1 & B2). rewrite B2 in I' by auto. discriminate.
  - assert (C' : (s_level s <= fst b)%Z) by (destruct al; [apply Z.leb_gt in C; lia|apply Z.ltb_ge in C; lia]).
    unfold best_of in *. destruct (snd b) as [s0|].
    + destruct B as (B1 & B2 & B3 & B4). split; [auto|]. split; [apply in_or_app; auto|]. split; [auto|].
      intros s' H I'. apply in_app_or in H as [H|[<-|[]]]; auto. lia.
    + exfalso. destruct B as (B1 & B2). destruct al; [apply Z.leb_gt in C; lia|lia].
Qed.

Definition pick (sectors : list (sector A)) (l : list nat) : list (sector A) :=
  flat_map (fun i => match nth_error sectors i with Some s => [s] | None => [] end) l.
Lemma pick_app sectors l l' : pick sectors (l ++ l') = pick sectors l ++ pick sectors l'.
Proof. apply flat_map_app. Qed.
Lemma pick_all sectors : pick sectors (seq 0 (List.length sectors)) = sectors.
Proof.
  unfold pick. assert (G : forall (pre l : list (sector A)), flat_map (fun i => match nth_error (pre ++ l) i with Some s => [s] | None => [] end) (seq (List.length pre) (List.length l)) = l).
  { intros pre l. revert pre. induction l as [|s l IH]; intros pre; cbn; auto. rewrite nth_error_app2, Nat.sub_diag by lia. cbn. f_equal.
    specialize (IH (pre ++ [s])). rewrite <- app_assoc in IH. cbn in IH. rewrite app_length in IH. cbn in IH. rewrite Nat.add_1_r in IH. exact IH. }
  exact (G [] sectors).
Qed.

Lemma scan_ok imin p sectors (al ask : bool) : forall l seen b, best_of imin p seen b ->
  (forall i, In i l -> exists s, nth_error sectors i = Some s /\ (if al then imin <= s_level s else imin < s_level s)%Z /\ (ask = false -> geo_inside (s_geo s) p = true)) ->
  exists b', scan al ask sectors p l b = Ok b' /\ best_of imin p (seen ++ pick sectors l) b'.
Proof.
  induction l as [|i l IH]; intros seen b B H; cbn [scan].
  - exists b. unfold pick. cbn. rewrite app_nil_r. auto.
  - destruct (H i (or_introl eq_refl)) as (s & E & L & I). rewrite E.
    assert (B' : best_of imin p (seen ++ [s]) (consider al (if ask then geo_inside (s_geo s) p else true) s b)).
    { replace (if ask then geo_inside (s_geo s) p else true) with (geo_inside (s_geo s) p) by (destruct ask; auto). apply consider_ok; auto. }
    destruct (IH _ _ B' (fun j J => H j (or_intror J))) as (b' & E' & B''). exists b'. split; auto.
    unfold pick in *. cbn [flat_map]. rewrite E. cbn. rewrite <- app_assoc in B''. exact B''.
Qed.

Lemma best_none imin p seen l b : best_of imin p seen b -> (forall s, In s l -> geo_inside (s_geo s) p = false) -> best_of imin p (seen ++ l) b.
Proof.
  intros B. revert seen B. induction l as [|s l IH]; intros seen B H; [rewrite app_nil_r; auto|].
  change (s :: l) with ([s] ++ l). rewrite app_assoc. apply IH; [|intros; apply H; right; auto]. apply best_more; auto. apply H. left. auto.
Qed.

Lemma tree_find imin p sectors t l : tree_ok t l -> 
  (forall e, In e l -> exists s, nth_error sectors (fst e) = Some s /\ (imin < s_level s)%Z /\ (geo_inside (s_geo s) p = true -> in_aabb (snd e) p)) ->
  forall seen b, best_of imin p seen b -> exists b', find_tree sectors p t b = Ok b' /\ best_of imin p (seen ++ pick sectors (leaves t)) b'.
Proof.
  induction 1 as [bd i c Hb|bd l r la lb lc Hb P Tl IHl Tr IHr]; intros H seen b B; cbn [find_tree leaves].
  - destruct (H (i, c) (or_introl eq_refl)) as (s & E & L & I). cbn [fst snd] in *.
    assert (Ep : pick sectors [i] = [s]) by (unfold pick; cbn; rewrite E; reflexivity). rewrite Ep.
    destruct (aabb_contains bd p) eqn:C.
    + rewrite E. eexists. split; [reflexivity|]. apply consider_ok; auto.
    + exists b. split; auto. apply best_more; auto. apply not_true_is_false. intros X. apply I, Hb in X. apply aabb_contains_iff in X. congruence.
  - assert (Hl : forall e, In e la -> In e lc) by (intros e X; apply (Permutation_in _ (Permutation_sym P)), in_or_app; auto).
    assert (Hr : forall e, In e lb -> In e lc) by (intros e X; apply (Permutation_in _ (Permutation_sym P)), in_or_app; auto).
    destruct (aabb_contains bd p) eqn:C.
    + destruct (IHl (fun e X => H e (Hl e X)) _ _ B) as (b1 & E1 & B1). rewrite E1.
      destruct (IHr (fun e X => H e (Hr e X)) _ _ B1) as (b2 & E2 & B2). exists b2. split; auto. rewrite pick_app, app_assoc. exact B2.
    + exists b. split; auto. apply best_none; auto. intros s Hs. unfold pick in Hs. apply in_flat_map in Hs as (i & Hi & Hs).
      assert (Pi : Permutation (leaves l ++ leaves r) (map fst lc)) by exact (tree_leaves (Node bd l r) lc (ok_node _ _ _ _ _ _ Hb P Tl Tr)).
      apply (Permutation_in _ Pi) in Hi. apply in_map_iff in Hi as (e & <- & He). destruct (H e He) as (s' & E & L & I). rewrite E in Hs. destruct Hs as [<-|[]].
      apply not_true_is_false. intros X. apply I in X. apply (Hb e He) in X. apply aabb_contains_iff in X. congruence.
Qed.

Lemma fresh_sectors (m : detector A) : d_sectors (fresh big plan m) = d_sectors m.
Proof. unfold fresh, rebuild. destruct (d_dirty m); [destruct (classify big 0 (d_sectors m)) as [[? ?] ?]|]; reflexivity. Qed.

Lemma containing_ok imin (m : detector A) p : cached (fresh big plan m) ->
  (forall s, In s (d_sectors m) -> (imin <= s_level s)%Z /\ (world_box big (s_geo s) <> None -> imin < s_level s)%Z /\ sound_at big (s_geo s) p) ->
  exists r, containing big plan imin m p = Ok r /\ highest (d_sectors m) p r.
Proof.
  intros C H. rewrite <- (fresh_sectors m) in *. set (m' := fresh big plan m) in *. unfold containing. fold m'.
  assert (nin : forall i s, nth_error (d_sectors m') i = Some s -> In s (d_sectors m')) by (intros; eapply nth_error_In; eauto).
  destruct C as [(fin & P & T & F) Ci Cv].
  destruct (scan_ok imin p (d_sectors m') true false (c_infinite (d_cache m')) [] (imin, None)) as (b1 & -> & B1).
  { split; [auto|intros s []]. }
  { intros i Hi. destruct (Ci i Hi) as (s & E & W). exists s. split; [auto|]. destruct (H s (nin _ _ E)) as (L & _ & So). unfold sound_at in So. rewrite W in So. auto. }
  destruct (scan_ok imin p (d_sectors m') false true (c_invalid (d_cache m')) _ b1 B1) as (b2 & -> & B2).
  { intros i Hi. destruct (Cv i Hi) as (s & b & E & W & V). exists s. split; [auto|]. destruct (H s (nin _ _ E)) as (_ & L & _). split; [apply L; rewrite W; discriminate|discriminate]. }
  assert (B3 : exists b3, (match c_tree (d_cache m') with None => Ok b2 | Some t => find_tree (d_sectors m') p t b2 end) = Ok b3 /\
    best_of imin p (([] ++ pick (d_sectors m') (c_infinite (d_cache m'))) ++ pick (d_sectors m') (c_invalid (d_cache m')) ++ pick (d_sectors m') (map fst fin)) b3).
  { destruct (c_tree (d_cache m')) as [t|].
    - destruct (tree_find imin p (d_sectors m') t fin T) with (seen := ([] ++ pick (d_sectors m') (c_infinite (d_cache m'))) ++ pick (d_sectors m') (c_invalid (d_cache m'))) (b := b2) as (b3 & E3 & B3); auto.
      + intros e He. destruct (F e He) as (s & E & W & V). exists s. split; [auto|]. destruct (H s (nin _ _ E)) as (_ & L & So). unfold sound_at in So. rewrite W in *.
        split; [apply L; discriminate|]. intros I. auto.
      + exists b3. split; auto. rewrite app_assoc. clear -B3 T. unfold best_of in *.
        assert (X : forall s, In s (pick (d_sectors m') (leaves t)) <-> In s (pick (d_sectors m') (map fst fin))).
        { intros s. unfold pick. rewrite !in_flat_map. pose proof (tree_leaves _ _ T) as Q. split; intros (i & I & J); exists i; split; auto;
          [apply (Permutation_in _ Q)|apply (Permutation_in _ (Permutation_sym Q))]; auto. }
        assert (Y : forall s, In s (([] ++ pick (d_sectors m') (c_infinite (d_cache m'))) ++ pick (d_sectors m') (c_invalid (d_cache m')) ++ pick (d_sectors m') (leaves t)) <->
          In s (([] ++ pick (d_sectors m') (c_infinite (d_cache m'))) ++ pick (d_sectors m') (c_invalid (d_cache m')) ++ pick (d_sectors m') (map fst fin))).
        { intros s. rewrite !in_app_iff, X. tauto. }
        rewrite <- app_assoc in *. destruct (snd b3) as [s0|].
        * destruct B3 as (U1 & U2 & U3 & U4). split; [auto|]. split; [apply Y; auto|]. split; [auto|]. intros s' S'. apply U4. apply Y. auto.
        * destruct B3 as (U1 & U2). split; auto. intros s' S'. apply U2. apply Y. auto.
    - exists b2. split; auto. rewrite T. cbn [map]. unfold pick at 3. cbn [flat_map]. rewrite app_nil_r. exact B2. }
  destruct B3 as (b3 & -> & B3). exists (snd b3). split; auto.
  assert (Y : forall s, In s (([] ++ pick (d_sectors m') (c_infinite (d_cache m'))) ++ pick (d_sectors m') (c_invalid (d_cache m')) ++ pick (d_sectors m') (map fst fin)) <-> In s (d_sectors m')).
  { intros s. rewrite <- (pick_all (d_sectors m')) at 4. cbn [app]. rewrite <- !pick_app. unfold pick. rewrite !in_flat_map.
    split; intros (i & I & J); exists i; split; auto; [apply (Permutation_in _ (Permutation_sym P))|apply (Permutation_in _ P)]; auto. }
  unfold best_of, highest in *. destruct (snd b3) as [s0|].
  - destruct B3 as (U1 & U2 & U3 & U4). split; [apply Y; auto|]. split; [auto|]. intros s' S'. apply U4. apply Y. auto.
  - destruct B3 as (U1 & U2). intros s' S'. apply U2. apply Y. auto.
Qed.

(** ** Intersections *)
Definition hits_of (sectors : list (sector A)) (p d : vec) (i : nat) : list labelled := match nth_error sectors i with Some s => sector_hits s p d | None => [] end.

Lemma append_all_ok sectors p d : forall l acc, (forall i, In i l -> nth_error sectors i <> None) ->
  append_all sectors p d l acc = Ok (acc ++ flat_map (hits_of sectors p d) l).
Proof.
  induction l as [|i l IH]; intros acc H; cbn [append_all flat_map]; [rewrite app_nil_r; auto|].
  unfold hits_of at 1. destruct (nth_error sectors i) as [s|] eqn:E; [|elim (H i (or_introl eq_refl) E)].
  rewrite IH by (intros j J; apply H; right; auto). rewrite app_assoc. reflexivity.
Qed.

Lemma sector_hits_nil (s : sector A) p d : well_placed (g_placement (s_geo s)) ->
  g_compute (s_geo s) (global_to_local (g_placement (s_geo s)) p) (global_to_local_dir (g_placement (s_geo s)) d) = [] -> sector_hits s p d = [].
Proof.
  intros [_ Id] E. unfold sector_hits, intersections. destruct (p_identity _); [|rewrite E; reflexivity].
  specialize (Id eq_refl). rewrite (proj1 (Id p)), (proj1 (proj2 (Id d))) in E. rewrite E. reflexivity.
Qed.
Lemma map_same {B} (f : B -> B) l : (forall x, f x = x) -> map f l = l.
Proof. intros H. induction l as [|x l IH]; cbn; [auto|rewrite H, IH; auto]. Qed.
Lemma leaf_hits_ok (s : sector A) p d : sound_along (s_geo s) p d -> leaf_hits s p d = sector_hits s p d.
Proof.
  intros [W So]. unfold leaf_hits. set (lp := global_to_local _ p) in *. set (ld := global_to_local_dir _ d) in *.
  destruct (match g_box (s_geo s) with None => true | Some b => ray_aabb lp ld b end) eqn:E.
  - unfold sector_hits, intersections. destruct W as [_ Id]. destruct (p_identity (g_placement (s_geo s))) eqn:I; [|reflexivity].
    specialize (Id eq_refl). unfold lp, ld. rewrite (proj1 (Id p)), (proj1 (proj2 (Id d))). f_equal. apply map_same.
    intros [x y z]. cbn. rewrite (proj2 (proj2 (Id z))). reflexivity.
  - symmetry. apply sector_hits_nil; auto. destruct (g_box (s_geo s)) as [b|]; [|discriminate]. specialize (So b eq_refl). fold lp ld.
    destruct (g_compute (s_geo s) lp ld) as [|h l] eqn:G; auto. exfalso. destruct So as (t & T); [discriminate|].
    assert (aabb_valid b = true) by (apply aabb_valid_iff; unfold in_aabb in T; lra). rewrite (proj2 (ray_aabb_ok lp ld b H)) in E by eauto. discriminate.
Qed.

Definition leaf_ok (sectors : list (sector A)) (p d : vec) (e : nat * aabb) : Prop :=
  exists s, nth_error sectors (fst e) = Some s /\ world_box big (s_geo s) = Some (snd e) /\ sound_along (s_geo s) p d.

(** Hits of a pruned sector. *)
Lemma pruned sectors p d e b : leaf_ok sectors p d e -> inside_of b (snd e) -> ray_aabb p d b = false -> hits_of sectors p d (fst e) = [].
Proof.
  intros (s & E & W & [Wp So]) I R. unfold hits_of. rewrite E. apply sector_hits_nil; auto.
  unfold world_box in W. destruct (g_box (s_geo s)) as [lb|]; [|discriminate]. cbn in W. injection W as W. specialize (So lb eq_refl).
  destruct (g_compute (s_geo s) _ _) as [|h l] eqn:G; auto. exfalso. destruct So as (t & T); [discriminate|].
  apply (world_ok big (g_placement (s_geo s))) in T. rewrite W in T. rewrite <- to_local_line, there_and_back in T by apply Wp. apply I in T.
  assert (aabb_valid b = true) by (apply aabb_valid_iff; unfold in_aabb in T; lra). rewrite (proj2 (ray_aabb_ok p d b H)) in R by eauto. discriminate.
Qed.

Lemma flat_map_none {X Y} (f : X -> list Y) l : (forall x, In x l -> f x = []) -> flat_map f l = [].
Proof. induction l as [|a l IH]; intros H; cbn; auto. rewrite (H a (or_introl eq_refl)), IH; auto. intros; apply H; right; auto. Qed.
Lemma flat_map_perm {X Y} (f : X -> list Y) l l' : Permutation l l' -> Permutation (flat_map f l) (flat_map f l').
Proof.
  induction 1; cbn; auto.
  - apply Permutation_app_head; auto.
  - rewrite !app_assoc. apply Permutation_app_tail, Permutation_app_comm.
  - eapply perm_trans; eauto.
Qed.

(** All that is still to be visited. *)
Definition todo (w : pending) : list bvh := fst w ++ snd w.
Lemma push_perm t w : Permutation (todo (push t w)) (t :: todo w).
Proof. unfold push, todo. destruct (Nat.ltb _ _); cbn; [auto|]. apply Permutation_sym, Permutation_middle. Qed.
Lemma pop_perm w : match pop w with None => todo w = [] | Some (t, w') => Permutation (todo w) (t :: todo w') end.
Proof.
  unfold pop, todo. destruct w as [s [|t h]]; cbn; [destruct s as [|t s]; cbn; rewrite ?app_nil_r; auto|].
  apply Permutation_sym, Permutation_middle.
Qed.
Definition total_nodes (l : list bvh) : nat := list_sum (map nodes l).
Lemma total_perm l l' : Permutation l l' -> total_nodes l = total_nodes l'.
Proof. unfold total_nodes. induction 1 as [|x l l' H IH|x y l|l l' l'' H1 IH1 H2 IH2]; [reflexivity|change (nodes x + list_sum (map nodes l) = nodes x + list_sum (map nodes l'))%nat; lia|change (nodes y + (nodes x + list_sum (map nodes l)) = nodes x + (nodes y + list_sum (map nodes l)))%nat; lia|congruence]. Qed.
Lemma list_sum_app' l l' : list_sum (l ++ l') = (list_sum l + list_sum l')%nat.
Proof. apply list_sum_app. Qed.

Lemma traverse_ok sectors p d : forall fuel w acc, (total_nodes (todo w) <= fuel)%nat ->
  (forall t, In t (todo w) -> exists l, tree_ok t l /\ forall e, In e l -> leaf_ok sectors p d e) ->
  exists r, traverse fuel sectors p d w acc = Ok r /\ Permutation r (acc ++ flat_map (hits_of sectors p d) (flat_map leaves (todo w))).
Proof.
  induction fuel as [|k IH]; intros w acc Lk H; cbn [traverse]; pose proof (pop_perm w) as Pw; destruct (pop w) as [[t w']|].
  - exfalso. rewrite (total_perm _ _ Pw) in Lk. unfold total_nodes in Lk. cbn in Lk. destruct t; cbn in Lk; lia.
  - exists acc. rewrite Pw. cbn. rewrite app_nil_r. auto.
  - assert (Hw' : forall t, In t (todo w') -> exists l, tree_ok t l /\ forall e, In e l -> leaf_ok sectors p d e)
      by (intros u Hu; apply H; apply (Permutation_in _ (Permutation_sym Pw)); right; auto).
    destruct (H t) as (l & T & Le); [apply (Permutation_in _ (Permutation_sym Pw)); left; auto|].
    assert (Tp : total_nodes (todo w) = (nodes t + total_nodes (todo w'))%nat) by (rewrite (total_perm _ _ Pw); reflexivity).
    assert (Q : Permutation (flat_map (hits_of sectors p d) (flat_map leaves (todo w))) (flat_map (hits_of sectors p d) (leaves t) ++ flat_map (hits_of sectors p d) (flat_map leaves (todo w')))).
    { eapply perm_trans; [apply flat_map_perm, flat_map_perm, Pw|]. cbn [flat_map]. rewrite flat_map_app. apply Permutation_refl. }
    assert (finish : forall r, Permutation r ((acc ++ flat_map (hits_of sectors p d) (leaves t)) ++ flat_map (hits_of sectors p d) (flat_map leaves (todo w'))) ->
      Permutation r (acc ++ flat_map (hits_of sectors p d) (flat_map leaves (todo w)))).
    { intros r R. eapply perm_trans; [exact R|]. rewrite <- app_assoc. apply Permutation_app_head, Permutation_sym. exact Q. }
    assert (skip : forall b, (match t with Leaf b _ => b | Node b _ _ => b end) = b -> ray_aabb p d b = false ->
      exists r, traverse k sectors p d w' acc = Ok r /\ Permutation r (acc ++ flat_map (hits_of sectors p d) (flat_map leaves (todo w)))).
    { intros b Eb R. destruct (IH w' acc) as (r & E & Pr); [destruct t; cbn in Tp; lia|exact Hw'|]. exists r. split; auto. apply finish.
      assert (flat_map (hits_of sectors p d) (leaves t) = []) as ->; [|rewrite app_nil_r; exact Pr].
      apply flat_map_none. intros i Hi. apply (Permutation_in _ (tree_leaves _ _ T)) in Hi. apply in_map_iff in Hi as (e & <- & He).
      eapply pruned; [apply Le; exact He| |exact R]. inversion T as [bd i c Hb|bd l0 r0 la lb lc Hb P Tl Tr]; subst; cbn; [destruct He as [<-|[]]; exact Hb|apply Hb; exact He]. }
    destruct t as [b i|b tl tr].
    + inversion T as [bd j c Hb|]; subst. destruct (ray_aabb p d b) eqn:R; [|apply (skip b); auto].
      destruct (Le (i, c) (or_introl eq_refl)) as (s & E & W & So). cbn [fst] in E. rewrite E.
      destruct (IH w' (acc ++ leaf_hits s p d)) as (r & Er & Pr); [cbn in Tp; lia|exact Hw'|]. exists r. split; auto. apply finish.
      cbn [leaves flat_map]. rewrite app_nil_r. unfold hits_of at 1. rewrite E, <- leaf_hits_ok by auto. exact Pr.
    + destruct (ray_aabb p d b) eqn:R; [|apply (skip b); auto]. inversion T as [|bd l0 r0 la lb lc Hb P Tl Tr]; subst.
      pose proof (push_perm tr (push tl w')) as P2. pose proof (push_perm tl w') as P1.
      assert (P3 : Permutation (todo (push tr (push tl w'))) (tr :: tl :: todo w')) by (eapply perm_trans; [exact P2|apply perm_skip; exact P1]).
      destruct (IH (push tr (push tl w')) acc) as (r & Er & Pr).
      * rewrite (total_perm _ _ P3). change (nodes tr + (nodes tl + total_nodes (todo w')) <= k)%nat. cbn in Tp. lia.
      * intros u Hu. apply (Permutation_in _ P3) in Hu as [<-|[<-|Hu]]; auto.
        -- exists lb. split; auto. intros e He. apply Le. apply (Permutation_in _ (Permutation_sym P)), in_or_app; auto.
        -- exists la. split; auto. intros e He. apply Le. apply (Permutation_in _ (Permutation_sym P)), in_or_app; auto.
      * exists r. split; auto. apply finish. eapply perm_trans; [exact Pr|]. rewrite <- app_assoc. apply Permutation_app_head.
        eapply perm_trans; [apply flat_map_perm, flat_map_perm, P3|]. cbn [flat_map leaves]. rewrite !flat_map_app, !app_assoc.
        apply Permutation_app_tail, Permutation_app_comm.
  - exists acc. rewrite Pw. cbn. rewrite app_nil_r. auto.
Qed.

Lemma flat_pick sectors p d l : flat_map (hits_of sectors p d) l = all_hits (pick sectors l) p d.
Proof.
  unfold all_hits, pick. induction l as [|i l IH]; cbn; auto. rewrite flat_map_app, <- IH. f_equal. unfold hits_of.
  destruct (nth_error sectors i); cbn; rewrite ?app_nil_r; auto.
Qed.
Lemma intersections_ok (m : detector A) p d : cached (fresh big plan m) -> (forall s, In s (d_sectors m) -> sound_along (s_geo s) p d) ->
  exists r, get_intersections big plan m p d = Ok r /\ Permutation r (all_hits (d_sectors m) p d).
Proof.
  intros C H. rewrite <- (fresh_sectors m) in *. set (m' := fresh big plan m) in *. unfold get_intersections. fold m'.
  assert (nin : forall i s, nth_error (d_sectors m') i = Some s -> In s (d_sectors m')) by (intros; eapply nth_error_In; eauto).
  destruct C as [(fin & P & T & F) Ci Cv].
  rewrite append_all_ok by (intros i Hi; destruct (Ci i Hi) as (s & E & _); congruence).
  rewrite append_all_ok by (intros i Hi; destruct (Cv i Hi) as (s & b & E & _); congruence). cbn [app].
  assert (Q : Permutation ((flat_map (hits_of (d_sectors m') p d) (c_infinite (d_cache m')) ++ flat_map (hits_of (d_sectors m') p d) (c_invalid (d_cache m'))) ++ flat_map (hits_of (d_sectors m') p d) (map fst fin))
    (all_hits (d_sectors m') p d)).
  { rewrite <- !flat_map_app, <- app_assoc. eapply perm_trans; [apply flat_map_perm, Permutation_sym, P|]. rewrite flat_pick, pick_all. apply Permutation_refl. }
  destruct (c_tree (d_cache m')) as [t|].
  - destruct (traverse_ok (d_sectors m') p d (nodes t) ([t], []) (flat_map (hits_of (d_sectors m') p d) (c_infinite (d_cache m')) ++ flat_map (hits_of (d_sectors m') p d) (c_invalid (d_cache m')))) as (r & -> & Pr).
    + unfold total_nodes, todo. cbn. lia.
    + unfold todo. cbn. intros u [<-|[]]. exists fin. split; auto. intros e He. destruct (F e He) as (s & E & W & V). exists s. eauto.
    + eexists. split; [reflexivity|]. eapply perm_trans; [exact Pr|]. eapply perm_trans; [|exact Q]. apply Permutation_app_head.
      apply flat_map_perm. unfold todo. cbn. rewrite app_nil_r. apply tree_leaves. exact T.
  - eexists. split; [reflexivity|]. rewrite T in Q. cbn in Q. rewrite app_nil_r in Q. exact Q.
Qed.
End Hierarchy.
