(** Proofs about sector registration, and queries of detectors made of shapes. *)
From Coq Require Import Reals ZArith String Lra Lia List Bool Permutation Arith.
From Verif Require Import TraversalModel VectorModel QuatModel QuatSpec QuatProofs GeometryModel GeometrySpec GeometryProofs GeometryCsg GeometryShape SectorModel SectorSpec SectorProofs.
Import ListNotations.
Open Scope R_scope.

Section Registration.
Context {A : Type}.

(** The maps list exactly the positions of the levels and of the names. *)
Definition maps (l : list (sector A)) (lv : list (Z * nat)) (nm : list (string * nat)) : Prop :=
  (forall k i, find_level k lv = Some i <-> nth_error (map s_level l) i = Some k) /\
  (forall k i, find_name k nm = Some i <-> nth_error (map s_name l) i = Some k).

Lemma find_level_cons k0 n lv k : find_level k ((k0, n) :: lv) = if Z.eqb k0 k then Some n else find_level k lv.
Proof. unfold find_level. cbn. destruct (Z.eqb k0 k); reflexivity. Qed.
Lemma find_name_cons k0 n nm k : find_name k ((k0, n) :: nm) = if String.eqb k0 k then Some n else find_name k nm.
Proof. unfold find_name. cbn. destruct (String.eqb k0 k); reflexivity. Qed.
Lemma has_level_iff k lv : has_level k lv = false <-> find_level k lv = None.
Proof.
  induction lv as [|[k0 n] lv IH]; [split; reflexivity|]. rewrite find_level_cons. cbn. destruct (Z.eqb k0 k); cbn; [split; discriminate|exact IH].
Qed.
Lemma has_name_iff k nm : has_name k nm = false <-> find_name k nm = None.
Proof.
  induction nm as [|[k0 n] nm IH]; [split; reflexivity|]. rewrite find_name_cons. cbn. destruct (String.eqb k0 k); cbn; [split; discriminate|exact IH].
Qed.

(** A fresh key at the end. *)
Lemma keyed {K} (l : list K) k0 (find : K -> option nat) (eqb : K -> bool) : (forall k, eqb k = true <-> k0 = k) -> find k0 = None ->
  (forall k i, find k = Some i <-> nth_error l i = Some k) ->
  forall k i, (if eqb k then Some (List.length l) else find k) = Some i <-> nth_error (l ++ [k0]) i = Some k.
Proof.
  intros E N H k i. destruct (lt_eq_lt_dec i (List.length l)) as [[L|L]|L].
  - rewrite nth_error_app1 by auto. destruct (eqb k) eqn:B; [|apply H]. apply E in B. subst k. split; [intros X; injection X; lia|].
    intros X. apply H in X. congruence.
  - subst i. rewrite nth_error_app2, Nat.sub_diag by auto. cbn. destruct (eqb k) eqn:B; [apply E in B; subst; tauto|].
    split; intros X; [apply H in X; assert (nth_error l (List.length l) <> None) by congruence; apply nth_error_Some in H0; lia|].
    injection X as ->. assert (eqb k = true) by (apply E; auto). congruence.
  - assert (nth_error (l ++ [k0]) i = None) as -> by (apply nth_error_None; rewrite app_length; cbn; lia).
    split; [|discriminate]. destruct (eqb k); intros X; [injection X; lia|]. apply H in X. assert (nth_error l i <> None) by congruence. apply nth_error_Some in H0. lia.
Qed.
Lemma maps_snoc l lv nm s : maps l lv nm -> has_level (s_level s) lv = false -> has_name (s_name s) nm = false ->
  maps (l ++ [s]) ((s_level s, List.length l) :: lv) ((s_name s, List.length l) :: nm).
Proof.
  intros [L N] HL HN. apply has_level_iff in HL. apply has_name_iff in HN. split; intros k i; rewrite map_app; cbn [map].
  - rewrite find_level_cons, <- (map_length s_level l). apply (keyed (map s_level l) (s_level s) (fun k => find_level k lv) (fun k => Z.eqb (s_level s) k)); auto. intros; apply Z.eqb_eq.
  - rewrite find_name_cons, <- (map_length s_name l). apply (keyed (map s_name l) (s_name s) (fun k => find_name k nm) (fun k => String.eqb (s_name s) k)); auto. intros; apply String.eqb_eq.
Qed.
Lemma maps_nil : maps [] [] [].
Proof. split; intros k [|i]; cbn; split; discriminate. Qed.
Lemma unique_keys {K} (l : list K) (find : K -> option nat) : (forall k i, find k = Some i <-> nth_error l i = Some k) -> NoDup l.
Proof.
  intros H. apply NoDup_nth_error. intros i j L E. destruct (nth_error l i) as [k|] eqn:N; [|apply nth_error_None in N; lia].
  symmetry in E. apply H in N. apply H in E. congruence.
Qed.
Lemma missing {K} (l : list K) (find : K -> option nat) k : (forall k i, find k = Some i <-> nth_error l i = Some k) -> (find k = None <-> ~ In k l).
Proof.
  intros H. split.
  - intros N I. apply In_nth_error in I as (i & I). apply H in I. congruence.
  - intros N. destruct (find k) as [i|] eqn:F; auto. apply H in F. elim N. eapply nth_error_In; eauto.
Qed.

Lemma set_loop_ok : forall l pre lv nm, maps pre lv nm ->
  let '(lv', nm', threw) := set_loop (List.length pre) l lv nm in
  if threw then ~ (NoDup (map s_level (pre ++ l)) /\ NoDup (map s_name (pre ++ l))) else maps (pre ++ l) lv' nm'.
Proof.
  induction l as [|s l IH]; intros pre lv nm M; cbn [set_loop]; [rewrite app_nil_r; exact M|].
  destruct (has_level (s_level s) lv) eqn:HL.
  - intros [N _]. rewrite map_app in N. cbn in N. apply NoDup_remove_2 in N. apply N. apply in_or_app. left.
    destruct (in_dec Z.eq_dec (s_level s) (map s_level pre)) as [I|I]; auto. apply (missing _ _ _ (proj1 M)) in I. apply has_level_iff in I. congruence.
  - destruct (has_name (s_name s) nm) eqn:HN.
    + intros [_ N]. rewrite map_app in N. cbn in N. apply NoDup_remove_2 in N. apply N. apply in_or_app. left.
      destruct (in_dec string_dec (s_name s) (map s_name pre)) as [I|I]; auto. apply (missing _ _ _ (proj2 M)) in I. apply has_name_iff in I. congruence.
    + specialize (IH (pre ++ [s]) _ _ (maps_snoc _ _ _ _ M HL HN)). rewrite app_length in IH. cbn [List.length] in IH. rewrite Nat.add_1_r in IH.
      rewrite <- app_assoc in IH. exact IH.
Qed.

Definition kept (m : detector A) : Prop := maps (d_sectors m) (d_levels m) (d_names m).
Lemma kept_registered m : kept m -> registered m.
Proof.
  intros [L N]. constructor.
  - exact (unique_keys _ _ L).
  - exact (unique_keys _ _ N).
  - intros k s. unfold get_sector. split.
    + destruct (find_level k (d_levels m)) as [i|] eqn:F; [|discriminate]. apply L in F. rewrite nth_error_map in F.
      destruct (nth_error (d_sectors m) i) as [s'|] eqn:E; [|discriminate]. cbn in F. intros X. injection X as ->. injection F as F.
      split; auto. eapply nth_error_In; eauto.
    + intros [I E]. apply In_nth_error in I as (i & I). assert (nth_error (map s_level (d_sectors m)) i = Some k) as F by (rewrite nth_error_map, I; cbn; congruence).
      apply L in F. rewrite F, I. reflexivity.
  - intros k s. unfold get_sector_named. split.
    + destruct (find_name k (d_names m)) as [i|] eqn:F; [|discriminate]. apply N in F. rewrite nth_error_map in F.
      destruct (nth_error (d_sectors m) i) as [s'|] eqn:E; [|discriminate]. cbn in F. intros X. injection X as ->. injection F as F.
      split; auto. eapply nth_error_In; eauto.
    + intros [I E]. apply In_nth_error in I as (i & I). assert (nth_error (map s_name (d_sectors m)) i = Some k) as F by (rewrite nth_error_map, I; cbn; congruence).
      apply N in F. rewrite F, I. reflexivity.
  - split; intros k; [unfold get_sector; destruct (find_level k (d_levels m)) as [i|] eqn:F|unfold get_sector_named; destruct (find_name k (d_names m)) as [i|] eqn:F]; try discriminate;
    [apply L in F|apply N in F]; rewrite nth_error_map in F; destruct (nth_error (d_sectors m) i); discriminate.
Qed.

Lemma add_ok m s : kept m ->
  let '(m', threw) := add_sector m s in
  kept m' /\ if threw then m' = m /\ (In (s_level s) (map s_level (d_sectors m)) \/ In (s_name s) (map s_name (d_sectors m)))
             else d_sectors m' = d_sectors m ++ [s] /\ d_dirty m' = true /\ ~ In (s_level s) (map s_level (d_sectors m)) /\ ~ In (s_name s) (map s_name (d_sectors m)).
Proof.
  intros K. unfold add_sector. destruct (has_level (s_level s) (d_levels m)) eqn:HL.
  - split; auto. split; auto. left. destruct (in_dec Z.eq_dec (s_level s) (map s_level (d_sectors m))) as [I|I]; auto. apply (missing _ _ _ (proj1 K)) in I. apply has_level_iff in I. congruence.
  - destruct (has_name (s_name s) (d_names m)) eqn:HN.
    + split; auto. split; auto. right. destruct (in_dec string_dec (s_name s) (map s_name (d_sectors m))) as [I|I]; auto. apply (missing _ _ _ (proj2 K)) in I. apply has_name_iff in I. congruence.
    + split; [exact (maps_snoc _ _ _ _ K HL HN)|]. cbn. split; [auto|]. split; [auto|].
      split; [apply (missing _ _ _ (proj1 K)), has_level_iff; auto|apply (missing _ _ _ (proj2 K)), has_name_iff; auto].
Qed.
Lemma set_ok m l : let '(m', threw) := set_sectors m l in
  (threw = false <-> NoDup (map s_level l) /\ NoDup (map s_name l)) /\ (threw = false -> kept m' /\ d_sectors m' = l /\ d_dirty m' = true).
Proof.
  unfold set_sectors. pose proof (set_loop_ok l [] [] [] maps_nil) as H. cbn [List.length app] in H.
  destruct (set_loop 0 l [] []) as [[lv nm] threw]. destruct threw.
  - split; [|discriminate]. split; [discriminate|]. intros X. elim (H X).
  - split; [split; [|auto]|auto]. intros _. split; [exact (unique_keys _ _ (proj1 H))|exact (unique_keys _ _ (proj2 H))].
Qed.

Variable big : R.
Variable plan : list (nat * aabb) -> option (list (nat * aabb) * nat).
Hypothesis Pl : rearranges plan.

Lemma reached_kept (m : detector A) : reached big plan m -> kept m /\ (d_dirty m = true \/ cached big m).
Proof.
  induction 1 as [|m c R [K C] F]; [split; [exact maps_nil|left; auto]|]. destruct c as [s|l| |]; cbn [step fails] in *.
  - pose proof (add_ok m s K) as H. unfold add_sector in *. destruct (has_level _ _); [cbn [fst]; auto|]. destruct (has_name _ _); [cbn [fst]; auto|]. cbn [fst]. split; [apply H|left; reflexivity].
  - pose proof (set_ok m l) as H. destruct (set_sectors m l) as [m' t]. cbn [fst snd] in *. destruct H as [_ H]. destruct (H F) as (H1 & _ & H2). auto.
  - split; [exact maps_nil|left; reflexivity].
  - unfold fresh. destruct (d_dirty m) eqn:D; [|split; [auto|destruct C as [C|C]; [discriminate|auto]]]. split; [|right; apply rebuild_cached; auto].
    unfold rebuild. destruct (classify big 0 (d_sectors m)) as [[? ?] ?]. exact K.
Qed.
Lemma reached_fresh (m : detector A) : reached big plan m -> cached big (fresh big plan m).
Proof.
  intros R. destruct (reached_kept m R) as [_ C]. unfold fresh. destruct (d_dirty m) eqn:D; [apply rebuild_cached; auto|]. destruct C as [C|C]; [discriminate|exact C].
Qed.
Lemma reached_registered (m : detector A) : reached big plan m -> registered m.
Proof. intros R. apply kept_registered, reached_kept; auto. Qed.
End Registration.

Lemma highest_unique {A} (l : list (sector A)) p r r' : NoDup (map s_level l) -> highest l p r -> highest l p r' -> r = r'.
Proof.
  intros N H H'. unfold highest in *. destruct r as [s|], r' as [s'|]; auto.
  - destruct H as (I & J & K), H' as (I' & J' & K'). f_equal.
    assert (E : s_level s = s_level s') by (specialize (K s' I' J'); specialize (K' s I J); lia).
    clear -N I I' E. induction l as [|a l IH]; [destruct I|]. cbn in N. apply NoDup_cons_iff in N as [N1 N2].
    destruct I as [<-|I], I' as [<-|I']; auto.
    + elim N1. rewrite E. apply in_map. auto.
    + elim N1. rewrite <- E. apply in_map. auto.
  - destruct H as (I & J & K). rewrite H' in J by auto. discriminate.
  - destruct H' as (I & J & K). rewrite H in J by auto. discriminate.
Qed.

(** ** Shapes *)
Section Shapes.
Variable big : R.
Variable sort : forall A : Type, (A -> R) -> list A -> list A.
Hypothesis So : sorts sort.
Hypothesis St : stable sort.

Lemma shape_bounds_local s : shape_bounds big s = world_bounds big (shape_placement s) (local_bounds big s).
Proof. destruct s; reflexivity. Qed.
Lemma placed s : well_formed s -> well_placed (shape_placement s).
Proof. destruct s; intros [H _]; exact H. Qed.

Lemma shape_sound_at s p : well_formed s -> settled s p (mkv 0 0 1) 0 (3 * precision) -> sound_at big (shape_geo big sort s) p.
Proof.
  intros W S. unfold sound_at, world_box, shape_geo. cbn [g_box g_placement option_map]. intros I _. rewrite <- shape_bounds_local.
  apply shape_bounds_ok; auto. eapply shape_inside_ok; eauto. unfold vdot; cbn; ring.
Qed.
Lemma shape_geo_inside s p : well_formed s -> settled s p (mkv 0 0 1) 0 (3 * precision) -> (geo_inside (shape_geo big sort s) p = true <-> in_shape s p).
Proof. intros W S. apply shape_inside_ok; auto. unfold vdot; cbn; ring. Qed.

Lemma right_only : forall k l s, (forall a : tagged, In a l -> snd a = false) -> fst s = false -> bool_walk k Subtraction l s false = [].
Proof.
  induction k as [|k IH]; intros l s R F; auto. destruct l as [|a l]; auto. cbn [bool_walk]. destruct (batch (h_distance (fst a)) l) as [b rest] eqn:E.
  pose proof (batch_prefix _ _ _ _ E) as El.
  assert (X : fst (apply_batch (a :: b) s) = false).
  { assert (Rb : forall x, In x (a :: b) -> snd x = false) by (intros x [<-|X]; apply R; [left; auto|right; rewrite El; apply in_or_app; auto]).
    clear -Rb F. unfold apply_batch. revert s F. induction (a :: b) as [|x l IH]; intros s F; cbn; auto. apply IH; [intros; apply Rb; right; auto|].
    rewrite (Rb x (or_introl eq_refl)). cbn. exact F. }
  cbn [inside_result]. rewrite X. cbn [andb Bool.eqb app]. apply IH; auto. intros x Hx. apply R. right. rewrite El. apply in_or_app; auto.
Qed.

Lemma inter_nonempty (compute : vec -> vec -> list hit) pl p d : well_placed pl -> intersections compute pl p d <> [] ->
  compute (global_to_local pl p) (global_to_local_dir pl d) <> [].
Proof.
  intros [_ Id] H E. apply H. unfold intersections. destruct (p_identity pl) eqn:B; [|rewrite E; auto].
  specialize (Id eq_refl). rewrite (proj1 (Id p)), (proj1 (proj2 (Id d))) in E. exact E.
Qed.
Lemma meets_world s p d : well_formed s ->
  (exists t, in_aabb (local_bounds big s) (on_line (global_to_local (shape_placement s) p) (global_to_local_dir (shape_placement s) d) t)) ->
  exists t, in_aabb (shape_bounds big s) (on_line p d t).
Proof.
  intros W (t & T). exists t. apply (world_ok big (shape_placement s)) in T. rewrite <- shape_bounds_local in T.
  rewrite <- to_local_line, there_and_back in T by (apply placed in W; apply W). exact T.
Qed.

Lemma hits_meet s : well_formed s -> no_intersection s -> forall p d, vdot d d = 1 -> shape_compute sort s p d <> [] ->
  exists t, in_aabb (local_bounds big s) (on_line p d t).
Proof.
  assert (first : forall (inside : R -> Prop) l, delimits inside l -> l <> [] -> exists u, inside u).
  { intros inside l D N. destruct l as [|h l]; [elim N; auto|]. destruct (dl_real _ _ D h (or_introl eq_refl)) as (u & v & _ & _ & H & _). eauto. }
  induction s as [pl wx wy wz|pl radius inner|pl op l IHl r IHr]; intros W NI p d Ud H.
  - destruct W as (_ & A & B & C). cbn [shape_compute local_bounds] in *. destruct (box_delimits wx wy wz p d A B C (unit_nonzero_vec d Ud)) as (l & E & D & P).
    rewrite E in H. destruct (first _ _ D H) as (u & Hu). exists u. apply box_bounds_ok. exact Hu.
  - destruct W as (_ & A & B). cbn [shape_compute local_bounds] in *. destruct (sphere_delimits sort radius inner p d So (or_introl St) Ud A B) as [D P].
    destruct (first _ _ D H) as (u & Hu). exists u. eapply sphere_bounds_ok. exact Hu.
  - destruct W as (_ & Wl & Wr), NI as (No & Nl & Nr). specialize (IHl Wl Nl). specialize (IHr Wr Nr). cbn [shape_compute local_bounds] in *.
    pose proof (placed l Wl) as Pl. pose proof (placed r Wr) as Pr.
    set (hl := intersections (shape_compute sort l) (shape_placement l) p d) in *. set (hr := intersections (shape_compute sort r) (shape_placement r) p d) in *.
    assert (Ml : hl <> [] -> exists t, in_aabb (shape_bounds big l) (on_line p d t)).
    { intros X. apply meets_world; auto. apply IHl; [apply to_local_unit; [apply Pl|auto]|]. apply inter_nonempty; auto. }
    assert (Mr : hr <> [] -> exists t, in_aabb (shape_bounds big r) (on_line p d t)).
    { intros X. apply meets_world; auto. apply IHr; [apply to_local_unit; [apply Pr|auto]|]. apply inter_nonempty; auto. }
    destruct op; [|elim No; auto|].
    + cbn [bool_bounds].
      assert (Q : hl <> [] \/ hr <> []).
      { destruct hl as [|h0 l0]; [right|left; discriminate]. intros E. rewrite E in H. apply H.
        change (bool_walk (List.length (sort tagged (fun h => h_distance (fst h)) [])) Union (sort tagged (fun h => h_distance (fst h)) []) (false, false) false = []).
        destruct (So tagged (fun h => h_distance (fst h)) []) as [P _]. apply Permutation_sym, Permutation_nil in P. rewrite P. reflexivity. }
      destruct Q as [Q|Q]; [destruct (Ml Q) as (t & T)|destruct (Mr Q) as (t & T)]; exists t; apply expand_box_ok; [left; apply expand_box_ok|]; auto.
    + cbn [bool_bounds]. apply Ml. intros E. rewrite E in H. apply H. unfold bool_hits. cbn [map app inside_result andb].
      apply right_only; auto. intros a Ha. destruct (So tagged (fun h => h_distance (fst h)) (map (fun h => (h, false)) hr)) as [P _].
      apply (Permutation_in _ P) in Ha. apply in_map_iff in Ha as (x & <- & _). reflexivity.
Qed.
Lemma shape_sound_along s p d : well_formed s -> no_intersection s -> vdot d d = 1 -> sound_along (shape_geo big sort s) p d.
Proof.
  intros W N U. pose proof (placed s W) as P. split; [exact P|]. intros b E H. cbn [shape_geo g_box g_compute g_placement] in *. injection E as <-.
  apply hits_meet; auto. apply to_local_unit; auto. apply P.
Qed.
End Shapes.
