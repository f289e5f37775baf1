(** Properties C42-C46: shapes, crossings of a line, membership and bounding boxes. *)
From Coq Require Import Reals Lra Lia List Bool Permutation Sorted Arith.
From Verif Require Import VectorModel QuatModel QuatSpec QuatProofs QuatPlace GeometryModel GeometrySpec GeometryProofs GeometryCsg GeometryShape.
Import ListNotations.
Open Scope R_scope.

(** A stable sort, and one that reverses equal elements: both are sorting routines. *)
Fixpoint insert {A : Type} (key : A -> R) (a : A) (l : list A) : list A :=
  match l with
  | [] => [a]
  | b :: r => if Rle_dec (key a) (key b) then a :: l else b :: insert key a r
  end.
Definition isort (A : Type) (key : A -> R) (l : list A) : list A := fold_right (insert key) [] l.
Definition rsort (A : Type) (key : A -> R) (l : list A) : list A := isort A key (rev l).

Lemma insert_perm {A} (key : A -> R) a l : Permutation (insert key a l) (a :: l).
Proof.
  induction l as [|b l IH]; cbn; auto. destruct (Rle_dec (key a) (key b)); auto.
  eapply perm_trans; [apply perm_skip, IH|]. apply perm_swap.
Qed.
Lemma insert_sorted {A} (key : A -> R) a l : StronglySorted (fun a b => key a <= key b) l -> StronglySorted (fun a b => key a <= key b) (insert key a l).
Proof.
  induction 1 as [|b l S IH M]; cbn; [repeat constructor|]. destruct (Rle_dec (key a) (key b)) as [L|L].
  - constructor; [constructor; auto|]. constructor; auto. rewrite Forall_forall in *. intros x X. specialize (M x X). lra.
  - constructor; auto. rewrite Forall_forall in *. intros x X. apply (Permutation_in _ (insert_perm key a l)) in X as [<-|X]; auto. lra.
Qed.
Lemma insert_filter {A} (key : A -> R) a l x : filter (fun a => if Req_EM_T (key a) x then true else false) (insert key a l) =
  filter (fun a => if Req_EM_T (key a) x then true else false) (a :: l).
Proof.
  induction l as [|b l IH]; cbn [insert]; auto. destruct (Rle_dec (key a) (key b)) as [L|L]; auto. cbn [filter] in *. rewrite IH.
  destruct (Req_EM_T (key a) x), (Req_EM_T (key b) x); auto. lra.
Qed.
Lemma isort_ok : sorts isort /\ stable isort.
Proof.
  split.
  - intros A key l. induction l as [|a l [P S]]; cbn; [split; [auto|constructor]|]. split.
    + eapply perm_trans; [apply insert_perm|]. apply perm_skip. exact P.
    + apply insert_sorted. exact S.
  - intros A key l x. induction l as [|a l IH]; auto. cbn [isort fold_right]. rewrite insert_filter. cbn [filter].
    change (fold_right (insert key) [] l) with (isort A key l). rewrite IH. reflexivity.
Qed.
Lemma rsort_ok : sorts rsort.
Proof.
  intros A key l. unfold rsort. destruct (proj1 isort_ok A key (rev l)) as [P S]. split; auto.
  eapply perm_trans; [exact P|]. apply Permutation_sym, Permutation_rev.
Qed.

(** ** C42 *)

(** A box gives no crossings when the line misses it; otherwise an entering and an exiting
    one, between which and nowhere else the points of the line lie in the box. Crossings
    less than [precision] ahead are moved to the origin. *)
Theorem C42_box : forall wx wy wz p d, 0 <= wx -> 0 <= wy -> 0 <= wz -> d <> mkv 0 0 0 ->
  (box_hits wx wy wz p d = Hits [] /\ forall t, ~ in_box wx wy wz (on_line p d t)) \/
  (exists a b, a <= b /\ (forall t, in_box wx wy wz (on_line p d t) <-> a <= t <= b) /\
    box_hits wx wy wz p d = Hits [mkhit (snap a) true (on_line p d (snap a)); mkhit (snap b) false (on_line p d (snap b))]).
Proof. exact box_ok. Qed.
Print Assumptions C42_box.

(** The move is smaller than [precision], and only applies just ahead of the origin. *)
Theorem C42_snap : forall t, Rabs (snap t - t) < precision /\ (~ 0 < t < precision -> snap t = t).
Proof. intros t. split; [apply snap_near|]. intros H. destruct (snap_cases t) as [[E _]|[_ ?]]; tauto. Qed.
Print Assumptions C42_snap.

Theorem C42_delimits : forall wx wy wz p d, 0 <= wx -> 0 <= wy -> 0 <= wz -> d <> mkv 0 0 0 ->
  exists l, box_hits wx wy wz p d = Hits l /\ delimits (fun t => in_box wx wy wz (on_line p d t)) l /\ positioned p d l.
Proof. exact box_delimits. Qed.
Print Assumptions C42_delimits.

Example C42_case : box_hits 2 4 6 (mkv (-5) 0 0) (mkv 1 0 0) = Hits [mkhit 4 true (mkv (-1) 0 0); mkhit 6 false (mkv 1 0 0)].
Proof.
  destruct (C42_box 2 4 6 (mkv (-5) 0 0) (mkv 1 0 0)) as [[_ N]|(a & b & L & key & ->)]; try lra; [intros E; injection E; lra|..].
  - elim (N 5). unfold in_box, on_line. cbn. rewrite !Rabs_right; lra.
  - assert (K : forall t, a <= t <= b <-> 4 <= t <= 6).
    { intros t. rewrite <- key. unfold in_box, on_line. cbn. unfold Rabs. repeat destruct (Rcase_abs _); lra. }
    assert (a = 4) by (apply Rle_antisym; [apply (K 4); lra|apply (K a); lra]). assert (b = 6) by (apply Rle_antisym; [apply (K b); lra|apply (K 6); lra]). subst a b.
    rewrite !(proj2 (C42_snap _)) by (unfold precision; lra). 
    assert (E : forall t, on_line (mkv (-5) 0 0) (mkv 1 0 0) t = mkv (-5 + t) 0 0) by (intros; apply vec_eq; unfold on_line; cbn; ring).
    rewrite !E. replace (-5 + 4) with (-1) by ring. replace (-5 + 6) with 1 by ring. reflexivity.
Qed.

(** ** C43 *)

(** The crossings of a shell delimit the part of the line inside it. The sort has to be
    stable, as it is in practice for four elements, or the chords not shorter than
    [precision]. *)
Theorem C43_shell : forall sort radius inner p d, sorts sort -> stable sort \/ (resolved radius p d /\ resolved inner p d) ->
  vdot d d = 1 -> 0 < radius -> inner <= radius - precision ->
  delimits (fun t => in_shell radius inner (on_line p d t)) (sphere_hits sort radius inner p d) /\ positioned p d (sphere_hits sort radius inner p d).
Proof. exact sphere_delimits. Qed.
Print Assumptions C43_shell.

(** The constructor puts the radii in order. *)
Theorem C43_radii : forall a b, let '(r, i) := make_sphere a b in i <= r /\ ((r = a /\ i = b) \/ (r = b /\ i = a)).
Proof. intros a b. unfold make_sphere. destruct (Rlt_dec a b); split; auto; lra. Qed.
Print Assumptions C43_radii.

(** With no more than sorting, a line that grazes the sphere just ahead of the origin may
    be told to leave it before entering it. *)
Theorem C43_unstable_refuted : exists sort radius p d, sorts sort /\ vdot d d = 1 /\ 0 < radius /\
  map h_entering (sphere_hits sort radius 0 p d) = [false; true].
Proof.
  pose proof precision_pos as P. assert (P1 : precision < 1) by (unfold precision; lra).
  assert (X : 0 <= 1 - precision * precision / 16) by nra.
  exists rsort, 1, (mkv (sqrt (1 - precision * precision / 16)) 0 (- (precision / 2))), (mkv 0 0 1).
  split; [apply rsort_ok|]. split; [unfold vdot; cbn; ring|]. split; [lra|].
  unfold sphere_hits. rewrite shell_hits. destruct (Rlt_dec 0 0); [lra|]. rewrite app_nil_r. cbn zeta.
  assert (E : 1 * 1 - perp2 (mkv (sqrt (1 - precision * precision / 16)) 0 (- (precision / 2))) (mkv 0 0 1) = precision / 4 * (precision / 4)).
  { unfold perp2, vdot, vcross. cbn. replace (1 * 1 - _) with (1 - sqrt (1 - precision * precision / 16) * sqrt (1 - precision * precision / 16)) by ring.
    rewrite sqrt_sqrt by auto. field. }
  rewrite E. rewrite sqrt_square by lra. destruct (Rle_dec (precision / 4 * (precision / 4)) 0); [nra|].
  replace (vdot _ _) with (- (precision / 2)) by (unfold vdot; cbn; ring).
  assert (S0 : forall t, 0 < t < precision -> snap t = 0) by (intros t T; destruct (snap_cases t) as [[_ ?]|[-> _]]; [tauto|auto]).
  rewrite !S0 by lra. cbn. destruct (Rle_dec 0 0); [reflexivity|lra].
Qed.
Print Assumptions C43_unstable_refuted.

Example C43_case : sorts isort /\ stable isort /\ vdot (mkv 0 0 1) (mkv 0 0 1) = 1 /\ 1 <= 2 - precision /\
  ~ in_shell 2 1 (on_line (mkv 0 0 (-5)) (mkv 0 0 1) 5) /\ in_shell 2 1 (on_line (mkv 0 0 (-5)) (mkv 0 0 1) (13/2)).
Proof.
  split; [apply isort_ok|]. split; [apply isort_ok|]. split; [unfold vdot; cbn; ring|]. split; [unfold precision; lra|].
  unfold in_shell. rewrite !mag_below, !mag_above by lra. unfold on_line, vdot. cbn. split; [intros [_ H]; specialize (H ltac:(lra)); lra|split; intros; lra].
Qed.

(** ** C44 *)

(** Membership found from the first crossing ahead is right for every shape whose
    crossings delimit it, for points with no boundary within three times [precision] along
    the line. *)
Theorem C44_bracketing : forall (compute : vec -> vec -> list hit) (inside : vec -> Prop) pl p d, unit (p_quat pl) ->
  delimits (fun t => inside (on_line (global_to_local pl p) (global_to_local_dir pl d) t)) (compute (global_to_local pl p) (global_to_local_dir pl d)) ->
  (forall u, Rabs u < 3 * precision -> (inside (global_to_local pl (on_line p d u)) <-> inside (global_to_local pl p))) ->
  (is_inside compute pl p d = true <-> inside (global_to_local pl p)).
Proof.
  intros compute inside pl p d U D S. unfold is_inside. pose proof precision_pos.
  assert (Z : on_line p d 0 = p) by (apply vec_eq; unfold on_line; cbn; ring).
  assert (F : forall h, In h (compute (global_to_local pl p) (global_to_local_dir pl d)) -> 2 * precision <= Rabs (h_distance h)).
  { intros h H'. apply Rnot_lt_le. intros L. destruct (dl_real _ _ D h H') as (u & v & Ru & Rv & Iu & Iv).
    rewrite <- to_local_line in Iu, Iv by auto. apply Iv. apply S; [|apply (S u); [|exact Iu]].
    - replace v with ((v - h_distance h) + h_distance h) by ring. eapply Rle_lt_trans; [apply Rabs_triang|lra].
    - replace u with ((u - h_distance h) + h_distance h) by ring. eapply Rle_lt_trans; [apply Rabs_triang|lra]. }
  rewrite forward_inside; [|apply D..|].
  - rewrite <- (dl_state _ _ D 0); [rewrite <- to_local_line, Z by auto; tauto|].
    intros h H'. specialize (F h H'). split; [|intros; lra]. intros E. rewrite E, Rabs_R0 in F. lra.
  - intros h H'. specialize (F h H'). unfold Rabs in F. destruct (Rcase_abs (h_distance h)); lra.
Qed.
Print Assumptions C44_bracketing.

(** In particular for all combinations of placed boxes and spheres, in every direction. *)
Theorem C44_shapes : forall sort s, sorts sort -> stable sort -> well_formed s -> forall p d, vdot d d = 1 -> settled s p d 0 (3 * precision) ->
  (shape_inside sort s p d = true <-> in_shape s p).
Proof. exact shape_inside_ok. Qed.
Print Assumptions C44_shapes.

(** ** C45 *)

(** The state after the crossings of a combination is the combination of the states of
    the operands, everywhere except between crossings closer together than [precision]. *)
Theorem C45_state : forall sort op l r t, sorts sort -> ordered l -> ordered r -> stable sort \/ (strict l /\ strict r) ->
  (forall a b, In a (l ++ r) -> In b (l ++ r) -> h_distance a < t -> t <= h_distance b -> precision <= h_distance b - h_distance a) ->
  state (bool_hits sort op l r) t = inside_result op (state l t) (state r t).
Proof. intros sort op l r t So Ol Or C Cl. apply bool_state; auto. split; auto. Qed.
Print Assumptions C45_state.

(** Its crossings are in order, take turns starting with an entering one and ending with an
    exiting one, and each is a crossing of an operand. *)
Theorem C45_crossings : forall sort op l r, sorts sort -> ordered l -> ordered r -> stable sort \/ (strict l /\ strict r) ->
  ordered (bool_hits sort op l r) /\ alternating true (bool_hits sort op l r) /\
  (alternating true l -> alternating true r -> closed l -> closed r -> closed (bool_hits sort op l r)) /\
  (forall h, In h (bool_hits sort op l r) -> exists a, In a (l ++ r) /\ h_distance h = h_distance a /\ h_position h = h_position a).
Proof.
  intros sort op l r So Ol Or C. assert (K : keepable sort l r) by (split; auto). destruct (bool_order sort So op l r K) as [A B].
  repeat split; auto; [intros; apply bool_closed; auto|intros; eapply bool_from; eauto].
Qed.
Print Assumptions C45_crossings.

(** For any nesting of combinations of placed boxes and spheres: the crossings of a line
    with the whole shape, given in global coordinates, tell at each point away from
    boundaries whether it is in the set. *)
Theorem C45_shapes : forall sort s, sorts sort -> stable sort -> well_formed s -> forall p d, vdot d d = 1 ->
  ordered (shape_hits sort s p d) /\ alternating true (shape_hits sort s p d) /\ closed (shape_hits sort s p d) /\ positioned p d (shape_hits sort s p d) /\
  (forall t, settled s p d t (2 * precision) -> (in_shape s (on_line p d t) <-> state (shape_hits sort s p d) t = true)).
Proof.
  intros sort s So St W p d U. destruct (shape_crossed sort s So St W p d U) as [A B C D F]. repeat (split; [assumption|]).
  intros t S. apply (F t precision); [lra|]. replace (precision + precision) with (2 * precision) by ring. exact S.
Qed.
Print Assumptions C45_shapes.

(** A sort that is not stable may exchange two crossings of one operand at the same
    distance, and the combination is then never left. *)
Theorem C45_unstable_refuted : exists sort l, sorts sort /\ ordered l /\ alternating true l /\ closed l /\
  ~ closed (bool_hits sort Union l []) /\ ~ closed (bool_hits sort Subtraction l []).
Proof.
  set (l := [mkhit 1 true (mkv 0 0 1); mkhit 1 false (mkv 0 0 1)]). exists rsort, l. split; [apply rsort_ok|].
  split; [constructor; [constructor; constructor|constructor; [cbn; lra|constructor]]|]. split; [cbn; auto|]. split; [exists 1%nat; reflexivity|].
  unfold bool_hits, rsort, isort, l. cbn. destruct (Rle_dec 1 1); [|lra]. cbn. pose proof precision_pos. destruct (Rlt_dec (1 - 1) precision); [|lra]. cbn.
  split; intros [k K]; cbn in K; lia.
Qed.
Print Assumptions C45_unstable_refuted.

(** A cube with a spherical hole, moved along x. *)
Definition there : placement := mkplacement (mkv 1 0 0) (mkq 0 0 0 1) false.
Definition here : placement := mkplacement (mkv 0 0 0) (mkq 0 0 0 1) true.
Definition holed : shape := SBool there Subtraction (SBox here 4 4 4) (SSphere here 1 0).
Lemma no_turn v inv : qrotate (mkq 0 0 0 1) v inv = v.
Proof.
  assert (U : qnorm2 (mkq 0 0 0 1) = 1) by (unfold qnorm2; cbn; ring). unfold qrotate. rewrite U. rewrite Rminus_eq_0, Rabs_R0.
  destruct (Rlt_dec 0 (1 / 10 ^ 12)) as [|n]; [|exfalso; apply n; lra]. destruct inv; apply vec_eq; cbn; ring.
Qed.
Lemma there_local v : global_to_local there v = vsub v (mkv 1 0 0) /\ global_to_local_dir there v = v.
Proof. unfold global_to_local, global_to_local_dir, there. cbn [p_quat p_position]. rewrite !no_turn. auto. Qed.
Lemma here_local v : global_to_local here v = v /\ global_to_local_dir here v = v /\ local_to_global here v = v.
Proof.
  unfold global_to_local, global_to_local_dir, local_to_global, here. cbn [p_quat p_position]. rewrite !no_turn.
  repeat split; apply vec_eq; cbn; ring.
Qed.
Lemma holed_formed : well_formed holed.
Proof.
  assert (U : unit (mkq 0 0 0 1)) by (unfold unit, qnorm2; cbn; ring).
  assert (H : well_placed here) by (split; [exact U|intros _; exact here_local]).
  assert (T : well_placed there) by (split; [exact U|intros E; discriminate E]).
  split; [exact T|]. split; (split; [exact H|]); unfold precision; lra.
Qed.
Example C45_case : well_formed holed /\ settled holed (mkv 0 0 (-5)) (mkv 0 0 1) (1/2 + 6) (2 * precision) /\
  in_shape holed (on_line (mkv 0 0 (-5)) (mkv 0 0 1) (1/2 + 6)) /\ ~ in_shape holed (mkv 1 0 0).
Proof.
  split; [apply holed_formed|].
  assert (B : forall u, 6 <= u <= 7 -> in_box 4 4 4 (mkv (-1) 0 (-5 + u))) by (intros u H; unfold in_box; cbn; unfold Rabs; repeat destruct (Rcase_abs _); lra).
  assert (S : forall u, 6 < u -> ~ in_shell 1 0 (mkv (-1) 0 (-5 + u))).
  { intros u H [A _]. apply mag_below in A; [|lra]. unfold vdot in A. cbn in A. nra. }
  assert (L : forall u, on_line (mkv (-1) 0 (-5)) (mkv 0 0 1) u = mkv (-1) 0 (-5 + u)) by (intros; apply vec_eq; unfold on_line; cbn; ring).
  assert (E : vsub (mkv 0 0 (-5)) (mkv 1 0 0) = mkv (-1) 0 (-5)) by (apply vec_eq; cbn; ring).
  split; [|split].
  - unfold settled. cbn [shape_placement holed]. destruct (there_local (mkv 0 0 (-5))) as [-> _], (there_local (mkv 0 0 1)) as [_ ->]. rewrite E.
    unfold holed. cbn [settled_local shape_placement in_local]. destruct (here_local (mkv (-1) 0 (-5))) as (-> & _), (here_local (mkv 0 0 1)) as (_ & -> & _).
    split; intros u Hu; rewrite !L; unfold precision in Hu; apply Rabs_def2 in Hu; split; intros H; try (apply B; lra); exfalso; refine (S _ _ H); lra.
  - unfold in_shape, holed. cbn [shape_placement in_local set_op]. rewrite (proj1 (there_local _)).
    rewrite (proj1 (here_local _)). replace (vsub _ _) with (mkv (-1) 0 (-5 + (1/2 + 6))) by (apply vec_eq; unfold on_line; cbn; lra).
    split; [apply B; lra|apply S; lra].
  - unfold in_shape, holed. cbn [shape_placement in_local set_op]. rewrite (proj1 (there_local _)). rewrite (proj1 (here_local _)). intros [_ H]. apply H.
    split; [apply mag_below; [lra|]; unfold vdot; cbn; lra|intros; lra].
Qed.

(** ** C46 *)

(** A line is rejected exactly when it misses the box. *)
Theorem C46_ray : forall o d b, aabb_valid b = true -> (ray_aabb o d b = true <-> exists t, in_aabb b (on_line o d t)).
Proof. exact ray_aabb_ok. Qed.
Print Assumptions C46_ray.

(** Growing a box keeps its points and adds those of the other. *)
Theorem C46_expand : (forall b q, in_aabb (expand_point b q) q /\ forall x, in_aabb b x -> in_aabb (expand_point b q) x) /\
  (forall b o x, in_aabb b x \/ in_aabb o x -> in_aabb (expand_box b o) x) /\
  (forall b q, aabb_contains b q = true <-> in_aabb b q).
Proof. exact (conj expand_ok (conj expand_box_ok aabb_contains_iff)). Qed.
Print Assumptions C46_expand.

(** A box moved and turned stays within its world bounds. *)
Theorem C46_world : forall big pl b q, in_aabb b q -> in_aabb (world_bounds big pl b) (local_to_global pl q).
Proof. exact world_ok. Qed.
Print Assumptions C46_world.

(** The world bounds of a shape contain all of its points, so no line that meets the
    shape is rejected. *)
Theorem C46_shapes : forall big s, well_formed s -> (forall q, in_shape s q -> in_aabb (shape_bounds big s) q) /\
  (forall o d t, in_shape s (on_line o d t) -> ray_aabb o d (shape_bounds big s) = true).
Proof.
  intros big s W. pose proof (shape_bounds_ok big s W) as B. split; auto. intros o d t H. specialize (B _ H). apply ray_aabb_ok; [|eauto].
  apply aabb_valid_iff. unfold in_aabb in B. lra.
Qed.
Print Assumptions C46_shapes.

Example C46_case : well_formed holed /\ in_shape holed (mkv 0 0 (-5 + (1/2 + 6))) /\ ray_aabb (mkv 0 0 (-5)) (mkv 0 0 1) (shape_bounds (10 ^ 308) holed) = true.
Proof.
  destruct C45_case as (A & _ & B & _). split; [exact A|]. split.
  - replace (mkv 0 0 (-5 + (1/2 + 6))) with (on_line (mkv 0 0 (-5)) (mkv 0 0 1) (1/2 + 6)) by (apply vec_eq; unfold on_line; cbn; ring). exact B.
  - eapply (proj2 (C46_shapes _ _ A)). exact B.
Qed.

Example C44_case : settled holed (mkv 0 0 (3/2)) (mkv 0 0 1) 0 (3 * precision) /\ shape_inside isort holed (mkv 0 0 (3/2)) (mkv 0 0 1) = true.
Proof.
  assert (B : forall u, -1/4 <= u <= 1/4 -> in_box 4 4 4 (mkv (-1) 0 (3/2 + u))) by (intros u H; unfold in_box; cbn; unfold Rabs; repeat destruct (Rcase_abs _); lra).
  assert (S : forall u, -1/4 <= u -> ~ in_shell 1 0 (mkv (-1) 0 (3/2 + u))).
  { intros u H [A _]. apply mag_below in A; [|lra]. unfold vdot in A. cbn in A. nra. }
  assert (L : forall u, on_line (mkv (-1) 0 (3/2)) (mkv 0 0 1) u = mkv (-1) 0 (3/2 + u)) by (intros; apply vec_eq; unfold on_line; cbn; ring).
  assert (E : vsub (mkv 0 0 (3/2)) (mkv 1 0 0) = mkv (-1) 0 (3/2)) by (apply vec_eq; cbn; ring).
  assert (St : settled holed (mkv 0 0 (3/2)) (mkv 0 0 1) 0 (3 * precision)).
  { unfold settled. cbn [shape_placement holed]. destruct (there_local (mkv 0 0 (3/2))) as [-> _], (there_local (mkv 0 0 1)) as [_ ->]. rewrite E.
    unfold holed. cbn [settled_local shape_placement in_local]. destruct (here_local (mkv (-1) 0 (3/2))) as (-> & _), (here_local (mkv 0 0 1)) as (_ & -> & _).
    split; intros u Hu; rewrite !L; unfold precision in Hu; apply Rabs_def2 in Hu; split; intros H; try (apply B; lra); exfalso; refine (S _ _ H); lra. }
  split; [exact St|]. apply C44_shapes; [apply isort_ok|apply isort_ok|apply holed_formed|unfold vdot; cbn; ring|exact St|].
  unfold in_shape, holed. cbn [shape_placement in_local set_op]. rewrite (proj1 (there_local _)). rewrite (proj1 (here_local _)). rewrite E.
  replace (mkv (-1) 0 (3/2)) with (mkv (-1) 0 (3/2 + 0)) by (apply vec_eq; cbn; ring). split; [apply B; lra|apply S; lra].
Qed.
