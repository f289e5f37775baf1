(** Proofs about placed shapes and bounding boxes. *)
From Coq Require Import Reals Lra Lia List Bool Permutation Sorted Arith.
From Verif Require Import VectorModel QuatModel QuatSpec QuatProofs QuatPlace GeometryModel GeometrySpec GeometryProofs GeometryCsg.
Import ListNotations.
Open Scope R_scope.

Section Place.
Variable pl : placement.
Hypothesis U : unit (p_quat pl).
Let N := unit_nonzero _ U.
Let E := unit_exact _ U.
Lemma dir_rotation : rotation (global_to_local_dir pl).
Proof. exact (proj2 (rotate_is_rotation _ N E)). Qed.
Lemma to_local_line p d t : global_to_local pl (on_line p d t) = on_line (global_to_local pl p) (global_to_local_dir pl d) t.
Proof.
  unfold on_line. rewrite <- (rot_scale _ dir_rotation). unfold global_to_local. change (qrotate (p_quat pl) ?v true) with (global_to_local_dir pl v).
  rewrite <- (rot_add _ dir_rotation). f_equal. apply vec_eq; cbn; ring.
Qed.
Lemma to_local_unit d : vdot d d = 1 -> vdot (global_to_local_dir pl d) (global_to_local_dir pl d) = 1.
Proof. intros H. rewrite (rot_dot _ dir_rotation). exact H. Qed.
Lemma there_and_back p : local_to_global pl (global_to_local pl p) = p.
Proof.
  unfold local_to_global, global_to_local. rewrite (proj1 (rotate_undone _ N E)). apply vec_eq; cbn; ring.
Qed.
Lemma back_and_there p : global_to_local pl (local_to_global pl p) = p.
Proof.
  unfold local_to_global, global_to_local. replace (vsub (vadd (qrotate (p_quat pl) p false) (p_position pl)) (p_position pl)) with (qrotate (p_quat pl) p false) by (apply vec_eq; cbn; ring).
  apply (proj2 (rotate_undone _ N E)).
Qed.
End Place.

(** Moving the positions of crossings changes nothing else. *)
Definition moved (f : vec -> vec) (h : hit) : hit := mkhit (h_distance h) (h_entering h) (f (h_position h)).
Lemma reach_moved f t l : forall b, reach t (map (moved f) l) b = reach t l b.
Proof. unfold reach. induction l as [|h l IH]; intros b; cbn; auto. Qed.
Lemma ordered_moved f l : ordered l -> ordered (map (moved f) l).
Proof.
  induction 1 as [|h l S IH M]; cbn; constructor; auto. rewrite Forall_forall in *. intros x X.
  apply in_map_iff in X as (y & <- & Y). exact (M _ Y).
Qed.
Lemma alternating_moved f l : forall b, alternating b l -> alternating b (map (moved f) l).
Proof. induction l as [|h l IH]; intros b A; cbn; auto. destruct A. auto. Qed.
Lemma closed_moved f l : closed l -> closed (map (moved f) l).
Proof. unfold closed. rewrite map_length. auto. Qed.

(** What is known of the crossings of a shape along a line. *)
Record crossed (inside : R -> Prop) (settled_at : R -> R -> Prop) (p d : vec) (l : list hit) : Prop := {
  cr_ordered : ordered l;
  cr_alternating : alternating true l;
  cr_closed : closed l;
  cr_positioned : positioned p d l;
  cr_far : forall t e, precision <= e -> settled_at t (e + precision) -> (forall h, In h l -> e <= Rabs (h_distance h - t)) /\ (inside t <-> state l t = true)
}.

Lemma delimits_crossed (inside : R -> Prop) p d l : delimits inside l -> positioned p d l ->
  crossed inside (fun t e => forall u, Rabs (u - t) < e -> (inside u <-> inside t)) p d l.
Proof.
  intros D P. constructor; [apply D|apply D|apply D|exact P|]. intros t e He S.
  assert (F : forall h, In h l -> e <= Rabs (h_distance h - t)).
  { intros h H. apply Rnot_lt_le. intros L. destruct (dl_real _ _ D h H) as (u & v & Ru & Rv & Iu & Iv).
    apply Iv. apply S; [|apply (S u); [|exact Iu]].
    - replace (v - t) with ((v - h_distance h) + (h_distance h - t)) by ring. eapply Rle_lt_trans; [apply Rabs_triang|lra].
    - replace (u - t) with ((u - h_distance h) + (h_distance h - t)) by ring. eapply Rle_lt_trans; [apply Rabs_triang|lra]. }
  split; auto. apply (dl_state _ _ D). intros h H. specialize (F h H). pose proof precision_pos. split; [|intros; lra].
  intros X. rewrite X, Rminus_eq_0, Rabs_R0 in F. lra.
Qed.

Lemma placed_crossed pl (compute : vec -> vec -> list hit) (inside : vec -> Prop) (settled_at : vec -> vec -> R -> R -> Prop) :
  well_placed pl ->
  (forall p d, vdot d d = 1 -> crossed (fun t => inside (on_line p d t)) (settled_at p d) p d (compute p d)) ->
  forall p d, vdot d d = 1 ->
  crossed (fun t => inside (global_to_local pl (on_line p d t))) (settled_at (global_to_local pl p) (global_to_local_dir pl d)) p d (intersections compute pl p d).
Proof.
  intros [U Id] H p d Ud. unfold intersections. destruct (p_identity pl) eqn:EI.
  - specialize (Id eq_refl). destruct (Id p) as (-> & _), (Id d) as (_ & -> & _). destruct (H p d Ud) as [A B C D F]. constructor; auto.
    intros t e He S. destruct (Id (on_line p d t)) as (-> & _). apply F; auto.
  - destruct (H (global_to_local pl p) _ (to_local_unit pl U d Ud)) as [A B C D F]. change (map _ ?l) with (map (moved (local_to_global pl)) l).
    constructor; [apply ordered_moved; auto|apply alternating_moved; auto|apply closed_moved; auto|..].
    + intros h X. apply in_map_iff in X as (y & <- & Y). cbn. rewrite (D _ Y), <- to_local_line, there_and_back by auto. reflexivity.
    + intros t e He S. destruct (F t e He S) as [F1 F2]. split.
      * intros h X. apply in_map_iff in X as (y & <- & Y). cbn. auto.
      * rewrite to_local_line by auto. rewrite F2. unfold state. change (fold_left _ ?l false) with (reach t l false). rewrite reach_moved. reflexivity.
Qed.

Lemma unit_nonzero_vec d : vdot d d = 1 -> d <> mkv 0 0 0.
Proof. intros H ->. unfold vdot in H. cbn in H. lra. Qed.

Lemma set_op_bool op (a b : Prop) x y : (a <-> x = true) -> (b <-> y = true) -> (set_op op a b <-> inside_result op x y = true).
Proof. intros A B. destruct op; cbn; rewrite ?orb_true_iff, ?andb_true_iff, ?negb_true_iff, A, B; try tauto. destruct y; split; intros [? ?]; split; auto; congruence. Qed.

Lemma compute_crossed sort s : sorts sort -> stable sort -> well_formed s ->
  forall p d, vdot d d = 1 -> crossed (fun t => in_local s (on_line p d t)) (settled_local s p d) p d (shape_compute sort s p d).
Proof.
  intros So St. induction s as [pl wx wy wz|pl radius inner|pl op l IHl r IHr]; intros W p d Ud.
  - destruct W as (_ & A & B & C). cbn [shape_compute]. destruct (box_delimits wx wy wz p d A B C (unit_nonzero_vec d Ud)) as (l & -> & D & P).
    exact (delimits_crossed _ _ _ _ D P).
  - destruct W as (_ & A & B). cbn [shape_compute]. destruct (sphere_delimits sort radius inner p d So (or_introl St) Ud A B) as [D P].
    exact (delimits_crossed _ _ _ _ D P).
  - destruct W as (_ & Wl & Wr). specialize (IHl Wl). specialize (IHr Wr). cbn [shape_compute].
    assert (Pl : well_placed (shape_placement l)) by (destruct l; apply Wl). assert (Pr : well_placed (shape_placement r)) by (destruct r; apply Wr).
    pose proof (placed_crossed _ _ _ (settled_local l) Pl IHl p d Ud) as [A1 A2 A3 A4 A5].
    pose proof (placed_crossed _ _ _ (settled_local r) Pr IHr p d Ud) as [B1 B2 B3 B4 B5].
    set (hl := intersections (shape_compute sort l) (shape_placement l) p d) in *. set (hr := intersections (shape_compute sort r) (shape_placement r) p d) in *.
    assert (K : keepable sort hl hr) by (split; [auto|split; auto]).
    destruct (bool_order sort So op hl hr K) as [O1 O2]. constructor; auto.
    + apply bool_closed; auto.
    + intros h H. destruct (bool_from sort So op hl hr h K H) as (a & Ia & E1 & E2). rewrite E1, E2. apply in_app_or in Ia as [Ia|Ia]; auto.
    + intros t e He [S1 S2]. destruct (A5 t e He S1) as [F1 G1]. destruct (B5 t e He S2) as [F2 G2].
      assert (F : forall h, In h (hl ++ hr) -> e <= Rabs (h_distance h - t)) by (intros h H; apply in_app_or in H as [H|H]; auto).
      split.
      * intros h H. destruct (bool_from sort So op hl hr h K H) as (a & Ia & E1 & _). rewrite E1. auto.
      * rewrite bool_state; auto; [cbn [in_local]; apply set_op_bool; auto|].
        intros a b Ia Ib La Lb. apply F in Ia. apply F in Ib. rewrite Rabs_left in Ia by lra. rewrite Rabs_right in Ib by lra. pose proof precision_pos. lra.
Qed.

Lemma shape_crossed sort s : sorts sort -> stable sort -> well_formed s ->
  forall p d, vdot d d = 1 -> crossed (fun t => in_shape s (on_line p d t)) (settled s p d) p d (shape_hits sort s p d).
Proof.
  intros So St W p d Ud. assert (P : well_placed (shape_placement s)) by (destruct s; apply W).
  exact (placed_crossed _ _ _ (settled_local s) P (compute_crossed sort s So St W) p d Ud).
Qed.

Lemma shape_inside_ok sort s : sorts sort -> stable sort -> well_formed s -> forall p d, vdot d d = 1 -> settled s p d 0 (3 * precision) ->
  (shape_inside sort s p d = true <-> in_shape s p).
Proof.
  intros So St W p d Ud S. assert (P : well_placed (shape_placement s)) by (destruct s; apply W). destruct P as [U _].
  unfold shape_inside, is_inside.
  destruct (compute_crossed sort s So St W (global_to_local (shape_placement s) p) _ (to_local_unit _ U d Ud)) as [A B C D F].
  pose proof precision_pos. destruct (F 0 (2 * precision)) as [F1 F2]; [lra|replace (2 * precision + precision) with (3 * precision) by ring; exact S|].
  rewrite forward_inside; auto.
  - rewrite <- F2, <- to_local_line by auto. unfold in_shape. replace (on_line p d 0) with p; [tauto|]. apply vec_eq; unfold on_line; cbn; ring.
  - intros h H'. specialize (F1 h H'). rewrite Rminus_0_r in F1. unfold Rabs in F1. destruct (Rcase_abs (h_distance h)); lra.
Qed.

(** ** Bounding boxes *)
Lemma expand_ok b q : in_aabb (expand_point b q) q /\ forall x, in_aabb b x -> in_aabb (expand_point b q) x.
Proof.
  unfold in_aabb, expand_point. cbn. split; [repeat split; (apply Rmin_r || apply Rmax_r)|].
  intros x (A & B & C). repeat split; (eapply Rle_trans; [apply Rmin_l|tauto]) || (eapply Rle_trans; [|apply Rmax_l]; tauto).
Qed.
Definition below (b : aabb) (q : vec) : Prop := vx (b_min b) <= vx q /\ vy (b_min b) <= vy q /\ vz (b_min b) <= vz q.
Definition above (b : aabb) (q : vec) : Prop := vx q <= vx (b_max b) /\ vy q <= vy (b_max b) /\ vz q <= vz (b_max b).
Lemma in_aabb_halves b q : in_aabb b q <-> below b q /\ above b q.
Proof. unfold in_aabb, below, above. tauto. Qed.
Lemma expand_box_ok b o x : in_aabb b x \/ in_aabb o x -> in_aabb (expand_box b o) x.
Proof.
  intros [H|H]; unfold expand_box.
  - apply expand_ok. apply expand_ok. exact H.
  - pose proof (proj1 (expand_ok b (b_min o))) as A. apply (proj2 (expand_ok (expand_point b (b_min o)) (b_max o))) in A.
    pose proof (proj1 (expand_ok (expand_point b (b_min o)) (b_max o))) as B. unfold in_aabb in *. intuition lra.
Qed.

Lemma aabb_valid_iff b : aabb_valid b = true <-> vx (b_min b) <= vx (b_max b) /\ vy (b_min b) <= vy (b_max b) /\ vz (b_min b) <= vz (b_max b).
Proof.
  unfold aabb_valid. destruct (Rle_dec (vx (b_min b)) (vx (b_max b))), (Rle_dec (vy (b_min b)) (vy (b_max b))), (Rle_dec (vz (b_min b)) (vz (b_max b)));
  cbn; split; intros; try discriminate; try tauto.
Qed.
Lemma aabb_contains_iff b q : aabb_contains b q = true <-> in_aabb b q.
Proof.
  unfold aabb_contains, in_aabb. repeat match goal with |- context[if Rle_dec ?x ?y then _ else _] => destruct (Rle_dec x y) end;
  cbn; split; intros; try discriminate; try tauto; intuition lra.
Qed.

(** ** Lines and boxes *)
Lemma axis_range o d lo hi r : lo <= hi ->
  match aabb_axis o d lo hi r with
  | None => forall t, ~ lo <= o + t * d <= hi
  | Some r' => forall t, in_range r' t <-> in_range r t /\ lo <= o + t * d <= hi
  end.
Proof.
  intros L. unfold aabb_axis. destruct (Req_EM_T d 0) as [->|Nd].
  - destruct (Rlt_dec 0 (lo - o)); [intros; lra|]. destruct (Rlt_dec (hi - o) 0); [intros; lra|]. intros t. split; [intros; split; [auto|lra]|tauto].
  - intros t. set (a := (lo - o) * (1 / d)). set (b := (hi - o) * (1 / d)).
    assert (Ea : a * d = lo - o) by (unfold a; field; auto). assert (Eb : b * d = hi - o) by (unfold b; field; auto).
    assert (key : lo <= o + t * d <= hi <-> Rmin a b <= t <= Rmax a b).
    { destruct (Rdichotomy _ _ Nd) as [Ng|Ps].
      - assert (b <= a) by nra. rewrite Rmin_right, Rmax_left by auto. split; intros; nra.
      - assert (a <= b) by nra. rewrite Rmin_left, Rmax_right by auto. split; intros; nra. }
    rewrite key. generalize (Rmin a b) (Rmax a b). intros u v.
    destruct r as [[e|] [x|]]; unfold in_range; cbn [fst snd].
    + split; intros H; [pose proof (Rmax_l e u); pose proof (Rmax_r e u); pose proof (Rmin_l x v); pose proof (Rmin_r x v); lra|]. split; [apply Rmax_lub; lra|apply Rmin_glb; lra].
    + split; intros H; [pose proof (Rmax_l e u); pose proof (Rmax_r e u); lra|]. split; [apply Rmax_lub; lra|lra].
    + split; intros H; [pose proof (Rmin_l x v); pose proof (Rmin_r x v); lra|]. split; [lra|apply Rmin_glb; lra].
    + tauto.
Qed.

Lemma in_aabb_line b o d t : in_aabb b (on_line o d t) <->
  vx (b_min b) <= vx o + t * vx d <= vx (b_max b) /\ vy (b_min b) <= vy o + t * vy d <= vy (b_max b) /\ vz (b_min b) <= vz o + t * vz d <= vz (b_max b).
Proof. unfold in_aabb, on_line. cbn. tauto. Qed.

Lemma ray_aabb_ok o d b : aabb_valid b = true -> (ray_aabb o d b = true <-> exists t, in_aabb b (on_line o d t)).
Proof.
  intros V. apply aabb_valid_iff in V as (Vx & Vy & Vz). unfold ray_aabb.
  pose proof (axis_range (vx o) (vx d) _ _ (None, None) Vx) as A1. destruct (aabb_axis (vx o) (vx d) _ _ _) as [r1|];
    [|split; [discriminate|intros (t & T); apply in_aabb_line in T; elim (A1 t (proj1 T))]].
  pose proof (axis_range (vy o) (vy d) _ _ r1 Vy) as A2. destruct (aabb_axis (vy o) (vy d) _ _ _) as [r2|];
    [|split; [discriminate|intros (t & T); apply in_aabb_line in T; elim (A2 t (proj1 (proj2 T)))]].
  pose proof (axis_range (vz o) (vz d) _ _ r2 Vz) as A3. destruct (aabb_axis (vz o) (vz d) _ _ _) as [r3|];
    [|split; [discriminate|intros (t & T); apply in_aabb_line in T; elim (A3 t (proj2 (proj2 T)))]].
  assert (key : forall t, in_aabb b (on_line o d t) <-> in_range r3 t).
  { intros t. rewrite in_aabb_line, A3, A2, A1. unfold in_range. cbn. tauto. }
  destruct r3 as [[a|] [c|]]; unfold in_range in key; cbn in key.
  - destruct (Rle_dec a c); split; intros H; auto; try discriminate.
    + exists a. apply key. lra.
    + destruct H as (t & T). apply key in T. lra.
  - split; auto. intros _. exists a. apply key. lra.
  - split; auto. intros _. exists c. apply key. lra.
  - split; auto. intros _. exists 0. apply key. auto.
Qed.

(** ** Placed boxes *)
Definition affine (f : vec -> R) : Prop := exists a b c e, forall q, f q = a * vx q + b * vy q + c * vz q + e.
Definition corners (b : aabb) : list vec :=
  [mkv (vx (b_min b)) (vy (b_min b)) (vz (b_min b)); mkv (vx (b_min b)) (vy (b_min b)) (vz (b_max b));
   mkv (vx (b_min b)) (vy (b_max b)) (vz (b_min b)); mkv (vx (b_min b)) (vy (b_max b)) (vz (b_max b));
   mkv (vx (b_max b)) (vy (b_min b)) (vz (b_min b)); mkv (vx (b_max b)) (vy (b_min b)) (vz (b_max b));
   mkv (vx (b_max b)) (vy (b_max b)) (vz (b_min b)); mkv (vx (b_max b)) (vy (b_max b)) (vz (b_max b))].
Lemma one_dim k lo hi x : lo <= x <= hi -> exists z, (z = lo \/ z = hi) /\ k * z <= k * x.
Proof. intros H. destruct (Rle_dec 0 k); [exists lo|exists hi]; (split; [auto|nra]). Qed.
Lemma corner_below f b q : affine f -> in_aabb b q -> exists c, In c (corners b) /\ f c <= f q.
Proof.
  intros (a1 & a2 & a3 & e & E) (X & Y & Z).
  destruct (one_dim a1 _ _ _ X) as (x & Cx & Lx). destruct (one_dim a2 _ _ _ Y) as (y & Cy & Ly). destruct (one_dim a3 _ _ _ Z) as (z & Cz & Lz).
  exists (mkv x y z). split; [|rewrite !E; cbn; lra]. unfold corners. destruct Cx as [->| ->], Cy as [->| ->], Cz as [->| ->]; cbn; tauto.
Qed.
Lemma affine_neg f : affine f -> affine (fun q => - f q).
Proof. intros (a & b & c & e & E). exists (- a), (- b), (- c), (- e). intros q. rewrite E. ring. Qed.

Lemma expand_all (f : vec -> vec) l : forall b, (forall x, In x l -> in_aabb (fold_left (fun r p => expand_point r (f p)) l b) (f x)) /\
  (forall x, in_aabb b x -> in_aabb (fold_left (fun r p => expand_point r (f p)) l b) x).
Proof.
  induction l as [|a l IH]; intros b; cbn; [split; [intros x []|auto]|]. destruct (IH (expand_point b (f a))) as [A B]. split.
  - intros x [<-|X]; auto. apply B. exact (proj1 (expand_ok _ _)).
  - intros x X. apply B. apply expand_ok. exact X.
Qed.

Lemma sandwich_affine x y z w (c : vec -> R) : (c = vx \/ c = vy \/ c = vz) -> affine (fun q => c (sandwich x y z w q)).
Proof.
  intros C. exists (c (sandwich x y z w (mkv 1 0 0))), (c (sandwich x y z w (mkv 0 1 0))), (c (sandwich x y z w (mkv 0 0 1))), 0.
  intros q. destruct C as [->|[->| ->]]; cbn; ring.
Qed.
Lemma to_global_affine pl (c : vec -> R) : (c = vx \/ c = vy \/ c = vz) -> affine (fun q => c (local_to_global pl q)).
Proof.
  intros C. assert (A : affine (fun q => c (qrotate (p_quat pl) q false))).
  { unfold qrotate. destruct (Rlt_dec _ _); apply sandwich_affine; auto. }
  destruct A as (a & b & e & f & A). exists a, b, e, (f + c (p_position pl)). intros q. unfold local_to_global.
  specialize (A q). destruct C as [->|[->| ->]]; cbn; lra.
Qed.

Lemma world_ok big pl b q : in_aabb b q -> in_aabb (world_bounds big pl b) (local_to_global pl q).
Proof.
  intros H. unfold world_bounds. assert (aabb_valid b = true) as -> by (apply aabb_valid_iff; unfold in_aabb in H; lra).
  pose proof (proj1 (expand_all (local_to_global pl) (corners b) (empty_aabb big))) as F. fold (corners b).
  set (w := fold_left _ (corners b) (empty_aabb big)) in *.
  assert (lo : forall c, (c = vx \/ c = vy \/ c = vz) -> exists u v, In u (corners b) /\ In v (corners b) /\
    c (local_to_global pl u) <= c (local_to_global pl q) <= c (local_to_global pl v)).
  { intros c C. pose proof (to_global_affine pl c C) as A. destruct (corner_below _ b q A H) as (u & U & Lu).
    destruct (corner_below _ b q (affine_neg _ A) H) as (v & V & Lv). exists u, v. repeat split; auto. lra. }
  destruct (lo vx) as (u1 & v1 & U1 & V1 & L1); [auto|]. destruct (lo vy) as (u2 & v2 & U2 & V2 & L2); [auto|]. destruct (lo vz) as (u3 & v3 & U3 & V3 & L3); [auto|].
  apply F in U1, V1, U2, V2, U3, V3. unfold in_aabb in *. intuition lra.
Qed.

Lemma bool_bounds_ok big op l r q : set_op op (in_aabb l q) (in_aabb r q) \/ (op = Subtraction /\ in_aabb l q) -> in_aabb (bool_bounds big op (Some l) (Some r)) q.
Proof.
  intros H. destruct op; cbn [set_op bool_bounds] in *.
  - apply expand_box_ok. destruct H as [[H|H]|[E _]]; [left; apply expand_box_ok; auto|auto|discriminate].
  - destruct H as [[A B]|[E _]]; [|discriminate]. set (m := mkaabb _ _).
    assert (I : in_aabb m q) by (unfold in_aabb, m in *; cbn; repeat split; (apply Rmax_lub || apply Rmin_glb); lra).
    assert (aabb_valid m = true) as -> by (apply aabb_valid_iff; unfold in_aabb in I; lra). exact I.
  - tauto.
Qed.

Lemma box_bounds_ok wx wy wz q : in_box wx wy wz q -> in_aabb (box_bounds wx wy wz) q.
Proof.
  unfold in_box, in_aabb, box_bounds. cbn. intros (A & B & C).
  assert (Q : forall x w, 2 * Rabs x <= w -> - (w * (1 / 2)) <= x <= w * (1 / 2)).
  { intros x w H. unfold Rabs in H. destruct (Rcase_abs x); lra. }
  auto.
Qed.
Lemma sphere_bounds_ok r i q : in_shell r i q -> in_aabb (sphere_bounds r) q.
Proof.
  intros [A _]. unfold in_aabb, sphere_bounds. cbn. pose proof (vmag_nonneg q). pose proof (vmag_sq q) as S. unfold vdot in S.
  assert (Q : forall x, x * x <= vmag q * vmag q -> - r <= x <= r) by (intros x X; split; apply Rnot_lt_le; intros ?; nra).
  repeat split; apply Q; nra.
Qed.

Lemma shape_bounds_ok big s : well_formed s -> forall q, in_shape s q -> in_aabb (shape_bounds big s) q.
Proof.
  induction s as [pl wx wy wz|pl radius inner|pl op l IHl r IHr]; intros W q H; destruct W as ((U & _) & W); unfold in_shape in H; cbn [shape_placement in_local] in *;
  rewrite <- (there_and_back pl U q); cbn [shape_bounds]; apply world_ok.
  - apply box_bounds_ok; auto.
  - eapply sphere_bounds_ok; eauto.
  - destruct W as [Wl Wr]. apply bool_bounds_ok. specialize (IHl Wl (global_to_local pl q)). specialize (IHr Wr (global_to_local pl q)). unfold in_shape in *.
    destruct op; cbn [set_op] in *; intuition.
Qed.
