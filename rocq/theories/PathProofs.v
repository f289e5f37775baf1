(** Proofs about paths. *)
From Coq Require Import Reals Lra List Bool ZArith.
From Verif Require Import TraversalModel VectorModel QuatModel QuatSpec QuatProofs QuatPlace DepthModel PathModel PathSpec.
Import ListNotations.
Open Scope R_scope.

Ltac vring := intros; repeat match goal with v : vec |- _ => destruct v end;
  unfold along_by, vadd, vsub, vscale, vneg, vdot in *; cbn [vx vy vz] in *; lazymatch goal with |- @eq vec _ _ => f_equal; ring | |- _ => ring end.

Lemma along_0 a d : along_by a d 0 = a. Proof. vring. Qed.
Lemma along_along a d s t : along_by (along_by a d s) d t = along_by a d (s + t). Proof. vring. Qed.
Lemma along_neg a d t : along_by a (vneg d) t = along_by a d (- t). Proof. vring. Qed.
Lemma along_dot P d s t : vdot d d = 1 -> vdot (vsub (along_by P d s) (along_by P d t)) d = s - t.
Proof. intros U. replace (s - t) with ((s - t) * vdot d d) by (rewrite U; ring). vring. Qed.
Lemma along_sub P d s t : vsub (along_by P d s) (along_by P d t) = vscale (s - t) d. Proof. vring. Qed.
Lemma along_inj P d s t : vdot d d = 1 -> along_by P d s = along_by P d t -> s = t.
Proof. intros U E. pose proof (along_dot P d s t U) as D. rewrite E, along_dot in D by auto. lra. Qed.
Lemma neg_neg (d : vec) : vneg (vneg d) = d. Proof. vring. Qed.
Lemma unit_neg d : vdot d d = 1 -> vdot (vneg d) (vneg d) = 1.
Proof. intros <-. vring. Qed.
Lemma scale_m1 d : vscale (-1) d = vneg d. Proof. vring. Qed.
Lemma neg_scale k (d : vec) : vscale k (vneg d) = vneg (vscale k d). Proof. vring. Qed.

Lemma unit_mag d : vdot d d = 1 -> vmag d = 1.
Proof. intros U. rewrite vmag_dot, U. apply sqrt_1. Qed.

Lemma sub_nonzero u v : u <> v -> vsub v u <> mkv 0 0 0.
Proof.
  intros N E. apply N. destruct u as [a b c], v as [x y z]. unfold vsub in E; cbn in E.
  injection E as E1 E2 E3. f_equal; lra.
Qed.

Lemma normalized_back v : v <> mkv 0 0 0 -> vscale (vmag v) (vnormalized v) = v.
Proof.
  intros N. destruct (normalized_unit v N) as [_ ->].
  assert (M : vmag v <> 0).
  { intros M. apply N. apply vdot_zero. rewrite <- vmag_sq, M. ring. }
  destruct v as [a b c]. unfold vscale; cbn [vx vy vz]. f_equal; field; auto.
Qed.

(** ** Lines *)
Lemma same_line_along l a d t : same_line l a d -> same_line l (along_by a d t) d.
Proof.
  intros [[E|E] [s ->]]; (split; [tauto|]); rewrite E.
  - exists (s + t). rewrite along_along. reflexivity.
  - exists (s - t). rewrite !along_neg, along_along. f_equal; lra.
Qed.
Lemma same_line_neg l a d : same_line l a d -> same_line l a (vneg d).
Proof. intros [E H]. split; auto. rewrite neg_neg. tauto. Qed.
Lemma same_line_param l a d : same_line l a d -> exists t, a = along_by (l_position l) d t.
Proof.
  intros [[E|E] [s ->]]; rewrite E; [exists s|exists (- s)]; auto. apply along_neg.
Qed.

(** ** The two frames *)
Section Proper.
Context {Q : Type}.
Variable m : detector Q.
Hypothesis P : proper m.

Lemma dir_geo : rotation (to_geo_dir (d_frame m)).
Proof. destruct P as (N & E & _). destruct (frame_maps (d_frame m) N E) as (_ & _ & _ & _ & _ & R). auto. Qed.
Lemma dir_det : rotation (to_det_dir (d_frame m)).
Proof. destruct P as (N & E & _). destruct (frame_maps (d_frame m) N E) as (_ & _ & _ & _ & R & _). auto. Qed.

Lemma geo_along a d t : to_geo (d_frame m) (along_by a d t) = along_by (to_geo (d_frame m) a) (to_geo_dir (d_frame m) d) t.
Proof.
  pose proof dir_geo as R. unfold to_geo, along_by.
  change (qrotate (ds_rotation (d_frame m)) (vadd a (vscale t d)) false) with (to_geo_dir (d_frame m) (vadd a (vscale t d))).
  rewrite (rot_add _ R), (rot_scale _ R).
  change (qrotate (ds_rotation (d_frame m)) a false) with (to_geo_dir (d_frame m) a). vring.
Qed.
Lemma det_along a d t : to_det (d_frame m) (along_by a d t) = along_by (to_det (d_frame m) a) (to_det_dir (d_frame m) d) t.
Proof.
  pose proof dir_det as R. unfold to_det, along_by.
  replace (vsub (vadd a (vscale t d)) (ds_origin (d_frame m))) with (vadd (vsub a (ds_origin (d_frame m))) (vscale t d)) by vring.
  change (qrotate (ds_rotation (d_frame m)) (vadd (vsub a (ds_origin (d_frame m))) (vscale t d)) true)
    with (to_det_dir (d_frame m) (vadd (vsub a (ds_origin (d_frame m))) (vscale t d))).
  rewrite (rot_add _ R), (rot_scale _ R). reflexivity.
Qed.
Lemma det_geo v : to_det (d_frame m) (to_geo (d_frame m) v) = v.
Proof. destruct P as (N & E & _). destruct (frame_maps (d_frame m) N E) as ((A & _) & _). auto. Qed.
Lemma geo_det v : to_geo (d_frame m) (to_det (d_frame m) v) = v.
Proof. destruct P as (N & E & _). destruct (frame_maps (d_frame m) N E) as ((_ & A) & _). auto. Qed.
Lemma det_geo_dir v : to_det_dir (d_frame m) (to_geo_dir (d_frame m) v) = v.
Proof. destruct P as (N & E & _). destruct (frame_maps (d_frame m) N E) as (_ & (A & _) & _). auto. Qed.
Lemma geo_det_dir v : to_geo_dir (d_frame m) (to_det_dir (d_frame m) v) = v.
Proof. destruct P as (N & E & _). destruct (frame_maps (d_frame m) N E) as (_ & (_ & A) & _). auto. Qed.

Lemma ends_det_geo e : ends_to_det m (ends_to_geo m e) = e.
Proof.
  destruct e as [[a| |] [b| |] d]; unfold ends_to_det, ends_to_geo; cbn; rewrite ?det_geo, det_geo_dir; reflexivity.
Qed.
Lemma lies_geo e k i j : lies e k i j -> lies (ends_to_geo m e) k i j.
Proof.
  intros H. destruct H as [a x U X F L|a U F L|b U F L].
  - apply lies_between with (to_geo (d_frame m) a); cbn; auto.
    + rewrite (rot_dot _ dir_geo); auto.
    + rewrite F; reflexivity.
    + rewrite L; cbn. rewrite geo_along; reflexivity.
  - apply lies_forward with (to_geo (d_frame m) a); cbn; rewrite ?F, ?L; auto. rewrite (rot_dot _ dir_geo); auto.
  - apply lies_backward with (to_geo (d_frame m) b); cbn; rewrite ?F, ?L; auto. rewrite (rot_dot _ dir_geo); auto.
Qed.
Lemma lies_det e k i j : lies e k i j -> lies (ends_to_det m e) k i j.
Proof.
  intros H. destruct H as [a x U X F L|a U F L|b U F L].
  - apply lies_between with (to_det (d_frame m) a); cbn; auto.
    + rewrite (rot_dot _ dir_det); auto.
    + rewrite F; reflexivity.
    + rewrite L; cbn. rewrite det_along; reflexivity.
  - apply lies_forward with (to_det (d_frame m) a); cbn; rewrite ?F, ?L; auto. rewrite (rot_dot _ dir_det); auto.
  - apply lies_backward with (to_det (d_frame m) b); cbn; rewrite ?F, ?L; auto. rewrite (rot_dot _ dir_det); auto.
Qed.
Lemma place_det e : same_place m e (ends_to_det m e).
Proof.
  destruct e as [[a| |] [b| |] d]; unfold same_place; cbn; repeat split; intros;
    try discriminate; try (match goal with H : At _ = At _ |- _ => injection H as <- end); rewrite ?geo_det, ?geo_det_dir; reflexivity.
Qed.
Lemma flip_det e : ends_to_det m (flip_ends e) = flip_ends (ends_to_det m e).
Proof. unfold flip_ends, ends_to_det; cbn. f_equal. apply (rot_scale _ dir_det). Qed.
Lemma flip_geo e : ends_to_geo m (flip_ends e) = flip_ends (ends_to_geo m e).
Proof. unfold flip_ends, ends_to_geo; cbn. f_equal. apply (rot_scale _ dir_geo). Qed.

Lemma geo_normalized d : d <> mkv 0 0 0 -> to_geo_dir (d_frame m) (vnormalized d) = vnormalized (to_geo_dir (d_frame m) d).
Proof.
  intros N. assert (N' : to_geo_dir (d_frame m) d <> mkv 0 0 0).
  { intros E. apply N. rewrite <- (det_geo_dir d), E. 
    replace (mkv 0 0 0) with (vscale 0 (mkv 0 0 0)) by (unfold vscale; cbn; f_equal; ring).
    rewrite (rot_scale _ dir_det). unfold vscale. cbn. f_equal; ring. }
  destruct (normalized_unit d N) as [_ ->]. destruct (normalized_unit _ N') as [_ ->].
  rewrite (rot_scale _ dir_geo), (rotation_length _ d dir_geo). reflexivity.
Qed.

(** ** The invariant *)
Definition lined (l : line) (e : ends) : Prop := forall a, end_of e a -> same_line l a (dir e).

Definition fresh (l : line) : Prop := exists a d, l = d_cast m (At a) d.

Definition sound (p : path Q) : Prop :=
  model p = Some m /\
  ((set_geo p = false /\ set_det p = false /\ set_cached p = false) \/
   (set_geo p = true /\ lies (geo p) (len p) (first_inf p) (last_inf p) /\
    (set_det p = true -> det p = ends_to_det m (geo p)) /\
    (set_cached p = true -> fresh (cached p) /\ lined (cached p) (geo p)))).

Lemma sound_new : sound (new_with m).
Proof. split; [reflexivity|left; repeat split]. Qed.

Lemma update_set p : sound p -> set_geo p = true ->
  update p = mkpath (Some m) (geo p) (len p) true (first_inf p) (last_inf p) (ends_to_det m (geo p)) true (cached p) (set_cached p).
Proof.
  intros [M [(G & _)|(G & L & D & C)]] G'; [congruence|]. unfold update. rewrite M, G. cbn.
  destruct (set_det p) eqn:E; cbn; auto. rewrite <- (D eq_refl). destruct p; cbn in *. subst; auto.
Qed.
Lemma update_unset p : sound p -> set_geo p = false -> update p = p.
Proof.
  intros [M [(G & D & C)|(G & _)]] G'; [|congruence]. unfold update. rewrite M, G, D. cbn. destruct p; auto.
Qed.
Lemma update_sound p : sound p -> sound (update p).
Proof.
  intros S. destruct (set_geo p) eqn:G.
  - rewrite update_set; auto. destruct S as [M [(G' & _)|(G' & L & D & C)]]; [congruence|].
    split; cbn; auto.
  - rewrite update_unset; auto.
Qed.

Lemma ensure_sound p q : sound p -> ensure_points p = Ok q ->
  set_geo p = true /\ sound q /\ set_geo q = true /\ geo q = geo p /\ len q = len p /\ first_inf q = first_inf p /\ last_inf q = last_inf p /\
  cached q = cached p /\ set_cached q = set_cached p /\ model q = Some m.
Proof.
  intros S H. unfold ensure_points in H. destruct (set_geo p) eqn:G.
  - assert (S' := update_sound p S). rewrite update_set in *; auto. cbn in H. injection H as <-. cbn. repeat (split; auto).
  - rewrite update_unset, G in H; auto. discriminate.
Qed.

Lemma made e k i j c b : lies e k i j -> (b = true -> fresh c /\ lined c e) ->
  sound (mkpath (Some m) e k true i j (ends_to_det m e) true c b).
Proof. intros L C. split; [reflexivity|right]. cbn. auto. Qed.

Lemma made' e k i j d c b : lies e k i j -> (b = true -> fresh c /\ lined c e) ->
  sound (mkpath (Some m) e k true i j d false c b).
Proof. intros L C. split; [reflexivity|right]. cbn. split; auto. split; auto. split; [discriminate|auto]. Qed.

Lemma made_det e k i j c b : lies e k i j -> (b = true -> fresh c /\ lined c (ends_to_geo m e)) ->
  sound (mkpath (Some m) (ends_to_geo m e) k true i j e true c b).
Proof.
  intros L C. split; [reflexivity|right]. cbn. split; auto. split; [apply lies_geo; auto|]. split; auto.
  intros _. rewrite ends_det_geo. reflexivity.
Qed.

Lemma points_lie u v : u <> v -> lies (mkends (At u) (At v) (vnormalized (vsub v u))) (Num (vmag (vsub v u))) false false.
Proof.
  intros N. apply sub_nonzero in N. apply lies_between with u; cbn; auto.
  - apply normalized_unit; auto.
  - apply vmag_nonneg.
  - unfold along_by. rewrite normalized_back by auto. f_equal. vring.
Qed.

Lemma set_points_sound a b p p' : sound p -> (forall u v, a = At u -> b = At v -> u <> v) -> set_points a b p = Ok p' -> sound p'.
Proof.
  intros [M _] F H. unfold set_points in H. destruct a as [u| |], b as [v| |]; try discriminate. injection H as <-. rewrite M.
  apply made; [|discriminate]. apply points_lie. auto.
Qed.
Lemma set_points_det_sound a b p p' : sound p -> (forall u v, a = At u -> b = At v -> u <> v) -> set_points_det a b p = Ok p' -> sound p'.
Proof.
  intros [M _] F H. unfold set_points_det in H. destruct a as [u| |], b as [v| |]; try discriminate. injection H as <-. rewrite M.
  apply made_det; [|discriminate]. apply points_lie. auto.
Qed.

Lemma reusable_nearly l a d : reusable l a d = true -> nearly l a d.
Proof. unfold reusable, nearly. intros H. destruct (Rlt_dec _ _); [|discriminate]. destruct (Rlt_dec _ _); [|discriminate]. auto. Qed.

Lemma ray_lies u d k : d <> mkv 0 0 0 -> ray_length k ->
  lies (mkends (At u) (move (At u) (vnormalized d) k) (vnormalized d)) k false (is_infinite (move (At u) (vnormalized d) k)).
Proof.
  intros N K. destruct (normalized_unit d N) as [U _]. destruct K as [->|(x & -> & X)].
  - cbn. rewrite (unit_mag _ U). destruct (Req_EM_T 1 0); [lra|]. cbn. apply lies_forward with u; auto.
  - cbn. apply lies_between with u; auto.
Qed.

Lemma ray_lined l u d k : same_line l u (vnormalized d) -> lined l (mkends (At u) (move (At u) (vnormalized d) k) (vnormalized d)).
Proof.
  intros H a [E|E]; cbn in *.
  - injection E as <-. auto.
  - destruct k as [x| |]; try discriminate; [|destruct (Req_EM_T _ _); discriminate]. injection E as <-. apply same_line_along. auto.
Qed.

Lemma set_ray_sound a d k p p' : sound p -> fair m (SetRay a d k) p -> set_ray a d k p = Ok p' -> sound p'.
Proof.
  intros [M C] (N & K & F) H. unfold set_ray in H. destruct a as [u| |]; try discriminate. injection H as <-. rewrite M.
  apply made; [apply ray_lies; auto|]. intros R. apply andb_prop in R. destruct R as [R1 R2].
  destruct C as [(_ & _ & E)|(_ & _ & _ & E)]; [congruence|]. destruct (E R1) as [E1 E2].
  split; auto. apply ray_lined. apply F; auto. apply reusable_nearly; auto.
Qed.

Lemma set_ray_det_sound a d k p p' : sound p -> fair m (SetRayDet a d k) p -> set_ray_det a d k p = Ok p' -> sound p'.
Proof.
  intros [M C] (N & K & F) H. unfold set_ray_det in H. destruct a as [u| |]; try discriminate. injection H as <-. rewrite M.
  apply made_det; [apply ray_lies; auto|]. intros R. apply andb_prop in R. destruct R as [R1 R2].
  destruct C as [(_ & _ & E)|(_ & _ & _ & E)]; [congruence|]. destruct (E R1) as [E1 E2].
  split; auto. specialize (F u eq_refl R1 (reusable_nearly _ _ _ R2)). rewrite <- geo_normalized in F by auto.
  intros a [A|A]; cbn in *.
  - injection A as <-. auto.
  - destruct k as [x| |]; cbn in A; try discriminate; [|destruct (Req_EM_T _ _); discriminate]. injection A as <-.
    change (vadd u (vscale x (vnormalized d))) with (along_by u (vnormalized d) x). rewrite geo_along. apply same_line_along. auto.
Qed.

Lemma lies_ends e k i j : lies e k i j -> exists a, end_of e a.
Proof. intros []; [exists a; left|exists a; left|exists b; right]; auto. Qed.

(** All ends are on the line when one is. *)
Lemma lined_one e k i j l a : lies e k i j -> end_of e a -> same_line l a (dir e) -> lined l e.
Proof.
  intros L E H b B. destruct L as [c x U X F L|c U F L|c U F L]; unfold end_of in *; rewrite F, L in *.
  - destruct E as [E|E], B as [B|B]; injection E as <-; injection B as <-; auto.
    + apply same_line_along; auto.
    + replace c with (along_by (along_by c (dir e) x) (dir e) (- x)) by (rewrite along_along, Rplus_opp_r, along_0; auto).
      apply same_line_along; auto.
  - destruct E as [E|E], B as [B|B]; try discriminate. injection E as <-; injection B as <-; auto.
  - destruct E as [E|E], B as [B|B]; try discriminate. injection E as <-; injection B as <-; auto.
Qed.

Lemma cross_sound p p' : sound p -> (exists a, first (get_geo_ends p) = At a) -> compute_crossings p = Ok p' -> sound p' /\ set_geo p' = true.
Proof.
  intros S K H. unfold compute_crossings in H. assert (M := proj1 S). rewrite M in H. cbn in H.
  destruct (ensure_points p) as [q| |] eqn:E; try discriminate. cbn in H. injection H as <-.
  destruct (ensure_sound p q S E) as (G0 & S' & G & EG & EL & E1 & E2 & E3 & E4 & M').
  destruct S' as [_ [(G' & _)|(_ & L & D & C)]]; [congruence|].
  unfold set_crossings. rewrite M', G. split; [|auto]. split; [auto|]. right. cbn. split; auto. split; auto. split; auto.
  intros _. destruct K as [a A]. unfold get_geo_ends in A. rewrite update_set in A by auto. cbn in A.
  rewrite EG, A. split; [exists a, (dir (geo p)); auto|].
  rewrite <- EG. apply lined_one with (len q) (first_inf q) (last_inf q) a; auto.
  - left. rewrite EG. auto.
  - destruct P as (_ & _ & R). destruct (R a (dir (geo q))) as [R1 R2]. split; [auto|]. exists 0. rewrite R1, along_0. auto.
Qed.

Lemma ensure_crossings_sound p q : sound p -> castable p -> ensure_crossings p = Ok q -> sound q.
Proof.
  intros S K H. unfold ensure_crossings in H. destruct (set_cached p) eqn:E.
  - injection H as <-. auto.
  - eapply cross_sound; eauto.
Qed.

Lemma prepare_sound p q : sound p -> castable p -> prepare p = Ok q ->
  sound q /\ set_geo q = true /\ model q = Some m /\ set_cached q = true /\ fresh (cached q) /\ lined (cached q) (geo q) /\
  lies (geo q) (len q) (first_inf q) (last_inf q) /\ get_geo_ends p = geo q /\ get_distance p = len q /\ first_inf p = first_inf q /\ last_inf p = last_inf q.
Proof.
  intros S K H. unfold prepare in H. destruct (ensure_crossings p) as [r| |] eqn:E; try discriminate. cbn in H.
  pose proof (ensure_crossings_sound p r S K E) as S1. destruct (ensure_sound r q S1 H) as (G0 & S2 & G & EG & EL & E1 & E2 & E3 & E4 & M).
  assert (X : get_geo_ends p = geo r /\ len p = len r /\ first_inf p = first_inf r /\ last_inf p = last_inf r /\ set_cached r = true).
  { unfold ensure_crossings in E. destruct (set_cached p) eqn:SC.
    - injection E as <-. unfold get_geo_ends. rewrite update_set by auto. cbn. auto.
    - unfold compute_crossings in E. rewrite (proj1 S) in E. destruct (ensure_points p) as [z| |] eqn:E'; try discriminate.
      cbn in E. injection E as <-. cbn. destruct (ensure_sound p z S E') as (GZ & S' & G' & EG' & EL' & E1' & E2' & E3' & E4' & M').
      unfold get_geo_ends. rewrite update_set by auto. cbn. auto. }
  destruct X as (X1 & X2 & X3 & X4 & X5). destruct S2 as [M' [(G' & _)|(_ & L & D & C)]]; [congruence|].
  assert (SC : set_cached q = true) by congruence. destruct (C SC) as [C1 C2].
  split; [split; auto; right; auto|]. unfold get_distance. split; [exact G|]. split; [exact M'|]. split; [exact SC|].
  split; [exact C1|]. split; [exact C2|]. split; [exact L|]. split; [congruence|]. split; [congruence|]. split; congruence.
Qed.

Lemma extend_end_sound k p p' : sound p -> finite k -> extend_end k p = Ok p' -> sound p'.
Proof.
  intros S [y ->] H. unfold extend_end in H. destruct (ensure_points p) as [q| |] eqn:E; try discriminate. cbn [bind] in H.
  destruct (ensure_sound p q S E) as (G0 & S' & G & _ & _ & _ & _ & _ & _ & M).
  destruct S' as [_ [(G' & _)|(_ & L & D & C)]]; [congruence|].
  destruct (last_inf q) eqn:LI in H; [discriminate|]. rewrite M, G in H.
  inversion L as [a x U X F La K I J|a U F La K I J|b U F La K I J]; [| |]; rewrite <- K, F, La in H; cbn [nadd nltb move] in H.
  - destruct (Rlt_dec (x + y) 0); injection H as <-; rewrite <- I; apply made'.
    + apply lies_between with a; cbn; auto; try lra. rewrite along_0. auto.
    + intros Hc. destruct (C Hc) as [C1 C2]. split; auto. intros b [B|B]; cbn in B; injection B as <-; cbn; apply C2; left; auto.
    + apply lies_between with a; cbn; auto; try lra. f_equal. apply along_along.
    + intros Hc. destruct (C Hc) as [C1 C2]. split; auto. intros b [B|B]; cbn in B; injection B as <-; cbn.
      * apply C2; left; auto.
      * apply same_line_along. apply C2. right. auto.
  - congruence.
  - injection H as <-; rewrite <- I; apply made'.
    + apply lies_backward with (along_by b (dir (geo q)) y); cbn; auto.
    + intros Hc. destruct (C Hc) as [C1 C2]. split; auto. intros c [B|B]; cbn in B; [discriminate|]. injection B as <-; cbn.
      apply same_line_along. apply C2. right; auto.
Qed.

Lemma extend_start_sound k p p' : sound p -> finite k -> extend_start k p = Ok p' -> sound p'.
Proof.
  intros S [y ->] H. unfold extend_start in H. destruct (ensure_points p) as [q| |] eqn:E; try discriminate. cbn [bind] in H.
  destruct (ensure_sound p q S E) as (G0 & S' & G & _ & _ & _ & _ & _ & _ & M).
  destruct S' as [_ [(G' & _)|(_ & L & D & C)]]; [congruence|].
  destruct (first_inf q) eqn:LI in H; [discriminate|]. rewrite M, G in H.
  inversion L as [a x U X F La K I J|a U F La K I J|b U F La K I J]; [| |]; rewrite <- K, F, La in H; cbn [nadd nltb move nneg] in H.
  - destruct (Rlt_dec (x + y) 0); injection H as <-; rewrite <- J; apply made'.
    + apply lies_between with (along_by a (dir (geo q)) x); cbn; auto; try lra. rewrite along_0. auto.
    + intros Hc. destruct (C Hc) as [C1 C2]. split; auto. intros b [B|B]; cbn in B; injection B as <-; cbn; apply C2; right; auto.
    + apply lies_between with (along_by a (dir (geo q)) (- y)); cbn; auto; try lra. f_equal. rewrite along_along. f_equal. lra.
    + intros Hc. destruct (C Hc) as [C1 C2]. split; auto. intros b [B|B]; cbn in B; injection B as <-; cbn.
      * apply same_line_along. apply C2. left. auto.
      * apply C2; right; auto.
  - injection H as <-; rewrite <- J; apply made'.
    + apply lies_forward with (along_by a (dir (geo q)) (- y)); cbn; auto.
    + intros Hc. destruct (C Hc) as [C1 C2]. split; auto. intros c [B|B]; cbn in B; [|discriminate]. injection B as <-; cbn.
      apply same_line_along. apply C2. left; auto.
  - congruence.
Qed.

Lemma finite_neg k : finite k -> finite (nneg k).
Proof. intros [x ->]. exists (- x). reflexivity. Qed.

Lemma flip_sound p : sound p -> sound (flip p).
Proof.
  intros [M [(G & D & C)|(G & L & D & C)]]; (split; [exact M|]); [left; auto|right]. cbn. split; auto. split; [|split].
  - inversion L as [a x U X F La K I J|a U F La K I J|b U F La K I J].
    + apply lies_between with (along_by a (dir (geo p)) x); cbn; rewrite ?scale_m1, ?F, ?La; auto using unit_neg.
      rewrite along_neg, along_along. f_equal. rewrite Rplus_opp_r, along_0. auto.
    + apply lies_backward with a; cbn; rewrite ?scale_m1; auto using unit_neg.
    + apply lies_forward with b; cbn; rewrite ?scale_m1; auto using unit_neg.
  - intros HD. rewrite (D HD), flip_det. reflexivity.
  - intros HC. destruct (C HC) as [C1 C2]. split; auto. intros a A. cbn. rewrite scale_m1. apply same_line_neg. apply C2.
    destruct A as [A|A]; cbn in A; [right|left]; auto.
Qed.

(** ** Clipping *)
Lemma hit_on_line l h u d Pt : same_line l Pt d -> hit_position l h = At u -> exists t, u = along_by (l_position l) d t.
Proof.
  intros [E _] H. unfold hit_position, move in H. destruct (from_ext (dist h)) as [x| |]; [|destruct (Req_EM_T _ _); discriminate|discriminate].
  injection H as <-. destruct E as [->| ->]; [exists x; auto|exists (- x)]. apply along_neg.
Qed.

Lemma normalized_scale k d : vdot d d = 1 -> vnormalized (vscale k d) = if Rlt_dec 0 k then d else if Rlt_dec k 0 then vneg d else mkv 0 0 0.
Proof.
  intros U. unfold vnormalized. rewrite vmag_scale, unit_mag, Rmult_1_r by auto.
  destruct d as [a b c]. unfold vdiv, vscale, vneg; cbn.
  destruct (Rlt_dec 0 k); [|destruct (Rlt_dec k 0)].
  - rewrite Rabs_pos_eq by lra. destruct (Req_EM_T k 0); [lra|]. f_equal; field; auto.
  - rewrite Rabs_left by lra. destruct (Req_EM_T (- k) 0); [lra|]. f_equal; field; lra.
  - assert (k = 0) by lra. subst. rewrite Rabs_R0. destruct (Req_EM_T 0 0); [|congruence]. f_equal; ring.
Qed.

Lemma dot_zero_r d : vdot d (mkv 0 0 0) = 0. Proof. vring. Qed.
Lemma dot_neg_r d : vdot d (vneg d) = - vdot d d. Proof. vring. Qed.

(** The bounds in the order of the path, [s0 <= s1] being their places along it. *)
Lemma bounds_order P0 d t0 t1 : vdot d d = 1 ->
  let dot := vdot d (vnormalized (vsub (along_by P0 d t1) (along_by P0 d t0))) in
  Rabs (1 - Rabs dot) < 1 / 10 ^ 6 ->
  (if Rlt_dec dot 0 then (At (along_by P0 d t1), At (along_by P0 d t0)) else (At (along_by P0 d t0), At (along_by P0 d t1))) =
  (At (along_by P0 d (Rmin t0 t1)), At (along_by P0 d (Rmax t0 t1))).
Proof.
  intros U. rewrite along_sub, normalized_scale by auto. cbv zeta.
  destruct (Rlt_dec 0 (t1 - t0)); [|destruct (Rlt_dec (t1 - t0) 0)].
  - rewrite U. intros _. destruct (Rlt_dec 1 0); [lra|]. rewrite Rmin_left, Rmax_right by lra. auto.
  - rewrite dot_neg_r, U. intros _. destruct (Rlt_dec (- (1)) 0); [|lra]. rewrite Rmin_right, Rmax_left by lra. auto.
  - rewrite dot_zero_r, Rabs_R0, Rminus_0_r, Rabs_R1. lra.
Qed.

Lemma ahead_along P0 d s t : vdot d d = 1 -> ahead (At (along_by P0 d s)) (At (along_by P0 d t)) d = Some (s - t).
Proof. intros U. cbn. rewrite along_dot; auto. Qed.

Lemma span_along P0 d s t : vdot d d = 1 -> s <= t -> span (At (along_by P0 d s)) (At (along_by P0 d t)) = Num (t - s).
Proof. intros U H. cbn. rewrite along_sub, vmag_scale, unit_mag, Rabs_pos_eq by (auto; lra). f_equal. ring. Qed.

Lemma lined_on P0 d s t k i j l : same_line l P0 d -> lies (mkends (At (along_by P0 d s)) (At (along_by P0 d t)) d) k i j ->
  lined l (mkends (At (along_by P0 d s)) (At (along_by P0 d t)) d).
Proof. intros H _ a [A|A]; cbn in *; injection A as <-; apply same_line_along; auto. Qed.

Lemma lies_on P0 d s t : vdot d d = 1 -> s <= t -> lies (mkends (At (along_by P0 d s)) (At (along_by P0 d t)) d) (Num (t - s)) false false.
Proof.
  intros U H. apply lies_between with (along_by P0 d s); cbn; auto; [lra|]. f_equal. rewrite along_along. f_equal. ring.
Qed.

Lemma clip_sound p p' : sound p -> fair m Clip p -> clip p = Ok p' -> sound p'.
Proof.
  intros S [K O] H. unfold clip in H. fold (prepare p) in H. destruct (prepare p) as [q| |] eqn:E; try discriminate. cbn [bind] in H.
  destruct (prepare_sound p q S K E) as (S' & G & M & SC & FR & LN & L & _).
  specialize (O q). destruct (outer_bounds int_min (l_hits (cached q))) as [|h0 [|h1 [|]]] eqn:B; try discriminate; [injection H as <-; auto|].
  destruct (hit_position (cached q) h0) as [u0| |] eqn:H0; try discriminate.
  destruct (hit_position (cached q) h1) as [u1| |] eqn:H1; try discriminate.
  destruct (O h0 h1 u0 u1 E eq_refl H0 H1) as (s & Hs & W). clear O. unfold get_geo_ends in W. rewrite update_set in W by auto. cbn in W.
  destruct (Rlt_dec _ _) as [T|]; [|discriminate].
  destruct (lies_ends _ _ _ _ L) as [e0 E0]. pose proof (LN e0 E0) as SL.
  assert (U : vdot (dir (geo q)) (dir (geo q)) = 1) by (inversion L; auto).
  destruct (hit_on_line _ _ _ _ _ SL H0) as [t0 ->]. destruct (hit_on_line _ _ _ _ _ SL H1) as [t1 ->].
  set (d := dir (geo q)) in *. set (P0 := l_position (cached q)) in *.
  rewrite (bounds_order P0 d t0 t1 U T) in H.
  assert (SP : same_line (cached q) P0 d) by (split; [apply SL|exists 0; rewrite along_0; auto]).
  assert (MEM : forall a, end_of (geo q) a -> exists x, a = along_by P0 d x).
  { intros a A. apply same_line_param. apply LN; auto. }
  destruct W as (tw & W1 & W2). rewrite along_sub in W1, W2.
  replace (along_by (along_by P0 d t0) (vscale (t1 - t0) d) s) with (along_by P0 d (t0 + s * (t1 - t0))) in W1, W2 by vring.
  set (w := t0 + s * (t1 - t0)) in *.
  assert (Hw : Rmin t0 t1 <= w <= Rmax t0 t1).
  { unfold w, Rmin, Rmax. destruct (Rle_dec t0 t1); split; nra. }
  assert (F1 : forall x, first (geo q) = At (along_by P0 d x) -> x <= w).
  { intros x X. destruct (W1 _ X) as [W3 W4]. rewrite along_along in W3. apply along_inj in W3; auto. lra. }
  assert (F2 : forall x, last (geo q) = At (along_by P0 d x) -> w <= x).
  { intros x X. destruct (W2 _ X) as (y & W3 & W4). rewrite along_along in W3. apply along_inj in W3; auto. lra. }
  clear W1 W2 T B H0 H1. clearbody w. set (lo := Rmin t0 t1) in *. set (hi := Rmax t0 t1) in *. clearbody lo hi. rewrite M, G, SC in H.
  assert (FIN : forall s t k, lo <= t -> s <= t -> k = t - s ->
     sound (mkpath (Some m) (mkends (At (along_by P0 d s)) (At (along_by P0 d t)) d) (Num k) true false false (det q) false (cached q) true)).
  { intros s0 t2 k _ Hst ->. apply made'; [apply lies_on; auto|]. intros _. split; auto. eapply lined_on; eauto. apply lies_on; eauto. }
  inversion L as [a x U' X F La KK I J|a U' F La KK I J|b U' F La KK I J].
  - destruct (MEM a) as [al ->]; [left; auto|]. fold d in La. rewrite along_along in La.
    specialize (F1 _ F). specialize (F2 _ La). rewrite F, La, <- KK, <- I, <- J, !ahead_along in H by auto. cbn [orb] in H.
    destruct (Rlt_dec 0 (lo - al)), (Rlt_dec (hi - (al + x)) 0); cbn [orb is_infinite] in H.
    + rewrite span_along in H by (auto; lra). injection H as <-. apply FIN; lra.
    + rewrite span_along in H by (auto; lra). injection H as <-. apply FIN; lra.
    + rewrite span_along in H by (auto; lra). injection H as <-. apply FIN; lra.
    + injection H as <-. apply FIN; lra.
  - destruct (MEM a) as [al ->]; [left; auto|].
    specialize (F1 _ F). rewrite F, La, <- KK, <- I, <- J, !ahead_along in H by auto. cbn [orb] in H.
    destruct (Rlt_dec 0 (lo - al)); cbn [orb is_infinite] in H.
    + rewrite span_along in H by (auto; lra). injection H as <-. apply FIN; lra.
    + rewrite span_along in H by (auto; lra). injection H as <-. apply FIN; lra.
  - destruct (MEM b) as [be ->]; [right; auto|].
    specialize (F2 _ La). rewrite F, La, <- KK, <- I, <- J, !ahead_along in H by auto. cbn [orb] in H.
    destruct (Rlt_dec (hi - be) 0); cbn [orb is_infinite] in H.
    + rewrite span_along in H by (auto; lra). injection H as <-. apply FIN; lra.
    + rewrite span_along in H by (auto; lra). injection H as <-. apply FIN; lra.
Qed.
End Proper.
