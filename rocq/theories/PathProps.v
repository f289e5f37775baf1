(** Properties of paths: C36 and C37. *)
From Coq Require Import Reals Lra List Bool ZArith.
From Verif Require Import TraversalModel VectorModel QuatModel QuatSpec QuatProofs QuatPlace DepthModel DepthSpec DepthProps
  PathModel PathSpec PathProofs PathMain.
Import ListNotations.
Open Scope R_scope.

(** ** C36: points, direction and distance *)
Theorem C36_consistent : forall Q (m : detector Q) p, proper m -> history m p -> set_geo p = true ->
  lies (get_geo_ends p) (get_distance p) (first_inf p) (last_inf p) /\
  lies (get_ends p) (get_distance p) (first_inf p) (last_inf p) /\
  same_place m (get_geo_ends p) (get_ends p).
Proof. intros Q m p P H G. apply sound_consistent; auto. apply history_sound; auto. Qed.
Print Assumptions C36_consistent.

(** For finite end points, in either frame. *)
Theorem C36_distance : forall Q (m : detector Q) p e a b, proper m -> history m p -> set_geo p = true ->
  e = get_geo_ends p \/ e = get_ends p -> first e = At a -> last e = At b ->
  get_distance p = Num (vmag (vsub b a)) /\ b = vadd a (vscale (vmag (vsub b a)) (dir e)) /\ vmag (dir e) = 1.
Proof.
  intros Q m p e a b P H G He Fa Lb. destruct (C36_consistent Q m p P H G) as (L1 & L2 & _).
  assert (L : lies e (get_distance p) (first_inf p) (last_inf p)) by (destruct He; subst; auto). clear L1 L2.
  inversion L as [a0 x U X F La K I J|a0 U F La K I J|b0 U F La K I J]; try congruence.
  rewrite Fa in F. injection F as <-. rewrite Lb in La. injection La as ->.
  assert (E : vmag (vsub (along_by a (dir e) x) a) = x).
  { replace (vsub (along_by a (dir e) x) a) with (vscale x (dir e)) by vring. rewrite vmag_scale, unit_mag, Rabs_pos_eq by auto. ring. }
  rewrite E. split; auto. split; auto. apply unit_mag; auto.
Qed.
Print Assumptions C36_distance.

(** Crossings that are kept are those of a ray on the line of the path. *)
Theorem C36_crossings : forall Q (m : detector Q) p, proper m -> history m p -> set_cached p = true ->
  (exists a d, cached p = d_cast m (At a) d) /\
  forall a, end_of (get_geo_ends p) a -> same_line (cached p) a (dir (get_geo_ends p)).
Proof. intros Q m p P H C. apply sound_cached; auto. apply history_sound; auto. Qed.
Print Assumptions C36_crossings.

(** Depths do not depend on the ray used to find the crossings. *)
Definition steady {Q} (m : detector Q) : Prop :=
  forall q a d a' d' u v, vdot d d = 1 -> vdot d' d' = 1 ->
    (forall w, w = u \/ w = v -> (exists t, w = along_by a d t) /\ (exists t, w = along_by a' d' t)) ->
    d_depth m q (d_cast m (At a) d) (At u) (At v) = d_depth m q (d_cast m (At a') d') (At u) (At v).

(** The depth within the path is that of the current end points, with the crossings of the
    current ray, whatever was done before. *)
Theorem C36_depth : forall Q (m : detector Q) p p' q X, proper m -> steady m -> history m p -> castable p ->
  depth_in_bounds q p = Ok (p', X) ->
  exists a b, first (get_geo_ends p) = At a /\ last (get_geo_ends p) = At b /\
    X = d_depth m q (d_cast m (At a) (dir (get_geo_ends p))) (At a) (At b).
Proof.
  intros Q m p p' q X P T H K D. apply (history_sound m P) in H.
  destruct (depth_sound m P q p (p', X) H K D) as (S' & PR & G & FI & LI & E). cbn [fst snd] in *.
  destruct (prepare_sound m P p p' H K PR) as (_ & _ & M & SC & (a0 & d0 & FR) & LN & L & EG & _).
  rewrite EG. rewrite FI, LI in L. inversion L as [a x U Hx F La Kx I J| |].
  exists a, (along_by a (dir (geo p')) x). split; auto. split; auto. rewrite E, F, La, FR.
  destruct P as (_ & _ & R). destruct (R a0 d0) as [R1 R2]. rewrite FR in LN.
  assert (A : same_line (d_cast m (At a0) d0) a (dir (geo p'))) by (apply LN; left; auto).
  assert (B : same_line (d_cast m (At a0) d0) (along_by a (dir (geo p')) x) (dir (geo p'))) by (apply LN; right; auto).
  unfold same_line in A, B. rewrite R1, R2 in A, B. apply T; auto.
  - destruct A as [[-> | ->] _]; auto using unit_neg.
  - intros w [-> | ->]; (split; [tauto|]); [exists 0; rewrite along_0|exists x]; auto.
Qed.
Print Assumptions C36_depth.

(** Column depths of [DetectorModel] are like that (compare [C28_any_line]). *)
Definition column_detector (f : frame Datatypes.unit) (cast : pt -> vec -> line) (media : Z -> medium) reach : detector Datatypes.unit :=
  mkdetector f cast
    (fun _ l p0 p1 => match p0, p1 with
                      | At u, At v => match column_depth media l u v with Ok (Some x) => Num x | _ => NaN end
                      | _, _ => NaN
                      end) reach.

Theorem C36_column : forall f cast media reach dens g,
  (forall a d, vdot d d = 1 -> l_position (cast (At a) d) = a /\ l_direction (cast (At a) d) = d /\
     (forall h, lawful d (dens h) (media h)) /\
     exists ss, sees (cast (At a) d) ss MInf PInf /\ describes (cast (At a) d) ss dens g) ->
  steady (column_detector f cast media reach).
Proof.
  intros f cast media reach dens g H q a d a' d' u v U U' W. cbn.
  destruct (H a d U) as (E1 & E2 & HL & ss & S1 & D1). destruct (H a' d' U') as (E1' & E2' & HL' & ss' & S1' & D1').
  assert (O : forall w, w = u \/ w = v -> on (cast (At a) d) MInf PInf w /\ on (cast (At a') d') MInf PInf w).
  { intros w Hw. destruct (W w Hw) as [[t T] [t' T']]. unfold on. rewrite E1, E2, E1', E2'.
    split; [exists t|exists t']; (split; [auto|]); split; reflexivity. }
  rewrite (C28_any_line media dens g (cast (At a) d) ss MInf PInf (cast (At a') d') ss' MInf PInf u v); auto; try (apply O; auto).
  - rewrite E2. auto.
  - rewrite E2'. auto.
Qed.
Print Assumptions C36_column.

(** ** A detector between two planes *)
Definition home : frame Datatypes.unit := mkframe tt (mkv 0 0 0) qone.
Definition place_of (p : pt) : vec := match p with At v => v | _ => mkv 0 0 0 end.
Definition slab (lo hi : R) (reach : num) : detector Datatypes.unit :=
  mkdetector home
    (fun p d => mkline (place_of p) d
       (if Req_EM_T (vx d) 0 then [] else
        [mkix (Fin ((lo - vx (place_of p)) / vx d)) 1%Z true; mkix (Fin ((hi - vx (place_of p)) / vx d)) 1%Z false]))
    (fun _ _ _ _ => Num 0)
    (fun _ _ _ _ _ => reach).

Lemma qone_unit : unit qone.
Proof. unfold unit, qnorm2; cbn. ring. Qed.
Lemma slab_proper lo hi r : proper (slab lo hi r).
Proof.
  split; [apply unit_nonzero, qone_unit|split; [left; apply qone_unit|]]. intros a d. split; reflexivity.
Qed.

Definition ex : vec := mkv 1 0 0.
Lemma ex_unit : vdot ex ex = 1. Proof. unfold vdot; cbn; ring. Qed.
Lemma ex_normal k : 0 < k -> vnormalized (vscale k ex) = ex.
Proof. intros H. rewrite normalized_scale by apply ex_unit. destruct (Rlt_dec 0 k); auto. contradiction. Qed.
(** The state with the points at [x] and [y] along the first axis. *)
Definition stretch (m : detector Datatypes.unit) (x : R) (b : pt) (k : num) (inf sc sd : bool) (c : line) (d : ends) : path Datatypes.unit :=
  mkpath (Some m) (mkends (At (mkv x 0 0)) b ex) k true false inf d sd c sc.

Lemma ray_state m x k y : 0 < k ->
  apply (SetRay (At (mkv x 0 0)) (vscale k ex) (Num y)) (new_with m) =
  Ok (stretch m x (At (vadd (mkv x 0 0) (vscale y ex))) (Num y) false false true (cached (@new_path Datatypes.unit))
        (ends_to_det m (mkends (At (mkv x 0 0)) (At (vadd (mkv x 0 0) (vscale y ex))) ex))).
Proof. intros K. cbn [apply set_ray]. rewrite ex_normal by auto. reflexivity. Qed.

Lemma ray_infinite m x k : 0 < k ->
  apply (SetRay (At (mkv x 0 0)) (vscale k ex) (Inf false)) (new_with m) =
  Ok (stretch m x Far (Inf false) true false true (cached (@new_path Datatypes.unit)) (ends_to_det m (mkends (At (mkv x 0 0)) Far ex))).
Proof.
  intros K. cbn [apply set_ray]. rewrite ex_normal by auto. cbn [move]. rewrite (unit_mag ex ex_unit).
  destruct (Req_EM_T 1 0); [lra|]. reflexivity.
Qed.

Lemma scale_ex_nonzero k : 0 < k -> vscale k ex <> mkv 0 0 0.
Proof. intros K E. unfold vscale, ex in E; cbn in E. injection E as E _ _. lra. Qed.

Lemma ray_history m x k y : 0 < k -> 0 <= y ->
  history m (stretch m x (At (vadd (mkv x 0 0) (vscale y ex))) (Num y) false false true (cached (@new_path Datatypes.unit))
        (ends_to_det m (mkends (At (mkv x 0 0)) (At (vadd (mkv x 0 0) (vscale y ex))) ex))).
Proof.
  intros K Y. eapply history_step; [apply history_new| |apply ray_state; eauto]. cbn. split; [apply scale_ex_nonzero; auto|].
  split; [right; eauto|]. intros u _ C. discriminate.
Qed.
Lemma infinite_history m x k : 0 < k ->
  history m (stretch m x Far (Inf false) true false true (cached (@new_path Datatypes.unit)) (ends_to_det m (mkends (At (mkv x 0 0)) Far ex))).
Proof.
  intros K. eapply history_step; [apply history_new| |apply ray_infinite; eauto]. cbn. split; [apply scale_ex_nonzero; auto|].
  split; [left; eauto|]. intros u _ C. discriminate.
Qed.

Lemma slab_bounds lo hi r x : outer_bounds int_min (l_hits (d_cast (slab lo hi r) (At (mkv x 0 0)) ex)) =
  [mkix (Fin (lo - x)) 1%Z true; mkix (Fin (hi - x)) 1%Z false].
Proof.
  cbn [d_cast slab l_hits ex vx place_of]. destruct (Req_EM_T 1 0); [lra|]. replace ((lo - x) / 1) with (lo - x) by field. replace ((hi - x) / 1) with (hi - x) by field. reflexivity.
Qed.
Lemma slab_hit lo hi r x y b : hit_position (d_cast (slab lo hi r) (At (mkv x 0 0)) ex) (mkix (Fin (y - x)) 1%Z b) = At (along_by (mkv 0 0 0) ex y).
Proof. unfold hit_position; cbn. f_equal. unfold along_by, vadd, vscale; cbn. f_equal; ring. Qed.
Lemma on_x x : mkv x 0 0 = along_by (mkv 0 0 0) ex x.
Proof. unfold along_by, vadd, vscale; cbn. f_equal; ring. Qed.

Lemma prepared lo hi r x b k i c d : prepare (stretch (slab lo hi r) x b k i false true c d) =
  Ok (stretch (slab lo hi r) x b k i true true (d_cast (slab lo hi r) (At (mkv x 0 0)) ex) d).
Proof. reflexivity. Qed.

Lemma dot_x s t : s < t -> vdot ex (vnormalized (vsub (along_by (mkv 0 0 0) ex t) (along_by (mkv 0 0 0) ex s))) = 1.
Proof.
  intros H. rewrite along_sub, normalized_scale by apply ex_unit. destruct (Rlt_dec 0 (t - s)); [apply ex_unit|lra].
Qed.
Lemma ahead_x s t : ahead (At (along_by (mkv 0 0 0) ex s)) (At (mkv t 0 0)) ex = Some (s - t).
Proof. cbn. f_equal. unfold vdot, along_by, vsub, vadd, vscale; cbn. ring. Qed.
Lemma ok_inj {A} (a b : A) : Ok a = Ok b -> a = b.
Proof. congruence. Qed.
Lemma no_turn : Rabs (1 - Rabs 1) < 1 / 10 ^ 6.
Proof. rewrite Rabs_R1, Rminus_eq_0, Rabs_R0. lra. Qed.

(** A half-infinite ray, clipped, extended, turned around and shortened. *)
Example C36_case : let m := slab 5 6 NaN in
  proper m /\ exists p p', history m p /\ run [SetRay (At (mkv 0 0 0)) (mkv 2 0 0) (Inf false); Clip; ExtendEnd (Num 2); PathModel.Flip] (new_with m) = Ok p /\
    get_distance p = Num 3 /\ first (get_geo_ends p) = At (mkv 8 0 0) /\ last (get_geo_ends p) = At (mkv 5 0 0) /\
    history m p' /\ apply (ShrinkEnd (Num 1)) p = Ok p' /\ get_distance p' = Num 2 /\ last (get_geo_ends p') = At (mkv 6 0 0).
Proof.
  intros m. split; [apply slab_proper|].
  assert (N : mkv 2 0 0 = vscale 2 ex) by (unfold vscale; cbn; f_equal; ring).
  set (c := d_cast m (At (mkv 0 0 0)) ex).
  set (e0 := ends_to_det m (mkends (At (mkv 0 0 0)) Far ex)).
  set (p1 := stretch m 0 Far (Inf false) true false true (cached (@new_path Datatypes.unit)) e0).
  set (p2 := stretch m 5 (At (mkv 6 0 0)) (Num 1) false true false c e0).
  set (e2 := ends_to_det m (mkends (At (mkv 5 0 0)) (At (mkv 6 0 0)) ex)).
  set (p3 := stretch m 5 (At (mkv 8 0 0)) (Num 3) false true false c e2).
  assert (A1 : apply (SetRay (At (mkv 0 0 0)) (mkv 2 0 0) (Inf false)) (new_with m) = Ok p1) by (rewrite N; apply ray_infinite; lra).
  assert (H1 : history m p1) by (apply (infinite_history m 0 1); lra).
  assert (A2 : apply Clip p1 = Ok p2).
  { unfold p1, m. cbn [apply]. unfold clip. fold (prepare (stretch (slab 5 6 NaN) 0 Far (Inf false) true false true (cached (@new_path Datatypes.unit)) e0)).
    rewrite prepared. cbn [bind stretch cached]. rewrite slab_bounds, !slab_hit. cbn [geo dir].
    rewrite dot_x by lra. destruct (Rlt_dec _ _) as [|n]; [|exfalso; apply n, no_turn]. destruct (Rlt_dec 1 0); [lra|].
    cbn [stretch geo first last first_inf last_inf model set_geo len det set_cached cached dir]. rewrite ahead_x. cbn [ahead orb].
    destruct (Rlt_dec 0 (5 - 0)); [|lra]. cbn [orb]. rewrite span_along by (try apply ex_unit; lra).
    replace (6 - 5) with 1 by ring. rewrite <- (on_x 5), <- (on_x 6). reflexivity. }
  assert (F2 : fair m Clip p1).
  { split; [intros _; exists (mkv 0 0 0); reflexivity|].
    intros q h0 h1 u0 u1 Hq B P0 P1. unfold p1, m in Hq. rewrite prepared in Hq. apply ok_inj in Hq. subst q.
    unfold stretch in B, P0, P1. cbn [cached] in B, P0, P1. rewrite slab_bounds in B. injection B as <- <-. rewrite slab_hit in P0, P1. injection P0 as <-. injection P1 as <-.
    exists 0. split; [lra|]. exists 5. split.
    - intros a Ha. cbn in Ha. injection Ha as <-. cbn. split; [|lra]. rewrite along_0. unfold along_by, vadd, vscale; cbn. f_equal; ring.
    - intros b Hb. discriminate. }
  assert (H2 : history m p2) by (eapply history_step; eauto).
  assert (A3 : apply (ExtendEnd (Num 2)) p2 = Ok p3).
  { cbn [apply]. unfold extend_end, ensure_points, p2, stretch. cbn [update set_geo set_det model negb andb bind last_inf len geo nadd nltb last first dir move].
    destruct (Rlt_dec (1 + 2) 0); [lra|]. unfold p3, stretch, e2. replace (1 + 2) with 3 by ring. do 3 f_equal.
    unfold vadd, vscale, ex; cbn. f_equal. f_equal; ring. }
  assert (H3 : history m p3) by (eapply history_step; [exact H2| |exact A3]; eexists; reflexivity).
  exists (flip p3). assert (H4 : history m (flip p3)) by (eapply history_step with (o := PathModel.Flip); [exact H3|exact Logic.I|reflexivity]).
  destruct (extend_flip m (slab_proper 5 6 NaN) (Num (- (1))) p3 eq_refl) as [_ E].
  set (p4 := mkpath (Some m) (mkends (At (mkv 6 0 0)) (At (mkv 8 0 0)) ex) (Num 2) true false false (ends_to_det m (mkends (At (mkv 5 0 0)) (At (mkv 8 0 0)) ex)) false c true).
  assert (A4 : extend_start (Num (- (1))) p3 = Ok p4).
  { unfold extend_start, ensure_points, p3, stretch. cbn [update set_geo set_det model negb andb bind first_inf len geo nadd nltb last first dir move nneg].
    destruct (Rlt_dec (3 + - (1)) 0); [lra|]. unfold p4. replace (3 + - (1)) with 2 by ring. do 3 f_equal.
    unfold vadd, vscale, ex; cbn. f_equal. f_equal; ring. }
  rewrite A4 in E. exists (flip p4). split; [exact H4|]. split.
  { unfold run. cbn [fold_left bind]. rewrite A1. cbn [bind]. rewrite A2. cbn [bind]. rewrite A3. reflexivity. }
  split; [reflexivity|]. split; [reflexivity|]. split; [reflexivity|].
  split; [eapply history_step with (o := ShrinkEnd (Num 1)); [exact H4|eexists; reflexivity|exact E]|].
  split; [exact E|]. split; reflexivity.
Qed.

(** ** What is outside of the fair calls *)
(** Clipping a path that does not reach the detector turns its direction the wrong way. *)
Theorem C36_clip_refuted : exists m (p p' : path Datatypes.unit) a b x, proper m /\ history m p /\ apply Clip p = Ok p' /\
  first (get_geo_ends p') = At a /\ last (get_geo_ends p') = At b /\ get_distance p' = Num x /\
  b <> vadd a (vscale x (dir (get_geo_ends p'))).
Proof.
  set (m := slab 5 6 NaN). set (d := ends_to_det m (mkends (At (mkv 0 0 0)) (At (vadd (mkv 0 0 0) (vscale 1 ex))) ex)).
  set (p := stretch m 0 (At (vadd (mkv 0 0 0) (vscale 1 ex))) (Num 1) false false true (cached (@new_path Datatypes.unit)) d).
  set (p' := stretch m 5 (At (mkv 1 0 0)) (Num 4) false true false (d_cast m (At (mkv 0 0 0)) ex) d).
  exists m, p, p', (mkv 5 0 0), (mkv 1 0 0), 4. split; [apply slab_proper|]. split; [apply (ray_history m 0 1 1); lra|]. split.
  { unfold p, m. cbn [apply]. unfold clip. fold (prepare (stretch (slab 5 6 NaN) 0 (At (vadd (mkv 0 0 0) (vscale 1 ex))) (Num 1) false false true (cached (@new_path Datatypes.unit)) d)).
    rewrite prepared. cbn [bind stretch cached]. rewrite slab_bounds, !slab_hit. cbn [geo dir].
    rewrite dot_x by lra. destruct (Rlt_dec _ _) as [|n]; [|exfalso; apply n, no_turn]. destruct (Rlt_dec 1 0); [lra|].
    cbn [stretch geo first last first_inf last_inf model set_geo len det set_cached cached dir]. rewrite ahead_x.
    replace (vadd (mkv 0 0 0) (vscale 1 ex)) with (mkv 1 0 0) by (unfold vadd, vscale; cbn; f_equal; ring). rewrite ahead_x. cbn [orb].
    destruct (Rlt_dec 0 (5 - 0)); [|lra]. destruct (Rlt_dec (6 - 1) 0); [lra|]. cbn [orb].
    replace (span (At (along_by (mkv 0 0 0) ex 5)) (At (mkv 1 0 0))) with (Num 4); [rewrite <- (on_x 5); reflexivity|].
    cbn. f_equal. rewrite (on_x 1), along_sub, vmag_scale, unit_mag by apply ex_unit. rewrite Rabs_left by lra. ring. }
  split; [reflexivity|]. split; [reflexivity|]. split; [reflexivity|].
  cbn. unfold vadd, vscale; cbn. intros E. injection E as E. lra.
Qed.
Print Assumptions C36_clip_refuted.

(** Two equal points give no direction; extending such a path changes the distance only. *)
Theorem C36_points_refuted : exists m (p p' : path Datatypes.unit) a, proper m /\
  apply (SetPoints (At a) (At a)) (new_with m) = Ok p /\ apply (ExtendEnd (Num 5)) p = Ok p' /\
  get_distance p' = Num 5 /\ first (get_geo_ends p') = At a /\ last (get_geo_ends p') = At a.
Proof.
  set (m := slab 5 6 NaN). set (z := mkv 0 0 0).
  assert (A1 : exists d c, apply (SetPoints (At z) (At z)) (new_with m) = Ok (mkpath (Some m) (mkends (At z) (At z) z) (Num 0) true false false d true c false)).
  { eexists _, _. cbn [apply set_points]. replace (vsub z z) with z by (unfold vsub, z; cbn; f_equal; ring).
    replace (vmag z) with 0 by (symmetry; unfold vmag, z; cbn; rewrite Rmult_0_l, !Rplus_0_l; apply sqrt_0).
    replace (vnormalized z) with z; [reflexivity|]. unfold vnormalized. destruct (Req_EM_T _ _) as [|n]; auto. exfalso; apply n.
    unfold vmag, z; cbn. rewrite Rmult_0_l, !Rplus_0_l. apply sqrt_0. }
  destruct A1 as (d & c & A1).
  assert (A2 : exists d', apply (ExtendEnd (Num 5)) (mkpath (Some m) (mkends (At z) (At z) z) (Num 0) true false false d true c false) =
     Ok (mkpath (Some m) (mkends (At z) (At z) z) (Num 5) true false false d' false c false)).
  { eexists. cbn [apply]. unfold extend_end, ensure_points. cbn [update set_geo set_det model negb andb bind last_inf len geo nadd nltb last first dir move].
    destruct (Rlt_dec (0 + 5) 0); [lra|]. replace (0 + 5) with 5 by ring.
    replace (vadd z (vscale 5 z)) with z; [reflexivity|]. unfold z, vadd, vscale; cbn; f_equal; ring. }
  destruct A2 as (d' & A2). eexists m, _, _, z. split; [apply slab_proper|]. split; [exact A1|]. split; [exact A2|]. repeat split.
Qed.
Print Assumptions C36_points_refuted.

(** A ray of negative length is taken as it is. *)
Theorem C36_negative_refuted : exists m (p : path Datatypes.unit) a d, proper m /\ d <> mkv 0 0 0 /\
  apply (SetRay (At a) d (Num (-1))) (new_with m) = Ok p /\ get_distance p = Num (-1).
Proof.
  exists (slab 5 6 NaN). eexists. exists (mkv 0 0 0), (vscale 1 ex). split; [apply slab_proper|]. split; [apply scale_ex_nonzero; lra|].
  split; [apply ray_state; lra|reflexivity].
Qed.
Print Assumptions C36_negative_refuted.

(** Another detector model, but still the crossings with the old one. *)
Theorem C36_model_refuted : exists m m' (p p' : path Datatypes.unit), proper m /\ proper m' /\ history m p /\ p' = set_model m' p /\
  set_cached p' = true /\ l_hits (cached p') <> l_hits (d_cast m' (first (get_geo_ends p')) (dir (get_geo_ends p'))).
Proof.
  set (m := slab 5 6 NaN). set (m' := slab 7 8 NaN).
  set (d := ends_to_det m (mkends (At (mkv 0 0 0)) (At (vadd (mkv 0 0 0) (vscale 1 ex))) ex)).
  set (p := stretch m 0 (At (vadd (mkv 0 0 0) (vscale 1 ex))) (Num 1) false true true (d_cast m (At (mkv 0 0 0)) ex) d).
  exists m, m', p, (set_model m' p). split; [apply slab_proper|]. split; [apply slab_proper|]. split.
  { eapply history_step with (o := Compute); [apply (ray_history m 0 1 1); lra| |reflexivity]. exists (mkv 0 0 0). reflexivity. }
  split; [reflexivity|]. split; [reflexivity|].
  assert (E1 : l_hits (cached (set_model m' p)) = [mkix (Fin ((5 - 0) / 1)) 1%Z true; mkix (Fin ((6 - 0) / 1)) 1%Z false]).
  { unfold set_model, p, stretch, m. cbn. destruct (Req_EM_T 1 0); [lra|]. reflexivity. }
  assert (EG : get_geo_ends (set_model m' p) = ends_to_geo m' d) by reflexivity.
  rewrite E1, EG. unfold d, ends_to_geo, ends_to_det, to_geo, to_det, to_geo_dir, to_det_dir; cbn. rewrite !qone_rotate. cbn.
  destruct (Req_EM_T 1 0); [lra|]. intros E. injection E as E _. lra.
Qed.
Print Assumptions C36_model_refuted.

(** A ray within the tolerances of the old one keeps the old crossings. *)
Definition edge : detector Datatypes.unit :=
  mkdetector home
    (fun p d => mkline (place_of p) d
       (if Rlt_dec 0 (vy (place_of p)) then [mkix (Fin 0) 1%Z true; mkix (Fin 1) 1%Z false] else []))
    (fun _ _ _ _ => Num 0) (fun _ _ _ _ _ => NaN).
Theorem C36_reuse_refuted : exists m (p p' : path Datatypes.unit) a d, proper m /\ history m p /\ d <> mkv 0 0 0 /\
  apply (SetRay (At a) d (Num 1)) p = Ok p' /\ set_cached p' = true /\
  l_hits (cached p') = [] /\ l_hits (d_cast m (first (get_geo_ends p')) (dir (get_geo_ends p'))) <> [].
Proof.
  set (m := edge). assert (Pm : proper m).
  { split; [apply unit_nonzero, qone_unit|split; [left; apply qone_unit|]]. intros; split; reflexivity. }
  set (d := ends_to_det m (mkends (At (mkv 0 0 0)) (At (vadd (mkv 0 0 0) (vscale 1 ex))) ex)).
  set (p := stretch m 0 (At (vadd (mkv 0 0 0) (vscale 1 ex))) (Num 1) false true true (d_cast m (At (mkv 0 0 0)) ex) d).
  set (a := mkv 0 (1 / 10 ^ 7) 0).
  assert (R : reusable (d_cast m (At (mkv 0 0 0)) ex) a (vscale 1 ex) = true).
  { unfold reusable. rewrite ex_normal by lra. cbn [d_cast m edge l_direction l_position place_of]. rewrite ex_unit, Rabs_R1.
    destruct (Rlt_dec _ _) as [|n]; [|exfalso; apply n; lra].
    replace (vcross (vsub a (mkv 0 0 0)) ex) with (vscale (- (1 / 10 ^ 7)) (mkv 0 0 1)) by (unfold vcross, vsub, vscale, a, ex; cbn; f_equal; ring).
    rewrite vmag_scale, unit_mag by (unfold vdot; cbn; ring). pose proof (vmag_nonneg (vsub a (mkv 0 0 0))).
    destruct (Rlt_dec _ _) as [|n]; auto. exfalso; apply n. rewrite Rabs_left by lra.
    assert (1 / 10 ^ 7 < 1 / 10 ^ 6) by lra. assert (0 < 1 / 10 ^ 6) by lra. nra. }
  assert (A : exists e, apply (SetRay (At a) (vscale 1 ex) (Num 1)) p =
     Ok (mkpath (Some m) (mkends (At a) (At (vadd a (vscale 1 ex))) ex) (Num 1) true false false e true (d_cast m (At (mkv 0 0 0)) ex) true)).
  { eexists. change (apply (SetRay (At a) (vscale 1 ex) (Num 1)) p) with
      (let b := move (At a) (vnormalized (vscale 1 ex)) (Num 1) in
       Ok (update (mkpath (Some m) (mkends (At a) b (vnormalized (vscale 1 ex))) (Num 1) true false (is_infinite b) d false
         (d_cast m (At (mkv 0 0 0)) ex) (reusable (d_cast m (At (mkv 0 0 0)) ex) a (vscale 1 ex))))).
    rewrite R, ex_normal by lra. reflexivity. }
  destruct A as [e A]. exists m, p. eexists. exists a, (vscale 1 ex). split; [exact Pm|]. split.
  { eapply history_step with (o := Compute); [apply (ray_history m 0 1 1); lra| |reflexivity]. exists (mkv 0 0 0). reflexivity. }
  split; [apply scale_ex_nonzero; lra|]. split; [exact A|]. split; [reflexivity|]. split.
  - cbn. destruct (Rlt_dec 0 0); [lra|reflexivity].
  - change (l_hits (d_cast m (At a) ex) <> []). change (l_hits (d_cast m (At a) ex)) with
      (if Rlt_dec 0 (1 / 10 ^ 7) then [mkix (Fin 0) 1%Z true; mkix (Fin 1) 1%Z false] else []).
    destruct (Rlt_dec 0 (1 / 10 ^ 7)) as [|n]; [discriminate|]. exfalso; apply n. lra.
Qed.
Print Assumptions C36_reuse_refuted.

(** A depth that is never reached puts the last point at infinity without saying so. *)
Theorem C36_unreached_refuted : exists m (p p' : path Datatypes.unit), proper m /\ history m p /\
  apply (ExtendEndBy tt (Num 1)) p = Ok p' /\ last (get_geo_ends p') = Far /\ last_inf p' = false.
Proof.
  set (m := slab 5 6 (Inf false)).
  set (d := ends_to_det m (mkends (At (mkv 0 0 0)) (At (vadd (mkv 0 0 0) (vscale 1 ex))) ex)).
  set (p := stretch m 0 (At (vadd (mkv 0 0 0) (vscale 1 ex))) (Num 1) false true true (d_cast m (At (mkv 0 0 0)) ex) d).
  assert (A : exists e c, apply (ExtendEndBy tt (Num 1)) p =
     Ok (mkpath (Some m) (mkends (At (mkv 0 0 0)) Far ex) (Inf false) true false false e false c true)).
  { eexists _, _. cbn [apply]. unfold extend_end_by, reach_end_along, prepare, ensure_crossings, p, stretch, ask, require, extend_end, ensure_points.
    cbn [set_cached bind update set_geo set_det model negb andb last_inf first_inf fst snd d_reach m slab geo len last first dir nadd nltb move].
    rewrite (unit_mag ex ex_unit). destruct (Req_EM_T 1 0); [lra|]. reflexivity. }
  destruct A as (e & c & A). exists m, p. eexists. split; [apply slab_proper|]. split.
  { eapply history_step with (o := Compute); [apply (ray_history m 0 1 1); lra| |reflexivity]. exists (mkv 0 0 0). reflexivity. }
  split; [exact A|]. split; reflexivity.
Qed.
Print Assumptions C36_unreached_refuted.

(** Shortening an infinite path to a finite length. *)
Theorem C36_shorten_refuted : exists m (p p' : path Datatypes.unit), proper m /\ history m p /\
  apply (ShrinkStartTo (Num 10)) p = Ok p' /\ get_distance p' = NaN.
Proof.
  set (m := slab 5 6 NaN).
  set (p := stretch m 0 Far (Inf false) true false true (cached (@new_path Datatypes.unit)) (ends_to_det m (mkends (At (mkv 0 0 0)) Far ex))).
  exists m, p. eexists. split; [apply slab_proper|]. split; [apply (infinite_history m 0 1); lra|]. split; reflexivity.
Qed.
Print Assumptions C36_shorten_refuted.

(** ** C37: undoing, clamping and turning around *)
Theorem C37_undo_end : forall Q (m : detector Q) p p' k, proper m -> history m p ->
  extend_end (Num k) p = Ok p' -> (forall x, get_distance p = Num x -> 0 <= x + k) ->
  exists p'', shrink_end (Num k) p' = Ok p'' /\ alike p'' p.
Proof. intros Q m p p' k P H E K. exact (extend_undone m k p p' (history_sound m P p H) E K). Qed.
Print Assumptions C37_undo_end.

Theorem C37_undo_start : forall Q (m : detector Q) p p' k, proper m -> history m p ->
  extend_start (Num k) p = Ok p' -> (forall x, get_distance p = Num x -> 0 <= x + k) ->
  exists p'', shrink_start (Num k) p' = Ok p'' /\ alike p'' p.
Proof.
  intros Q m p p' k P H E K. pose proof (history_sound m P p H) as S. pose proof (flip_sound m P p S) as SF.
  destruct (extend_flip m P (Num k) p (proj1 S)) as [_ F]. rewrite E in F.
  destruct (extend_undone m k (flip p) (flip p') SF F K) as (q & Hq & A).
  assert (S' : sound m p') by (exact (extend_start_sound m _ p p' S (ex_intro _ k eq_refl) E)).
  destruct (extend_flip m P (nneg (Num k)) p' (proj1 S')) as [_ F']. unfold shrink_end in Hq. rewrite Hq in F'.
  destruct (extend_start (nneg (Num k)) p') as [r| |] eqn:R; try discriminate. apply ok_inj in F'. subst q.
  exists r. split; [exact R|].
  assert (Sr : sound m r) by (exact (extend_start_sound m _ p' r S' (ex_intro _ (- k) eq_refl) R)).
  rewrite <- (flip_flip r), <- (flip_flip p). apply (alike_flip m P); auto; [exact (proj1 Sr)|exact (proj1 S)].
Qed.
Print Assumptions C37_undo_start.

(** Taking off at least the whole length leaves nothing, at the other end. *)
Theorem C37_clamp_end : forall Q (m : detector Q) p p' k x, proper m -> history m p -> get_distance p = Num x -> x <= k ->
  shrink_end (Num k) p = Ok p' ->
  get_distance p' = Num 0 /\ first (get_geo_ends p') = first (get_geo_ends p) /\ last (get_geo_ends p') = first (get_geo_ends p) /\
  dir (get_geo_ends p') = dir (get_geo_ends p) /\ last (get_ends p') = first (get_ends p').
Proof. intros Q m p p' k x P H L K E. exact (clamped_end m k p p' x (history_sound m P p H) L K E). Qed.
Print Assumptions C37_clamp_end.

Theorem C37_clamp_start : forall Q (m : detector Q) p p' k x, proper m -> history m p -> get_distance p = Num x -> x <= k ->
  shrink_start (Num k) p = Ok p' ->
  get_distance p' = Num 0 /\ last (get_geo_ends p') = last (get_geo_ends p) /\ first (get_geo_ends p') = last (get_geo_ends p) /\
  dir (get_geo_ends p') = dir (get_geo_ends p) /\ last (get_ends p') = first (get_ends p').
Proof.
  intros Q m p p' k x P H L K E. pose proof (history_sound m P p H) as S. pose proof (flip_sound m P p S) as SF.
  destruct (extend_flip m P (nneg (Num k)) p (proj1 S)) as [_ F]. unfold shrink_start in E. rewrite E in F.
  assert (S' : sound m p') by (exact (extend_start_sound m _ p p' S (ex_intro _ (- k) eq_refl) E)).
  destruct (clamped_end m k (flip p) (flip p') x SF L K F) as (A & B & C & D & G). unfold get_geo_ends, get_ends in *.
  rewrite !(update_flip m P) in * by (apply S || apply S'). cbn in *. repeat (split; [auto|]); auto.
  rewrite !scale_m1 in D. rewrite <- (neg_neg (dir _)), D, neg_neg. auto.
Qed.
Print Assumptions C37_clamp_start.

Theorem C37_flip : forall Q (m : detector Q) p k, proper m -> history m p ->
  flip (flip p) = p /\
  extend_start k (flip p) = match extend_end k p with Ok q => Ok (flip q) | Throw => Throw | UB => UB end /\
  extend_end k (flip p) = match extend_start k p with Ok q => Ok (flip q) | Throw => Throw | UB => UB end /\
  first (get_ends (flip p)) = last (get_ends p) /\ last (get_ends (flip p)) = first (get_ends p) /\
  dir (get_ends (flip p)) = vneg (dir (get_ends p)) /\ get_distance (flip p) = get_distance p.
Proof.
  intros Q m p k P H. pose proof (proj1 (history_sound m P p H)) as M. split; [apply flip_flip|].
  destruct (extend_flip m P k p M) as [A B]. split; [exact A|]. split; [exact B|].
  unfold get_ends. rewrite (update_flip m P) by auto. cbn. rewrite scale_m1. auto.
Qed.
Print Assumptions C37_flip.

(** Extending or shrinking to a length. *)
Theorem C37_to : forall Q (m : detector Q) p p' k x, proper m -> history m p -> get_distance p = Num x ->
  (extend_end_to (Num k) p = Ok p' \/ extend_start_to (Num k) p = Ok p' -> get_distance p' = Num (Rmax x k)) /\
  (0 <= k -> shrink_end_to (Num k) p = Ok p' \/ shrink_start_to (Num k) p = Ok p' -> get_distance p' = Num (Rmin x k)).
Proof.
  intros Q m p p' k x P H L. pose proof (history_sound m P p H) as S. pose proof (flip_sound m P p S) as SF. split.
  - intros [E|E]; [exact (extend_to_end m k p p' x S L E)|].
    assert (E' : extend_end_to (Num k) (flip p) = Ok (flip p')).
    { unfold extend_end_to, extend_start_to in *. change (len (flip p)) with (len p). destruct (nltb _ _); [|congruence].
      destruct (extend_flip m P (nadd (Num k) (nneg (len p))) p (proj1 S)) as [_ ->]. rewrite E. reflexivity. }
    exact (extend_to_end m k (flip p) (flip p') x SF L E').
  - intros K [E|E]; [exact (shrink_to_end m k p p' x S L K E)|].
    assert (E' : shrink_end_to (Num k) (flip p) = Ok (flip p')).
    { unfold shrink_end_to, shrink_start_to, shrink_end, shrink_start in *. change (len (flip p)) with (len p). destruct (nltb _ _); [|congruence].
      destruct (extend_flip m P (nneg (nadd (len p) (nneg (Num k)))) p (proj1 S)) as [_ ->]. rewrite E. reflexivity. }
    exact (shrink_to_end m k (flip p) (flip p') x SF L K E').
Qed.
Print Assumptions C37_to.

(** Taking off more than there is cannot be undone. *)
Theorem C37_undo_refuted : exists m (p p' p'' : path Datatypes.unit), proper m /\ history m p /\
  shrink_end (Num 5) p = Ok p' /\ extend_end (Num 5) p' = Ok p'' /\ ~ alike p'' p.
Proof.
  set (m := slab 5 6 NaN). pose proof (slab_proper 5 6 NaN) as P.
  pose proof (ray_history m 0 1 1 ltac:(lra) ltac:(lra)) as H.
  set (p := stretch m 0 _ _ _ _ _ _ _) in H. pose proof (history_sound m P p H) as S.
  destruct (extend_end_ok m (- (5)) p S eq_refl eq_refl) as [p' E]. destruct (extend_end_view m _ p p' S E) as (G & S' & G' & LI & E1 & E2 & E3 & E4 & E5 & E6 & C).
  destruct (extend_end_ok m 5 p' S' G' E2) as [p'' E']. destruct (extend_end_view m _ p' p'' S' E') as (_ & _ & _ & _ & _ & _ & _ & _ & _ & _ & D).
  exists m, p, p', p''. split; [exact P|]. split; [exact H|]. split; [exact E|]. split; [exact E'|]. intros (_ & _ & A & _).
  unfold get_distance in A. cbn [p stretch len] in A, C.
  destruct C as [(a & x & F & L & X & La & I & L' & La')|(b & F & _)]; [|discriminate]. injection L as <-. rewrite Rmax_left in L' by lra.
  destruct D as [(a2 & x2 & F2 & L2 & X2 & La2 & I2 & L2' & La2')|(b & F' & L2 & _)]; [|congruence]. rewrite L' in L2. injection L2 as <-.
  rewrite Rmax_right in L2' by lra. rewrite L2' in A. injection A as A. lra.
Qed.
Print Assumptions C37_undo_refuted.

Example C37_case : let m := slab 5 6 NaN in exists p p' p'', proper m /\ history m p /\ get_distance p = Num 1 /\
  extend_end (Num 2) p = Ok p' /\ get_distance p' = Num 3 /\ shrink_end (Num 2) p' = Ok p'' /\ alike p'' p.
Proof.
  intros m. pose proof (slab_proper 5 6 NaN) as P. pose proof (ray_history m 0 1 1 ltac:(lra) ltac:(lra)) as H.
  set (p := stretch m 0 _ _ _ _ _ _ _) in H. pose proof (history_sound m P p H) as S.
  destruct (extend_end_ok m 2 p S eq_refl eq_refl) as [p' E]. destruct (extend_end_view m _ p p' S E) as (G & S' & G' & LI & E1 & E2 & E3 & E4 & E5 & E6 & C).
  destruct (C37_undo_end _ m p p' 2 P H E) as (p'' & E'' & A); [intros x L; cbn in L; injection L as <-; lra|].
  exists p, p', p''. split; [exact P|]. split; [exact H|]. split; [reflexivity|]. split; [exact E|]. split; [|split; auto].
  destruct C as [(a & x & F & L & X & La & I & L' & La')|(b & F & _)]; [|discriminate]. cbn in L. injection L as <-. unfold get_distance. rewrite L'. f_equal.
  rewrite Rmax_right; lra.
Qed.
