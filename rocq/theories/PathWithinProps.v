(** Property C111: points relative to a path. *)
From Coq Require Import Reals Lra List Bool ZArith.
From Verif Require Import TraversalModel VectorModel QuatModel QuatSpec QuatProofs QuatPlace DepthModel PathModel PathSpec PathProofs PathMain PathProps PathDepthProofs PathDepthProps.
Import ListNotations.
Open Scope R_scope.

(** How far along [d] from [a] the point [x] is. *)
Definition progress (a d x : vec) : R := vdot (vsub x a) d.

Lemma progress_geo {Q} (m : detector Q) a d x : proper m ->
  progress (to_geo (d_frame m) a) (to_geo_dir (d_frame m) d) (to_geo (d_frame m) x) = progress a d x.
Proof.
  intros P. unfold progress. replace (vsub (to_geo (d_frame m) x) (to_geo (d_frame m) a)) with (to_geo_dir (d_frame m) (vsub x a)).
  - destruct (dir_geo m P) as [_ _ D _]. apply D.
  - replace x with (along_by a (vsub x a) 1) at 2 by (destruct a, x; unfold along_by, vadd, vsub, vscale; cbn; f_equal; ring).
    rewrite (geo_along m P). generalize (to_geo (d_frame m) a) (to_geo_dir (d_frame m) (vsub x a)). intros [] []; unfold along_by, vadd, vsub, vscale; cbn; f_equal; ring.
Qed.

Lemma dot_back d a x : vdot d (vsub a x) = - progress a d x.
Proof. destruct a, d, x; unfold progress, vdot, vsub; cbn; ring. Qed.
Lemma progress_along a d x l : vdot d d = 1 -> progress (along_by a d l) d x = progress a d x - l.
Proof.
  intros U. assert (E : progress (along_by a d l) d x = progress a d x - l * vdot d d) by (destruct a, d, x; unfold progress, along_by, vdot, vadd, vsub, vscale; cbn; ring).
  rewrite E, U. ring.
Qed.

Lemma finite_updated {Q} (m : detector Q) p a b : proper m -> sound m p -> set_geo p = true -> first (get_geo_ends p) = At a -> last (get_geo_ends p) = At b ->
  exists x, get_distance p = Num x /\ 0 <= x /\ vdot (dir (get_geo_ends p)) (dir (get_geo_ends p)) = 1 /\ b = along_by a (dir (get_geo_ends p)) x /\ first_inf p = false /\ last_inf p = false.
Proof.
  intros P S G F La. destruct (sound_consistent m P p S G) as (L & _). inversion L as [a' x U X Fa Lb K I J| |]; [|congruence|congruence].
  exists x. split; [congruence|]. split; [exact X|]. split; [exact U|]. split; [congruence|]. split; congruence.
Qed.

(** In the geometry frame: exactly the points whose projection is on the path. *)
Theorem C111_within : forall Q (m : detector Q) p a b x l, proper m -> history m p -> set_geo p = true ->
  first (get_geo_ends p) = At a -> last (get_geo_ends p) = At b -> get_distance p = Num l ->
  exists p' r, is_within_geo x p = Ok (p', r) /\ (r = true <-> 0 <= progress a (dir (get_geo_ends p)) x <= l).
Proof.
  intros Q m p a b x l P H G F La E. apply (history_sound m P) in H.
  destruct (finite_updated m p a b P H G F La) as (l' & E' & _ & U & B & I & J). assert (l' = l) by congruence. subst l'.
  unfold is_within_geo. cbv zeta. rewrite (geo_of m p P H G) in *. rewrite (update_set m p H G). unfold require. cbn [first_inf last_inf bind set_geo geo]. rewrite I, J. cbn [orb bind set_geo geo].
  rewrite F, La. do 2 eexists. split; [reflexivity|]. rewrite !dot_back, B, progress_along by exact U. rewrite andb_true_iff.
  destruct (Rle_dec _ 0) as [A|A], (Rle_dec 0 _) as [C|C]; split; intros K; try (destruct K; discriminate); try lra; auto.
Qed.
Print Assumptions C111_within.

(** In the detector frame up to a millimetre before the first and after the last point. *)
Theorem C111_within_detector : forall Q (m : detector Q) p a b y l, proper m -> history m p -> set_geo p = true ->
  first (get_ends p) = At a -> last (get_ends p) = At b -> get_distance p = Num l ->
  exists p' r, is_within_det y p = Ok (p', r) /\ (r = true <-> - (1 / 10 ^ 3) < progress a (dir (get_ends p)) y < l + 1 / 10 ^ 3).
Proof.
  intros Q m p a b y l P H G F La E. apply (history_sound m P) in H.
  destruct (sound_consistent m P p H G) as (_ & L & _). inversion L as [a' l' U X Fa Lb K I J| |]; [|congruence|congruence].
  assert (l' = l) by congruence. subst l'. assert (a' = a) by congruence. subst a'. assert (B : b = along_by a (dir (get_ends p)) l) by congruence.
  unfold get_ends in *. unfold is_within_det. cbv zeta. rewrite (update_set m p H G) in *. unfold require. cbn [first_inf last_inf bind set_geo set_det geo det] in *. rewrite <- I, <- J. cbn [orb bind set_det det].
  rewrite F, La. do 2 eexists. split; [reflexivity|]. rewrite !dot_back, B, progress_along by exact U. rewrite andb_true_iff. set (s := progress a _ y).
  destruct (Rlt_dec 0 (- s)); [destruct (Rlt_dec (- s) (1 / 10 ^ 3))|]; (destruct (Rlt_dec (- (s - l)) 0); [destruct (Rlt_dec (- (1 / 10 ^ 3)) (- (s - l)))|]);
    repeat match goal with |- context [Rle_dec ?u ?v] => destruct (Rle_dec u v) end; split; intros K'; try (destruct K'; discriminate); try lra; auto.
Qed.
Print Assumptions C111_within_detector.

(** Whatever is within the path in the geometry frame is so in the detector frame. *)
Theorem C111_frames : forall Q (m : detector Q) p a b y, proper m -> history m p -> set_geo p = true ->
  first (get_geo_ends p) = At a -> last (get_geo_ends p) = At b ->
  (exists p', is_within_geo (to_geo (d_frame m) y) p = Ok (p', true)) -> exists p', is_within_det y p = Ok (p', true).
Proof.
  intros Q m p a b y P H G F La (p' & W). pose proof (history_sound m P p H) as S.
  destruct (finite_updated m p a b P S G F La) as (l & E & X & U & B & I & J).
  destruct (C111_within Q m p a b (to_geo (d_frame m) y) l P H G F La E) as (p1 & r & W' & C). rewrite W in W'. injection W' as <- <-.
  assert (D : first (get_ends p) = At (to_det (d_frame m) a) /\ last (get_ends p) = At (to_det (d_frame m) b) /\ dir (get_geo_ends p) = to_geo_dir (d_frame m) (dir (get_ends p))).
  { unfold get_ends. unfold get_geo_ends in F, La |- *. rewrite (update_set m p S G) in *. cbn [geo det] in *. unfold ends_to_det. cbn [first last dir]. rewrite F, La. cbn [on_pt]. rewrite (geo_det_dir m P). auto. }
  destruct D as (D1 & D2 & D3). destruct (C111_within_detector Q m p _ _ y l P H G D1 D2 E) as (p2 & r & W2 & C2). exists p2. rewrite W2. f_equal. f_equal. apply C2.
  destruct C as [C _]. specialize (C eq_refl). rewrite D3 in C. rewrite <- (geo_det m P a) in C. rewrite (progress_geo m _ _ _ P) in C. lra.
Qed.
Print Assumptions C111_frames.

(** The distance of a point from the start is that of its projection, and zero before the start; the same in both frames. *)
Theorem C111_distance : forall Q (m : detector Q) p a x, proper m -> history m p -> set_geo p = true -> first (get_geo_ends p) = At a ->
  (exists p', distance_geo x p = Ok (p', Num (Rmax 0 (progress a (dir (get_geo_ends p)) x)))) /\
  (exists p', distance_det (to_det (d_frame m) x) p = Ok (p', Num (Rmax 0 (progress a (dir (get_geo_ends p)) x)))).
Proof.
  intros Q m p a x P H G F. apply (history_sound m P) in H. pose proof (finite_first m p a P H G F) as I.
  unfold distance_geo, distance_det. cbv zeta. rewrite (geo_of m p P H G) in *. rewrite (update_set m p H G). unfold require. cbn [first_inf bind set_geo set_det geo det]. rewrite I. cbn [bind set_geo set_det geo det ends_to_det first dir].
  rewrite F. cbn [on_pt]. assert (S : forall u v, vdot u v = vdot v u) by (intros [] []; unfold vdot; cbn; ring). split; eexists; do 4 f_equal.
  - rewrite S. reflexivity.
  - rewrite S. fold (progress (to_det (d_frame m) a) (to_det_dir (d_frame m) (dir (geo p))) (to_det (d_frame m) x)). rewrite <- (progress_geo m _ _ _ P), !(geo_det m P), (geo_det_dir m P). reflexivity.
Qed.
Print Assumptions C111_distance.

(** A path without finite first point has no such distance, and one without both ends no such test. *)
Theorem C111_infinite : forall Q (m : detector Q) p x, proper m -> history m p -> set_geo p = true ->
  (first (get_geo_ends p) = Far -> distance_geo x p = Throw /\ distance_det x p = Throw) /\
  (first (get_geo_ends p) = Far \/ last (get_geo_ends p) = Far -> is_within_geo x p = Throw /\ is_within_det x p = Throw).
Proof.
  intros Q m p x P H G. apply (history_sound m P) in H. destruct (sound_consistent m P p H G) as (L & _).
  unfold distance_geo, distance_det, is_within_geo, is_within_det. cbv zeta. rewrite (update_set m p H G). unfold require. cbn [first_inf last_inf].
  split; intros F.
  - assert (I : first_inf p = true) by (inversion L; congruence). rewrite I. split; reflexivity.
  - assert (I : first_inf p || last_inf p = true). { inversion L; destruct F; try congruence; rewrite ?orb_true_r; reflexivity. } rewrite I. split; reflexivity.
Qed.
Print Assumptions C111_infinite.

(** The example: from 0 to 3 along the first axis. *)
Definition three := stretch (slab 5 6 NaN) 0 (At (vadd (mkv 0 0 0) (vscale 3 ex))) (Num 3) false false true (cached (@new_path Datatypes.unit))
  (ends_to_det (slab 5 6 NaN) (mkends (At (mkv 0 0 0)) (At (vadd (mkv 0 0 0) (vscale 3 ex))) ex)).
Lemma three_history : history (slab 5 6 NaN) three.
Proof. apply (ray_history _ 0 1 3); lra. Qed.
Lemma three_progress t u : progress (mkv 0 0 0) ex (mkv t u 0) = t.
Proof. unfold progress, vdot, vsub, ex; cbn. ring. Qed.

Example C111_case : proper (slab 5 6 NaN) /\ history (slab 5 6 NaN) three /\ set_geo three = true /\ first (get_geo_ends three) = At (mkv 0 0 0) /\ last (get_geo_ends three) = At (along_by (mkv 0 0 0) ex 3) /\ get_distance three = Num 3 /\
  (exists p', is_within_geo (mkv 2 7 0) three = Ok (p', true)) /\ (exists p', is_within_geo (mkv 4 0 0) three = Ok (p', false)) /\ exists p', distance_geo (mkv 2 7 0) three = Ok (p', Num 2).
Proof.
  pose proof (slab_proper 5 6 NaN) as P. pose proof three_history as H. split; [exact P|]. split; [exact H|]. do 4 (split; [reflexivity|]). split; [|split].
  - destruct (C111_within _ _ three _ _ (mkv 2 7 0) 3 P H eq_refl eq_refl eq_refl eq_refl) as (p' & r & E & C). exists p'. rewrite E. do 2 f_equal. apply C. change (dir (get_geo_ends three)) with ex. rewrite three_progress. lra.
  - destruct (C111_within _ _ three _ _ (mkv 4 0 0) 3 P H eq_refl eq_refl eq_refl eq_refl) as (p' & r & E & C). exists p'. rewrite E. do 2 f_equal. destruct r; [|reflexivity]. destruct C as [C _]. specialize (C eq_refl). change (dir (get_geo_ends three)) with ex in C. rewrite three_progress in C. lra.
  - destruct (C111_distance _ _ three _ (mkv 2 7 0) P H eq_refl eq_refl) as ((p' & E) & _). exists p'. rewrite E. change (dir (get_geo_ends three)) with ex. rewrite three_progress, Rmax_right by lra. reflexivity.
Qed.

(** The distance of a point beyond the end is more than the length of the path. *)
Theorem C111_beyond_refuted : exists (m : detector Datatypes.unit) p p' x l t, proper m /\ history m p /\ get_distance p = Num l /\ distance_geo x p = Ok (p', Num t) /\ l < t.
Proof.
  destruct (C111_distance _ _ three _ (mkv 5 0 0) (slab_proper 5 6 NaN) three_history eq_refl eq_refl) as ((p' & E) & _).
  exists (slab 5 6 NaN), three, p', (mkv 5 0 0), 3, 5. split; [apply slab_proper|]. split; [apply three_history|]. split; [reflexivity|]. rewrite E. change (dir (get_geo_ends three)) with ex. rewrite three_progress, Rmax_right by lra. split; [reflexivity|lra].
Qed.
Print Assumptions C111_beyond_refuted.

(** A point less than a millimetre beyond the end is within the path in one frame only. *)
Theorem C111_frames_refuted : exists (m : detector Datatypes.unit) p p' p'' y, proper m /\ history m p /\ is_within_det y p = Ok (p', true) /\ is_within_geo (to_geo (d_frame m) y) p = Ok (p'', false).
Proof.
  pose proof (slab_proper 5 6 NaN) as P. pose proof three_history as H. set (x := mkv (3 + 1 / 10 ^ 4) 0 0).
  destruct (C111_within _ _ three _ _ x 3 P H eq_refl eq_refl eq_refl eq_refl) as (p'' & r & E & C).
  change (dir (get_geo_ends three)) with ex in C. unfold x in C. rewrite three_progress in C.
  destruct (C111_within_detector _ _ three (to_det (d_frame (slab 5 6 NaN)) (mkv 0 0 0)) (to_det (d_frame (slab 5 6 NaN)) (along_by (mkv 0 0 0) ex 3)) (to_det (d_frame (slab 5 6 NaN)) x) 3 P H eq_refl eq_refl eq_refl eq_refl) as (p' & r' & E' & C').
  change (dir (get_ends three)) with (to_det_dir (d_frame (slab 5 6 NaN)) ex) in C'. rewrite <- (progress_geo _ _ _ _ P), !(geo_det _ P), (geo_det_dir _ P) in C'. unfold x in C'. rewrite three_progress in C'.
  exists (slab 5 6 NaN), three, p', p'', (to_det (d_frame (slab 5 6 NaN)) x). split; [exact P|]. split; [exact H|]. rewrite (geo_det _ P), E, E'. split; do 2 f_equal.
  - apply C'. lra.
  - destruct r; [|reflexivity]. destruct C as [C _]. specialize (C eq_refl). lra.
Qed.
Print Assumptions C111_frames_refuted.
