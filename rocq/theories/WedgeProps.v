(** Properties C165 and C166: ranges of azimuths, and the crossings of cylinders of which such a range is kept. *)
From Coq Require Import Reals Lra Lia List Bool Permutation Sorted Arith.
From Verif Require Import VectorModel GeometryModel GeometrySpec GeometryProps EulerModel SolidModel SolidSpec SolidProofs SolidShapes SolidRound SolidProps
  WedgeModel WedgeSpec WedgeProofs WedgeLine WedgeMerge WedgeCut.
Import ListNotations.
Open Scope R_scope.

(** ** C165: the range of azimuths *)

(** C165: the test on points agrees with the meaning of the range, for vectors no longer than one and farther than the precision from both edges. *)
Theorem C165_range x y start delta : 0 < delta < 2 * PI -> x * x + y * y <= 1 ->
  precision < Rabs (across start x y) -> precision < Rabs (across (start + delta) x y) ->
  (phi_in_range x y start delta = true <-> in_wedge start delta x y).
Proof. apply range_ok. Qed.
Print Assumptions C165_range.

(** C165: normalised angles are within one turn and name the same direction. *)
Theorem C165_normal a : 0 <= normalize_phi a < 2 * PI /\ cos (normalize_phi a) = cos a /\ sin (normalize_phi a) = sin a.
Proof.
  destruct (normalize_ok a) as (R & k & E). split; [exact R|]. rewrite E.
  destruct (turn a k) as [X Y]. split; auto.
Qed.
Print Assumptions C165_normal.

(** C165: the hits with the two half planes are the places at which a clear line enters or leaves the range, each marked rightly; anywhere else nothing changes. *)
Theorem C165_faces start delta p d : 0 < delta < 2 * PI -> clear_wedge start delta p d ->
  let inside t := in_wedge start delta (vx (on_line p d t)) (vy (on_line p d t)) in
  NoDup (map h_distance (wedge_hits start delta p d)) /\ positioned p d (wedge_hits start delta p d) /\
  (forall h, In h (wedge_hits start delta p d) -> crosses inside h) /\
  (forall t, (forall h, In h (wedge_hits start delta p d) -> h_distance h <> t) ->
     exists e, 0 < e /\ forall u, t - e < u < t + e -> (inside u <-> inside t)).
Proof.
  intros D K. destruct (wedge_switched start delta p d D K) as [S1 S2]. cbv zeta. split; [now apply wedge_hits_nodup|]. split; [|split].
  - intros h I. apply (wedge_hits_are start delta p d K h D) in I as (t & e & -> & _). reflexivity.
  - intros h I. apply (wedge_hits_are start delta p d K h D) in I as (t & e & -> & SW). apply crosses_sides. exact (S1 _ _ SW).
  - intros t T. destruct (S2 t) as [c C].
    + intros e E. apply (T (hit_at p d t e)); [|reflexivity]. apply (wedge_hits_are start delta p d K _ D). eauto.
    + pose proof (steady_at _ _ _ C) as At. destruct C as (e & E & C). exists e. split; auto. intros u U. rewrite (C u U). symmetry. exact At.
Qed.
Print Assumptions C165_faces.

(** C165: the state from which the walk along the line starts is the one far behind. *)
Theorem C165_start start delta p d : 0 < delta < 2 * PI -> vx d * vx d + vy d * vy d <= 1 -> clear_wedge start delta p d ->
  exists m, forall t, t < m ->
    (in_wedge start delta (vx (on_line p d t)) (vy (on_line p d t)) <-> initial_phi_state (vx p) (vy p) (vx d) (vy d) start delta = true).
Proof.
  intros D U K. destruct (backwards start delta p d D K) as [m M]. exists m. intros t T. rewrite (initial_ok start delta p d D K U). exact (M t T).
Qed.
Print Assumptions C165_start.

(** C165: the extent that is kept is positive and at most one turn; an extent of nearly a turn is no cut. *)
Theorem C165_extent delta : match make_wedge delta with
  | None => delta <= 0
  | Some (e, cut) => 0 < delta /\ e = Rmin delta (2 * PI) /\ (cut = true <-> delta < 2 * PI - precision)
  end.
Proof.
  unfold make_wedge, two_pi, precision. destruct (Rle_dec delta 0) as [H|H]; [auto|]. destruct (Rlt_dec (2 * PI) delta) as [L|L].
  - split; [lra|]. split; [rewrite Rmin_right; lra|]. destruct (Rlt_dec _ _); split; try discriminate; intros; lra.
  - split; [lra|]. split; [rewrite Rmin_left; lra|]. destruct (Rlt_dec _ _); split; auto; try discriminate; intros; lra.
Qed.
Print Assumptions C165_extent.

Lemma across_0 x y : across 0 x y = y.
Proof. unfold across. rewrite sin_0, cos_0. ring. Qed.
Lemma along_0 x y : along 0 x y = x.
Proof. unfold along. rewrite sin_0, cos_0. ring. Qed.
Lemma across_q x y : across (0 + PI / 2) x y = - x.
Proof. rewrite Rplus_0_l. unfold across. rewrite sin_PI2, cos_PI2. ring. Qed.
Lemma along_q x y : along (0 + PI / 2) x y = y.
Proof. rewrite Rplus_0_l. unfold along. rewrite sin_PI2, cos_PI2. ring. Qed.
Lemma quarter x y : in_wedge 0 (PI / 2) x y -> 0 <= x /\ 0 <= y.
Proof.
  intros (r & phi & R & P & -> & ->). rewrite Rplus_0_l. pose proof PI_RGT_0. split; apply Rmult_le_pos; auto; [apply cos_ge_0|apply sin_ge_0]; lra.
Qed.

(** A line in the plane [z = 0] through a quarter. *)
Definition quarter_p := mkv (1 / 2) (1 / 2) 0.
Definition quarter_d := mkv (3 / 5) (- (4 / 5)) 0.
Lemma quarter_clear : clear_wedge 0 (PI / 2) quarter_p quarter_d.
Proof.
  split.
  - intros a [-> | ->]; [rewrite across_0|rewrite across_q]; cbn; unfold precision, Rabs; destruct (Rcase_abs _); lra.
  - intros a t [-> | ->]; [rewrite across_0, along_0|rewrite across_q, along_q]; cbn; intros H; unfold precision, Rabs; destruct (Rcase_abs _); lra.
  - intros a t [-> | ->]; [rewrite across_0|rewrite across_q]; cbn; intros H; unfold precision; lra.
Qed.

Example C165_case : 0 < PI / 2 < 2 * PI /\ vx quarter_d * vx quarter_d + vy quarter_d * vy quarter_d <= 1 /\ clear_wedge 0 (PI / 2) quarter_p quarter_d /\
  map h_entering (wedge_hits 0 (PI / 2) quarter_p quarter_d) = [false; true].
Proof.
  pose proof PI_RGT_0. split; [lra|]. split; [cbn; lra|]. split; [exact quarter_clear|].
  unfold wedge_hits. destruct (face_ok 0 (PI / 2) quarter_p quarter_d quarter_clear false false) as [_ ->].
  destruct (face_ok 0 (PI / 2) quarter_p quarter_d quarter_clear true false) as [_ ->]. cbn [quarter_p quarter_d vx vy on_line].
  replace (0 + 0 * (PI / 2)) with 0 by ring. replace (0 + 1 * (PI / 2)) with (0 + PI / 2) by ring. rewrite ?across_0, ?along_0, ?across_q, ?along_q.
  replace (- (1 / 2) / - (4 / 5)) with (5 / 8) by field. replace (- - (1 / 2) / - (3 / 5)) with (- (5 / 6)) by field. cbn [quarter_p quarter_d vx vy on_line].
  replace (vx (on_line quarter_p quarter_d (5 / 8))) with (7 / 8) by (cbn; field). replace (vy (on_line quarter_p quarter_d (- (5 / 6)))) with (7 / 6) by (cbn; field).
  repeat match goal with |- context [Rlt_dec ?a ?b] => first [destruct (Rlt_dec a b) as [_|N]; [|exfalso; apply N; lra] | destruct (Rlt_dec a b) as [N|_]; [exfalso; lra|]] end.
  reflexivity.
Qed.

(** ** C166: cylinders with a range of azimuths *)

(** C166: for lines that keep clear of rims and edges the crossings are exactly those of the part of the cylinder within the range. *)
Theorem C166_crossings sort r i height start delta p d : sorts sort -> 0 <= i -> i < r -> 0 < height ->
  vx d * vx d + vy d * vy d <= 1 -> 0 < delta < 2 * PI ->
  clear_cylinder r i (height / 2) p d -> clear_wedge start delta p d ->
  (forall t, on_wall r i (on_line p d t) \/ on_lid (height / 2) (on_line p d t) -> ~ on_face start delta (on_line p d t)) ->
  let l := cut_cylinder_hits sort r i height start delta true p d in
  traces (fun t => in_cylinder r i (height / 2) (on_line p d t) /\ in_wedge start delta (vx (on_line p d t)) (vy (on_line p d t))) l /\ positioned p d l.
Proof. apply cut_cylinder_ok. Qed.
Print Assumptions C166_crossings.

(** C166: the same holds for any solid, given its own crossings with the line. *)
Theorem C166_any sort start delta p d inside surface : sorts sort -> 0 < delta < 2 * PI -> vx d * vx d + vy d * vy d <= 1 ->
  clear_wedge start delta p d -> traces inside (sort hit h_distance surface) -> positioned p d surface -> NoDup (map h_distance surface) ->
  (forall h, In h surface -> ~ on_face start delta (on_line p d (h_distance h))) ->
  let r := cut_hits sort start delta p d surface in
  traces (fun t => inside t /\ in_wedge start delta (vx (on_line p d t)) (vy (on_line p d t))) r /\ positioned p d r.
Proof.
  intros HS D U K T PO ND NF.
  assert (IN : forall k, In k (sort hit h_distance surface) <-> In k surface) by (intros k; split; apply Permutation_in; [|apply Permutation_sym]; apply HS).
  apply cut_traces; auto.
  - destruct (above_all (sort hit h_distance surface) 0) as (hi & H1 & H2). destruct (below_all (sort hit h_distance surface) 0) as (lo & L1 & L2).
    exists (Rmax hi (- lo)). intros t M X. pose proof (Rmax_l hi (- lo)). pose proof (Rmax_r hi (- lo)).
    assert (V : (forall k, In k (sort hit h_distance surface) -> h_distance k < t) \/ (forall k, In k (sort hit h_distance surface) -> t < h_distance k)).
    { revert M. unfold Rabs. destruct (Rcase_abs t); intros M; [right|left]; intros k J; [specialize (L2 k J)|specialize (H2 k J)]; lra. }
    apply (tr_state _ _ T) in X; [|intros k J; destruct V as [V|V]; specialize (V k J); lra]. rewrite state_fold in X. destruct V as [V|V].
    + rewrite fold_after with (b := false) in X; auto; [|apply (tr_alternating _ _ T)]. pose proof (tr_closed _ _ T) as CL. unfold closed in CL.
      apply Nat.even_spec in CL. rewrite CL in X. discriminate.
    + rewrite fold_before in X; [discriminate|]. intros k J. specialize (V k J). lra.
  - intros k J. apply (tr_real _ _ T). now apply IN.
  - intros t N. apply (traces_steady _ _ _ T). intros k J. apply N. now apply IN.
Qed.
Print Assumptions C166_any.

(** C166: without a cut the crossings are those of the whole cylinder. *)
Theorem C166_whole sort r i height start delta p d : sorts sort -> 0 <= i -> i < r -> 0 < height -> d <> mkv 0 0 0 -> clear_cylinder r i (height / 2) p d ->
  traces (fun t => in_cylinder r i (height / 2) (on_line p d t)) (cut_cylinder_hits sort r i height start delta false p d).
Proof. intros. now apply C117_crossings. Qed.
Print Assumptions C166_whole.

Lemma first_face_parallel p t : vx p = 0 -> face_hits 0 (PI / 2) p (mkv (- (1)) 0 t) false false = ([], false).
Proof.
  intros _. unfold face_hits. replace (0 + 0 * (PI / 2)) with 0 by ring. rewrite sin_0, cos_0. cbn [vx vy].
  replace (0 * - (1) + - (1) * 0) with 0 by ring. rewrite Rabs_R0. destruct (Rlt_dec 0 precision) as [_|N]; [reflexivity|]. exfalso. apply N. apply prec_pos.
Qed.

(** Finding (C166): a line parallel to one of the half planes, on the outer side of it, and running towards the axis is taken to start inside the range; a quarter of a cylinder that it never meets then yields an entry and an exit, those of the whole cylinder. *)
Theorem C166_parallel_refuted : exists sort r height start delta p d, sorts sort /\ 0 < r /\ 0 < height /\ make_wedge delta = Some (delta, true) /\
  vx d * vx d + vy d * vy d + vz d * vz d = 1 /\
  (forall t, ~ in_wedge start delta (vx (on_line p d t)) (vy (on_line p d t))) /\
  map (fun h => (h_distance h, h_entering h)) (cut_cylinder_hits sort r 0 height start delta true p d) = [(- (4 / 5), true); (4 / 5, false)].
Proof.
  pose proof PI_RGT_0 as PI0. pose proof PI2_3_2 as PI3. pose proof prec_pos as PP.
  exists isort, 1, 2, 0, (PI / 2), (mkv 0 (- (3 / 5)) 0), (mkv (- (1)) 0 0).
  split; [apply isort_ok|]. split; [lra|]. split; [lra|]. split.
  { unfold make_wedge, two_pi. destruct (Rle_dec (PI / 2) 0); [lra|]. destruct (Rlt_dec (2 * PI) (PI / 2)); [lra|]. destruct (Rlt_dec (PI / 2) _); [reflexivity|lra]. }
  split; [cbn; lra|]. split; [intros t H; apply quarter in H; cbn in H; lra|].
  unfold cut_cylinder_hits, cut_hits.
  assert (WH : wedge_hits 0 (PI / 2) (mkv 0 (- (3 / 5)) 0) (mkv (- (1)) 0 0) = []).
  { unfold wedge_hits. rewrite first_face_parallel by reflexivity. unfold face_hits. replace (0 + 1 * (PI / 2)) with (PI / 2) by ring. rewrite sin_PI2, cos_PI2. cbn [vx vy vz].
    replace (- (1) * - (1) + 0 * 0) with 1 by ring. replace (- (1) * 0 + 0 * - (3 / 5)) with 0 by ring. replace (- 0 / 1) with 0 by field.
    rewrite Rabs_R1. branch. reflexivity. }
  rewrite WH. cbn [map]. rewrite app_nil_r.
  assert (IP : initial_phi_state (vx (mkv 0 (- (3 / 5)) 0)) (vy (mkv 0 (- (3 / 5)) 0)) (vx (mkv (- (1)) 0 0)) (vy (mkv (- (1)) 0 0)) 0 (PI / 2) = true).
  { cbn [vx vy]. unfold initial_phi_state. destruct (Rlt_dec _ _) as [_|N]; [|exfalso; lra]. unfold phi_in_range, atan2.
    replace (- - (1)) with 1 by ring. replace (- 0) with 0 by ring. destruct (Rlt_dec 0 1) as [_|N]; [|lra]. replace (0 / 1) with 0 by field. rewrite atan_0.
    rewrite normalize_within by (unfold two_pi; lra). cbv zeta. rewrite Rplus_0_l. unfold two_pi. destruct (Rle_dec (PI / 2) _) as [_|N]; [|exfalso; lra].
    destruct (Rle_dec (0 - 1 / 10 ^ 9) 0) as [_|N]; [|exfalso; lra]. destruct (Rle_dec 0 _) as [_|N]; [reflexivity|exfalso; lra]. }
  rewrite IP.
  assert (SH : surface_hits 1 0 2 (mkv 0 (- (3 / 5)) 0) (mkv (- (1)) 0 0) = [surface_hit (mkv 0 (- (3 / 5)) 0) (mkv (- (1)) 0 0) (- (4 / 5)) true; surface_hit (mkv 0 (- (3 / 5)) 0) (mkv (- (1)) 0 0) (4 / 5) false]).
  { unfold surface_hits. assert (N0 : ~ 0 < 0) by lra. destruct (Rlt_dec 0 0) as [|_]; [contradiction|]. cbv zeta.
    assert (CAP : forall c e, test_cap (mkv 0 (- (3 / 5)) 0) (mkv (- (1)) 0 0) c (0 * 0) (1 * 1) e = []) by (intros c e; unfold test_cap; cbn [vz]; destruct (Req_EM_T 0 0); [reflexivity|contradiction]).
    rewrite !CAP. cbn [app]. unfold test_barrel. assert (UP : upright (mkv (- (1)) 0 0) = false) by (unfold upright; cbn [vx]; destruct (Req_EM_T (- (1)) 0); [lra|reflexivity]).
    rewrite UP. cbn [vx vy vz]. cbv zeta.
    replace ((- (1) * - (1) + 0 * 0) * (1 * 1) - (0 * 0 - - (3 / 5) * - (1)) * (0 * 0 - - (3 / 5) * - (1))) with (16 / 25) by field.
    replace (sqrt (16 / 25)) with (4 / 5) by (symmetry; apply sqrt_lem_1; lra). destruct (Rle_dec (16 / 25) 0) as [|_]; [lra|].
    replace ((- (0 * - (1) + - (3 / 5) * 0) - 4 / 5) * (1 / (- (1) * - (1) + 0 * 0))) with (- (4 / 5)) by field.
    replace ((- (0 * - (1) + - (3 / 5) * 0) + 4 / 5) * (1 / (- (1) * - (1) + 0 * 0))) with (4 / 5) by field.
    unfold barrel_hit. cbn [vx vy vz]. branch. reflexivity. }
  rewrite SH. cbn [map]. unfold surface_hit, snap. branch. cbn [isort fold_right insert snd h_distance]. branch. reflexivity.
Qed.
Print Assumptions C166_parallel_refuted.

(** A chord of a cylinder of height two, and a quarter turn around the second axis. *)
Example C166_case : clear_cylinder 1 0 1 (mkv 0 (3 / 5) 0) (mkv 1 0 0) /\ clear_wedge (PI / 4) (PI / 2) (mkv 0 (3 / 5) 0) (mkv 1 0 0) /\
  (forall t, on_wall 1 0 (on_line (mkv 0 (3 / 5) 0) (mkv 1 0 0) t) \/ on_lid 1 (on_line (mkv 0 (3 / 5) 0) (mkv 1 0 0) t) ->
     ~ on_face (PI / 4) (PI / 2) (on_line (mkv 0 (3 / 5) 0) (mkv 1 0 0) t)) /\
  in_wedge (PI / 4) (PI / 2) 0 (3 / 5).
Proof.
  pose proof PI_RGT_0 as PI0. set (q := / sqrt 2).
  assert (Q : 7 / 10 < q < 8 / 10).
  { assert (S2 : sqrt 2 * sqrt 2 = 2) by (apply sqrt_sqrt; lra). pose proof (sqrt_lt_R0 2 ltac:(lra)) as P. assert (5 / 4 < sqrt 2 < 10 / 7) as [A B] by nra.
    unfold q. split; [replace (7 / 10) with (/ (10 / 7)) by field|replace (8 / 10) with (/ (5 / 4)) by field]; apply Rinv_lt_contravar; nra. }
  assert (C0 : cos (PI / 4) = q) by (rewrite cos_PI4; unfold q, Rdiv; ring). assert (S0 : sin (PI / 4) = q) by (rewrite sin_PI4; unfold q, Rdiv; ring).
  assert (C1 : cos (PI / 4 + PI / 2) = - q) by (rewrite cos_plus, cos_PI2, sin_PI2, C0, S0; ring).
  assert (S1 : sin (PI / 4 + PI / 2) = q) by (rewrite sin_plus, cos_PI2, sin_PI2, C0, S0; ring).
  assert (W : forall t, on_wall 1 0 (on_line (mkv 0 (3 / 5) 0) (mkv 1 0 0) t) -> t = 4 / 5 \/ t = - (4 / 5)).
  { intros t [H|[H _]]; [|lra]. unfold radial in H. cbn in H. assert ((t - 4 / 5) * (t + 4 / 5) = 0) as Z by lra. apply Rmult_integral in Z. lra. }
  assert (L : forall t, ~ on_lid 1 (on_line (mkv 0 (3 / 5) 0) (mkv 1 0 0) t)).
  { intros t H. unfold on_lid in H. cbn in H. replace (0 + t * 0) with 0 in H by ring. rewrite Rabs_R0 in H. lra. }
  split; [|split; [|split]].
  - split.
    + cbn zeta. intros t u [A|A] [B|B] N; try (elim (L _ A)); try (elim (L _ B)). apply W in A. apply W in B. destruct A as [-> | ->], B as [-> | ->]; try lra; apart_abs.
    + intros t [A|A]; [|elim (L _ A)]. apply W in A. unfold precision. lra.
    + intros t A B. cbn in B. replace (0 + t * 0) with 0 in B by ring. rewrite Rabs_R0 in B. lra.
    + intros t A. elim (L _ A).
  - clearbody q. split; unfold across, along; intros a.
    + intros [-> | ->]; rewrite ?S0, ?C0, ?S1, ?C1; cbn; unfold precision, Rabs; destruct (Rcase_abs _); lra.
    + intros t [-> | ->]; rewrite ?S0, ?C0, ?S1, ?C1; cbn; intros H.
      * assert (t = 3 / 5) as -> by nra. unfold precision, Rabs. destruct (Rcase_abs _); lra.
      * assert (t = - (3 / 5)) as -> by nra. unfold precision, Rabs. destruct (Rcase_abs _); lra.
    + intros t [-> | ->]; rewrite ?S0, ?C0, ?S1, ?C1; cbn; intros H; unfold precision; [assert (t = 3 / 5) by nra|assert (t = - (3 / 5)) by nra]; lra.
  - clearbody q. intros t [A|A]; [|elim (L _ A)]. apply W in A. unfold on_face, across, along. rewrite S0, C0, S1, C1. cbn. destruct A as [-> | ->]; lra.
  - exists (3 / 5), (PI / 4). split; [lra|]. split; [lra|]. replace (PI / 4 + PI / 4) with (PI / 2) by field. rewrite cos_PI2, sin_PI2. split; ring.
Qed.
