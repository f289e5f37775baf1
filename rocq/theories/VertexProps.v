(** C18, C19 and C59: positions along the path and the probabilities used when weighting. *)
From Coquelicot Require Import Coquelicot.
From Coq Require Import Reals Lra Bool.
From Verif Require Import VectorModel QuatModel QuatSpec QuatProofs QuatPlace VertexModel VertexSpec VertexBounds VertexProofs.
Open Scope R_scope.

(** * C18: the depth of the vertex *)

(** The map from the variate to the depth is one to one, in order and onto [0, T]. *)
Theorem C18_bijection : forall T, 0 < T -> onto_interval (traversed_depth T) T.
Proof. exact depth_onto. Qed.
Print Assumptions C18_bijection.

(** From 1e-6 on, its law is the exponential one cut at T, exactly. *)
Theorem C18_law : forall T, 1 / 1000000 <= T -> has_density (traversed_depth T) (truncated_exponential T).
Proof. exact depth_density_exact. Qed.
Print Assumptions C18_law.

(** Below 1e-6 the depth is drawn uniformly; the distribution function of the exact law at the
    depth drawn is then the variate up to the relative error 1e-6. *)
Theorem C18_law_tiny : forall T y, 0 < T < 1 / 1000000 -> 0 < y <= 1 ->
  y <= (1 - exp (- traversed_depth T y)) / (1 - exp (- T)) <= y * (1 + 1 / 1000000).
Proof. exact depth_small. Qed.
Print Assumptions C18_law_tiny.

(** So below 1e-6 the law is not exactly the truncated exponential one. *)
Theorem C18_law_tiny_refuted : exists T y, 0 < T /\ 0 <= y <= 1 /\
  (1 - exp (- traversed_depth T y)) / (1 - exp (- T)) <> y.
Proof.
  set (T := 1 / 2000000). exists T, (1 / 2). assert (HT : 0 < T) by (unfold T; lra).
  split; [exact HT|]. split; [lra|]. unfold traversed_depth. destruct (Rlt_dec T (1 / 1000000)) as [_|H]; [|unfold T in H; lra].
  pose proof (exp_minus_lt1 (1 / 2 * T) ltac:(lra)) as He.
  replace (exp (- T)) with (exp (- (1 / 2 * T)) * exp (- (1 / 2 * T))) by (rewrite <- exp_plus; f_equal; field).
  set (q := exp (- (1 / 2 * T))) in *. intro E.
  assert (E2 : 1 - q = 1 / 2 * (1 - q * q)).
  { rewrite <- E. field. nra. }
  nra.
Qed.
Print Assumptions C18_law_tiny_refuted.

(** The density used when weighting is that of the depth drawn, up to a constant factor within
    2e-9 of one; the factor is one outside the two series. *)
Theorem C18_density : forall T, 0 < T -> exists k,
  Rabs (k - 1) <= 2 / 1000000000 /\ (T < 1 / 1000000 \/ 1 / 10 <= T <= 3 -> k = 1) /\
  forall y, 0 <= y <= 1 -> is_RInt (fun t => position_density 1 T t) 0 (traversed_depth T y) (k * y).
Proof.
  intros T HT. exists (density_factor T). split; [now apply factor_bound|]. split.
  - intros [H|H]; [|now apply factor_middle]. unfold density_factor. destruct (Rlt_dec T (1 / 1000000)); [auto|lra].
  - now apply depth_density_used.
Qed.
Print Assumptions C18_density.

(** The same in terms of the position: [mu] is the interaction density along the path and [tau]
    the depth, and [s] is the place where the depth drawn is reached. *)
Theorem C18_position : forall (mu tau : R -> R) T len, 0 < T -> 0 <= len ->
  (forall s, 0 <= s <= len -> is_derive tau s (mu s)) -> (forall s, 0 <= s <= len -> continuous mu s) -> tau 0 = 0 ->
  exists k, Rabs (k - 1) <= 2 / 1000000000 /\
  forall s, 0 <= s <= len -> forall y, 0 <= y <= 1 -> tau s = traversed_depth T y ->
  is_RInt (fun s => position_density (mu s) T (tau s)) 0 s (k * y).
Proof.
  intros mu tau T len HT Hl Hd Hc H0. exists (density_factor T). split; [now apply factor_bound|].
  exact (position_along mu tau T len HT Hl Hd Hc H0).
Qed.
Print Assumptions C18_position.

(** From a vertex drawn by the column-depth distribution the generation probability finds the same
    path and the same depths, and gives the density above over the area of the disk. *)
Theorem C18_generation : forall trim depth reach mu radius endcap u w y direction,
  direction <> mkv 0 0 0 -> 0 < radius -> 0 <= w < 1 -> 0 <= y <= 1 ->
  let dir := vnormalized direction in
  let '(first, len) := path_of trim endcap (sample_disk radius u w dir) dir in
  let T := depth first dir len in
  0 < T ->
  (forall t, 0 <= t <= T -> 0 <= reach first dir t <= len /\ depth first dir (reach first dir t) = t) ->
  let vertex := point_at first dir (reach first dir (traversed_depth T y)) in
  depth_sample trim depth reach radius endcap u w y direction = Some (first, vertex) /\
  depth_generation trim depth mu radius endcap direction vertex =
  position_density (mu vertex) T (traversed_depth T y) / (PI * radius * radius).
Proof. exact depth_recovered. Qed.
Print Assumptions C18_generation.

(** ** Cases *)

Example C18_case : traversed_depth (ln 4) (2 / 3) = ln 2.
Proof.
  unfold traversed_depth. destruct (Rlt_dec (ln 4) (1 / 1000000)) as [H|H].
  - exfalso. assert (1 <= ln 4); [|lra]. rewrite <- (ln_exp 1) at 1. apply ln_mono; [apply exp_pos|].
    pose proof exp_le_3. lra.
  - cbv zeta. rewrite exp_Ropp, exp_ln by lra. replace (2 / 3 * / 4 + (1 - 2 / 3)) with (/ 2) by field.
    rewrite ln_Rinv by lra. ring.
Qed.

Example C18_position_case :
  (forall s, 0 <= s <= 3 -> is_derive (fun s => s * s + s) s (2 * s + 1)) /\
  (forall s, 0 <= s <= 3 -> continuous (fun s => 2 * s + 1) s).
Proof.
  split; intros s _; [auto_derive; auto; ring|].
  apply (ex_derive_continuous (fun s => 2 * s + 1) s). auto_derive; auto.
Qed.

(** Uniform matter of density 1/2 per metre, a path of twice the endcap length. *)
Example C18_generation_case :
  let trim := fun _ _ : vec => (0, 20) in
  let depth := fun (_ _ : vec) d => d / 2 in
  let reach := fun (_ _ : vec) t => 2 * t in
  mkv 3 0 4 <> mkv 0 0 0 /\
  (let '(first, len) := path_of trim 10 (sample_disk 5 (1 / 4) (1 / 2) (vnormalized (mkv 3 0 4))) (vnormalized (mkv 3 0 4)) in
   0 < depth first (vnormalized (mkv 3 0 4)) len /\
   forall t, 0 <= t <= depth first (vnormalized (mkv 3 0 4)) len ->
   0 <= reach first (vnormalized (mkv 3 0 4)) t <= len /\ depth first (vnormalized (mkv 3 0 4)) (reach first (vnormalized (mkv 3 0 4)) t) = t).
Proof.
  cbn. split; [intros E; injection E; lra|]. split; [lra|]. intros t Ht. split; [lra|field].
Qed.

(** * C19: 1 - exp(-x) and its logarithm *)

(** The value is never above the exact one and at most 1e-11 of it below. *)
Theorem C19_one_minus_exp : forall x, 0 < x ->
  approx (1 / 100000000000) (one_minus_exp x) (1 - exp (- x)) /\ 0 < one_minus_exp x <= 1 - exp (- x).
Proof.
  intros x Hx. pose proof (exp_minus_lt1 x Hx). destruct (one_minus_exp_bounds x Hx) as [A B].
  split; [|split; [|exact B]].
  - unfold approx. rewrite Rabs_left1 by lra. rewrite Rabs_pos_eq by lra. lra.
  - apply Rlt_le_trans with (2 := A). apply Rmult_lt_0_compat; lra.
Qed.
Print Assumptions C19_one_minus_exp.

(** The relative error of the logarithm is below 1e-8, the absolute one below 1e-9. *)
Theorem C19_log : forall x, 0 < x ->
  approx (1 / 100000000) (log_one_minus_exp x) (ln (1 - exp (- x))) /\
  Rabs (log_one_minus_exp x - ln (1 - exp (- x))) <= 1 / 1000000000.
Proof. intros x Hx. split; [now apply log_bounds|now apply log_abs]. Qed.
Print Assumptions C19_log.

(** The two series by themselves: the first is below, the second above the exact value, with
    errors of the order of the first omitted term. *)
Theorem C19_series :
  (forall x, 0 < x <= 1 / 10 -> 0 <= ln (1 - exp (- x)) - small_series x <= x ^ 6 / 115200) /\
  (forall x, 3 < x -> 0 <= large_series x - ln (1 - exp (- x)) <= exp (- x) ^ 7 / (7 * (1 - exp (- x)))).
Proof. split; [exact small_error|]. intros x Hx. exact (proj2 (large_error x Hx)). Qed.
Print Assumptions C19_series.

(** The interaction probability is a probability, and within 1e-6 of the exact one. *)
Theorem C19_interaction : forall T, 0 <= T ->
  approx (1 / 1000000) (interaction_probability T) (1 - exp (- T)) /\ 0 <= interaction_probability T <= 1.
Proof. exact interaction_bounds. Qed.
Print Assumptions C19_interaction.

(** So is the survival probability, which is its complement: clipping it changes nothing. *)
Theorem C19_survival : forall T, 0 <= T ->
  0 <= survival_probability T <= 1 /\ survival_probability T = 1 - interaction_probability T /\
  Rabs (survival_probability T - exp (- T)) <= 1 / 1000000.
Proof. exact survival_bounds. Qed.
Print Assumptions C19_survival.

(** Even of a depth that is negative by rounding the survival probability is a probability. *)
Theorem C19_survival_clipped : forall T, 0 <= survival_probability T <= 1.
Proof.
  intros T. unfold survival_probability. cbv zeta. destruct (Rlt_dec (1 - interaction_probability T) 0).
  - destruct (Rlt_dec 1 0); lra.
  - destruct (Rlt_dec 1 (1 - interaction_probability T)); lra.
Qed.
Print Assumptions C19_survival_clipped.

(** At a thousandth the exact value lies between 0.0009995 and 0.001: the bound leaves eleven
    digits of it. *)
Example C19_case : 9994 / 10000000 <= one_minus_exp (1 / 1000) <= 1 / 1000.
Proof.
  destruct (one_minus_exp_bounds (1 / 1000) ltac:(lra)) as [A B].
  pose proof (exp_minus_high (1 / 1000) ltac:(lra)). pose proof (exp_minus_low (1 / 1000) ltac:(lra)). lra.
Qed.

(** * C59: decay in flight *)

Theorem C59_bijection : forall L D, 0 < L -> 0 < D -> onto_interval (decay_distance L D) D.
Proof. exact decay_onto. Qed.
Print Assumptions C59_bijection.

Theorem C59_density : forall L D, 0 < L -> 0 < D -> has_density (decay_distance L D) (decay_density L D).
Proof. exact decay_has_density. Qed.
Print Assumptions C59_density.

(** Its total over the path is one. *)
Theorem C59_total : forall L D, 0 < L -> 0 < D -> is_RInt (decay_density L D) 0 D 1.
Proof.
  intros L D HL HD. pose proof (decay_has_density L D HL HD 1 ltac:(lra)) as H.
  rewrite (oi_end _ _ (decay_onto L D HL HD)) in H. exact H.
Qed.
Print Assumptions C59_total.

(** The generation probability of a vertex drawn is the density at the distance drawn over the
    area of the disk. *)
Theorem C59_generation : forall trim radius endcap L u w y direction,
  direction <> mkv 0 0 0 -> 0 < radius -> 0 < L -> 0 <= w < 1 -> 0 <= y <= 1 ->
  let dir := vnormalized direction in
  let '(first, len) := path_of trim endcap (sample_disk radius u w dir) dir in
  0 < len ->
  decay_sample trim radius endcap L u w y direction = (first, point_at first dir (decay_distance L len y)) /\
  decay_generation trim radius endcap L direction (snd (decay_sample trim radius endcap L u w y direction)) =
  decay_density L len (decay_distance L len y) / (PI * radius * radius).
Proof. exact decay_recovered. Qed.
Print Assumptions C59_generation.

(** The disk: the point is in the plane through the origin across the direction, and the square
    of its distance is uniform, as it is for a uniform point of the disk. *)
Theorem C59_disk : forall radius u w dir, 0 < radius -> 0 <= w -> vdot dir dir = 1 ->
  vdot dir (sample_disk radius u w dir) = 0 /\
  vdot (sample_disk radius u w dir) (sample_disk radius u w dir) = radius * radius * w.
Proof. exact disk_geometry. Qed.
Print Assumptions C59_disk.

(** Outside the cylinder the generation probability is zero. *)
Theorem C59_outside : forall trim radius endcap L direction v,
  radius <= vmag (closest (vnormalized direction) v) -> decay_generation trim radius endcap L direction v = 0.
Proof. exact decay_outside. Qed.
Print Assumptions C59_outside.

(** Along the path it is not: a vertex half a millimetre before the start of the path, where none
    is ever drawn, still has a positive density: the test along the path allows a millimetre. *)
Theorem C59_before_refuted : exists trim radius endcap L direction v,
  0 < radius /\ 0 < L /\ direction <> mkv 0 0 0 /\
  (forall u w y, 0 <= w < 1 -> 0 <= y <= 1 -> snd (decay_sample trim radius endcap L u w y direction) <> v) /\
  0 < decay_generation trim radius endcap L direction v.
Proof.
  set (trim := fun _ _ : vec => (0, 20)). set (z := mkv 0 0 1). set (v := mkv 0 0 (-10 - 1 / 2000)).
  assert (N : z <> mkv 0 0 0) by (intro E; injection E; lra).
  assert (Uz : vdot z z = 1) by (unfold vdot; cbn; ring).
  assert (EN : vnormalized z = z) by (apply normalized_of_unit; exact Uz).
  exists trim, 1, 10, 1, z, v. split; [lra|]. split; [lra|]. split; [auto|]. split.
  - intros u w y Hw Hy E.
    pose proof (decay_recovered trim 1 10 1 u w y z N ltac:(lra) ltac:(lra) Hw Hy) as H.
    cbv zeta in H. rewrite EN in H. unfold path_of in H. change (trim (sample_disk 1 u w z) z) with (0, 20) in H.
    cbv beta iota in H. destruct H as [H _]; [lra|]. rewrite H in E. cbn [snd] in E.
    destruct (disk_geometry 1 u w z ltac:(lra) (proj1 Hw) Uz) as [P _].
    set (pca := sample_disk 1 u w z) in *. pose proof (decay_range 1 20 y ltac:(lra) ltac:(lra) Hy) as R.
    assert (vz pca = 0) by (unfold vdot in P; cbn in P; lra).
    apply (f_equal vz) in E. unfold point_at in E. cbn in E. lra.
  - unfold decay_generation. rewrite EN. replace (closest z v) with (mkv 0 0 0) by (unfold closest, vdot, z, v, vsub, vscale; cbn; f_equal; ring).
    destruct (Rle_dec 1 (vmag (mkv 0 0 0))) as [H|_].
    { exfalso. unfold vmag in H. cbn in H. replace (0 * 0 + 0 * 0 + 0 * 0) with 0 in H by ring. rewrite sqrt_0 in H. lra. }
    unfold path_of, trim. 
    match goal with |- context [negb ?b] => replace b with true end.
    + cbn [negb]. apply Rdiv_lt_0_compat.
      * unfold decay_density. apply Rdiv_lt_0_compat; [apply exp_pos|].
        replace (- (20) / 1) with (- (20)) by field. pose proof (exp_minus_lt1 20 ltac:(lra)). lra.
      * pose proof PI_RGT_0. nra.
    + symmetry. unfold within_bounds, vdot. cbn.
      destruct (Rlt_dec 0 _) as [A|A]; [|lra]. destruct (Rlt_dec _ (1 / 1000)) as [B|B]; [|lra].
      destruct (Rlt_dec _ 0) as [C|C]; [lra|]. destruct (Rle_dec 0 0); [|lra].
      match goal with |- context [Rle_dec 0 ?x] => destruct (Rle_dec 0 x) end; [auto|lra].
Qed.
Print Assumptions C59_before_refuted.

(** ** Cases *)

Example C59_case : decay_distance 5 (5 * ln 4) (2 / 3) = 5 * ln 2.
Proof.
  unfold decay_distance. replace (- (5 * ln 4) / 5) with (- ln 4) by field. rewrite exp_Ropp, exp_ln by lra.
  replace (2 / 3 * (/ 4 - 1) + 1) with (/ 2) by field. rewrite ln_Rinv by lra. ring.
Qed.

Example C59_generation_case :
  mkv 3 0 4 <> mkv 0 0 0 /\
  (let '(first, len) := path_of (fun _ _ : vec => (-7, 20)) 10 (sample_disk 5 (1 / 4) (1 / 2) (vnormalized (mkv 3 0 4))) (vnormalized (mkv 3 0 4)) in 0 < len).
Proof. cbn. split; [intros E; injection E; lra|lra]. Qed.
