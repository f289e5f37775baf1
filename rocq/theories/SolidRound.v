(** The lists of crossings of ellipsoids and cylinders. *)
From Coq Require Import Reals Lra Lia List Bool Permutation Sorted Arith.
From Verif Require Import VectorModel GeometryModel GeometrySpec SolidModel SolidSpec SolidProofs SolidShapes.
Import ListNotations.
Open Scope R_scope.

Lemma snap_same t : ~ 0 < t < precision -> snap t = t.
Proof. intros N. unfold snap. destruct (Rlt_dec 0 t); auto. destruct (Rlt_dec t precision); auto. tauto. Qed.
Lemma prec_pos : 0 < precision.
Proof. unfold precision. lra. Qed.
Lemma slab_switch_place p d z1 z2 t e : slab_switch p d z1 z2 t e -> p + t * d = z1 \/ p + t * d = z2.
Proof. intros (N & [[-> _]|[-> _]]); [left|right]; field; auto. Qed.

(** ** Ellipsoids *)
Section Ellipsoid.
Context (a b c z1 z2 : R) (p d : vec) (Ha : 0 < a) (Hb : 0 < b) (Hc : 0 < c) (Hz : z1 < z2) (Hd : d <> mkv 0 0 0) (K : clear_ellipsoid a b c z1 z2 p d).
Let ia := 1 / (a * a).
Let ib := 1 / (b * b).
Let ic := 1 / (c * c).
Let A := vx d * vx d * ia + vy d * vy d * ib + vz d * vz d * ic.
Let B := vx p * vx d * ia + vy p * vy d * ib + vz p * vz d * ic.
Let C := vx p * vx p * ia + vy p * vy p * ib + vz p * vz p * ic - 1.
Let O t := A * t * t + 2 * B * t + C < 0.
Let Z t := z1 <= vz p + t * vz d <= z2.
Lemma ell_level q : level ia ib ic q = quadric a b c q.
Proof. unfold level, quadric, ia, ib, ic. field. lra. Qed.
Lemma ell_quad t : quadric a b c (on_line p d t) - 1 = A * t * t + 2 * B * t + C.
Proof. unfold quadric, on_line, A, B, C, ia, ib, ic. cbn. field. lra. Qed.
Lemma ell_A : 0 < A.
Proof.
  assert (0 < ia /\ 0 < ib /\ 0 < ic) as (X & Y & W) by (unfold ia, ib, ic; repeat split; apply Rdiv_lt_0_compat; nra).
  assert (F : forall u w, 0 < w -> 0 <= u * u * w /\ (u <> 0 -> 0 < u * u * w)).
  { intros u w Q. assert (0 <= u * u) by nra. split; [apply Rmult_le_pos; lra|]. intros N. apply Rmult_lt_0_compat; auto. nra. }
  unfold A. destruct (F (vx d) ia X) as [F1 G1], (F (vy d) ib Y) as [F2 G2], (F (vz d) ic W) as [F3 G3].
  destruct (vec_nonzero d Hd) as [N|[N|N]]; [pose proof (G1 N)|pose proof (G2 N)|pose proof (G3 N)]; lra.
Qed.
Lemma ell_inside t : in_ellipsoid a b c z1 z2 (on_line p d t) <-> O t /\ Z t /\ ~ False.
Proof. unfold in_ellipsoid. pose proof (ell_quad t). unfold O, Z. cbn. split; [intros [X Y]; repeat split; lra|intros (X & Y & _); split; lra]. Qed.
Lemma ell_zero t e : quad_switch A B C t e -> quadric a b c (on_line p d t) = 1.
Proof.
  intros (HA & HD & H). pose proof (ell_quad t). enough (A * t * t + 2 * B * t + C = 0) by lra. apply (par_zero A B C HA HD). destruct H as [[-> _]|[-> _]]; auto.
Qed.
Lemma ell_apart t e f : quad_switch A B C t e -> ~ slab_switch (vz p) (vz d) z1 z2 t f.
Proof.
  intros H L. apply ell_zero in H. apply slab_switch_place in L. pose proof (ce_surface _ _ _ _ _ _ _ K t H) as [W1 W2]. cbn in W1, W2. pose proof prec_pos.
  destruct L as [L|L]; rewrite L in *; lra.
Qed.
Lemma ell_root_piece t (e : bool) : quadric a b c (on_line p d t) = 1 -> (if e then A * t + B < 0 else 0 < A * t + B) ->
  piece (ellipsoid_root ia ib ic z1 z2 p d t) (Z t /\ ~ False) (hit_at p d t e).
Proof.
  intros E S. unfold ellipsoid_root. rewrite snap_same by (apply (ce_ahead _ _ _ _ _ _ _ K); auto). rewrite point_line. cbn zeta.
  pose proof (ce_surface _ _ _ _ _ _ _ K t E) as [W W']. cbn zeta in W, W'. pose proof prec_pos as P.
  replace (vx (on_line p d t) * ia * vx d + vy (on_line p d t) * ib * vy d + vz (on_line p d t) * ic * vz d) with (A * t + B) by (unfold A, B; cbn; ring).
  assert (G : Z t <-> z1 <= vz (on_line p d t) <= z2) by (cbn; reflexivity).
  destruct (Rle_dec _ _) as [L|L]; [destruct (Rle_dec _ _) as [L'|L']|].
  - left. split; [split; auto; apply (proj2 G); lra|]. unfold hit_at. destruct (Rlt_dec (A * t + B) 0), e; auto; lra.
  - right. split; auto. intros [X _]. apply (proj1 G) in X. lra.
  - right. split; auto. intros [X _]. apply (proj1 G) in X. lra.
Qed.
Lemma ell_cut_piece z e : precision < Rabs (vz d) -> z = z1 \/ z = z2 -> piece (ellipsoid_cut ia ib ic z p d e) (O ((z - vz p) / vz d) /\ ~ False) (hit_at p d ((z - vz p) / vz d) e).
Proof.
  intros N H. unfold ellipsoid_cut. destruct (Rlt_dec precision (Rabs (vz d))) as [_|X]; [|contradiction].
  pose proof prec_pos as P. assert (vz d <> 0) by (intros E; rewrite E, Rabs_R0 in N; lra).
  set (t := (z - vz p) / vz d). assert (E : vz (on_line p d t) = z) by (unfold t; cbn; field; auto).
  assert (L : on_cut z1 z2 (on_line p d t)) by (unfold on_cut; rewrite E; auto). pose proof (ce_cut _ _ _ _ _ _ _ K t L) as W. pose proof (ell_quad t) as Q.
  rewrite snap_same by (apply (ce_ahead _ _ _ _ _ _ _ K); auto). rewrite point_line, ell_level.
  destruct (Rle_dec _ _) as [X|X].
  - left. split; [unfold O; split; [lra|auto]|]. reflexivity.
  - right. split; auto. unfold O. intros [Y _]. lra.
Qed.

Lemma ell_ok sort : sorts sort -> traces (fun t => in_ellipsoid a b c z1 z2 (on_line p d t)) (ellipsoid_hits sort a b c z1 z2 p d) /\
  positioned p d (ellipsoid_hits sort a b c z1 z2 p d).
Proof.
  intros HS. pose proof prec_pos as P. pose proof ell_A as HA.
  assert (SO : switched O (quad_switch A B C)) by (apply quad_switched; auto).
  assert (SZ : switched Z (slab_switch (vz p) (vz d) z1 z2)) by (apply slab_switched; lra).
  unfold ellipsoid_hits. fold ia ib ic. cbn zeta. fold A. set (sh := - (vx p * vx d + vy p * vy d + vz p * vz d)).
  replace (vx (point_at p d sh) * vx d * ia + vy (point_at p d sh) * vy d * ib + vz (point_at p d sh) * vz d * ic) with (B + A * sh) by (unfold A, B; cbn; ring).
  replace (level ia ib ic (point_at p d sh) - 1) with (A * sh * sh + 2 * B * sh + C) by (unfold level, A, B, C; cbn; ring).
  replace ((B + A * sh) * (B + A * sh) - A * (A * sh * sh + 2 * B * sh + C)) with (B * B - A * C) by ring.
  match goal with |- context [sort hit h_distance (?x ++ ?y)] => set (lo := x); set (lz := y) end.
  assert (Co : covers p d lo (quad_switch A B C) (fun t => Z t /\ ~ False)).
  { unfold lo. destruct (Rle_dec 0 (B * B - A * C)) as [HD'|HD]; [|apply covers_nil; intros t e (_ & X & _); lra].
    assert (HD : 0 < B * B - A * C).
    { destruct HD' as [|E]; auto. exfalso. set (r := - B * (1 / A)).
      assert (F : forall t, A * t * t + 2 * B * t + C = A * ((t - r) * (t - r))).
      { intros t. replace C with (B * B / A) by (apply Rmult_eq_reg_l with A; [field_simplify; lra|lra]). unfold r. field. lra. }
      destruct (ce_touch _ _ _ _ _ _ _ K r) as (u & U1 & U2).
      - pose proof (ell_quad r) as Q. rewrite F in Q. replace (r - r) with 0 in Q by ring. lra.
      - pose proof (ell_quad u) as Q. rewrite F in Q. assert (0 < (u - r) * (u - r)) by nra. nra. }
    replace ((- (B + A * sh) - sqrt (B * B - A * C)) * (1 / A) + sh) with ((- B - sqrt (B * B - A * C)) * (1 / A)) by (field; lra).
    replace ((- (B + A * sh) + sqrt (B * B - A * C)) * (1 / A) + sh) with ((- B + sqrt (B * B - A * C)) * (1 / A)) by (field; lra).
    pose proof (par_lt A B C HA HD) as L.
    apply (covers_two p d _ _ _ _ ((- B - sqrt (B * B - A * C)) * (1 / A)) ((- B + sqrt (B * B - A * C)) * (1 / A)) true false); [lra| | |].
    - intros t e. unfold quad_switch. tauto.
    - apply ell_root_piece; [|apply (par_slope1 A B C HA HD)]. apply (ell_zero _ true). repeat split; auto.
    - apply ell_root_piece; [|apply (par_slope2 A B C HA HD)]. apply (ell_zero _ false). repeat split; auto. }
  assert (Cz : covers p d lz (slab_switch (vz p) (vz d) z1 z2) (fun t => O t /\ ~ False)).
  { unfold lz. destruct (ce_level _ _ _ _ _ _ _ K) as [E|HP].
    - unfold ellipsoid_cut. rewrite E, Rabs_R0. destruct (Rlt_dec precision 0); [lra|]. apply covers_nil. intros t e [X _]. contradiction.
    - assert (N : vz d <> 0) by (intros E; rewrite E, Rabs_R0 in HP; lra).
      apply (covers_two p d _ _ _ _ ((z1 - vz p) / vz d) ((z2 - vz p) / vz d) (if Rlt_dec 0 (vz d) then true else false) (if Rlt_dec (vz d) 0 then true else false)).
      + intros E. apply (f_equal (fun x => x * vz d)) in E. field_simplify in E; auto. lra.
      + intros t e. unfold slab_switch. tauto.
      + apply ell_cut_piece; auto.
      + apply ell_cut_piece; auto. }
  destruct (quad_far A B C HA) as [m M'].
  assert (M : forall t, m < Rabs t -> ~ (O t /\ Z t /\ ~ False)) by (intros t T [X _]; apply (M' t T X)).
  assert (Ci : covers p d [] (fun _ _ => False) (fun t => Z t /\ O t)) by (apply covers_nil; tauto).
  pose proof (whole_nodup p d O Z (fun _ => False) _ _ (fun _ _ => False) ell_apart ltac:(tauto) ltac:(tauto) lo lz [] Co Cz Ci) as ND.
  rewrite app_nil_r in ND. pose proof (sorted_strict sort (lo ++ lz) HS ND) as ST.
  assert (D : dedup None (sort hit h_distance (lo ++ lz)) = sort hit h_distance (lo ++ lz)).
  { apply dedup_same; auto; [|intros x [=]].
    assert (Q : forall h, In h (sort hit h_distance (lo ++ lz)) -> quadric a b c (on_line p d (h_distance h)) = 1 \/ on_cut z1 z2 (on_line p d (h_distance h))).
    { intros h H. apply (Permutation_in _ (proj1 (HS hit h_distance (lo ++ lz)))) in H. apply in_app_iff in H as [H|H].
      - apply Co in H as (t & e & -> & H & _). left. apply (ell_zero _ _ H).
      - apply Cz in H as (t & e & -> & H & _). right. apply (slab_switch_place _ _ _ _ _ _ H). }
    intros x y X Y N. apply (ce_apart _ _ _ _ _ _ _ K); auto. }
  rewrite D.
  destruct (whole_traces p d O Z (fun _ => False) _ _ (fun _ _ => False) SO SZ switched_never ell_apart ltac:(tauto) ltac:(tauto) lo lz [] Co Cz Ci m M (sort hit h_distance (lo ++ lz))) as [X Y]; auto.
  - rewrite app_nil_r. apply HS.
  - split; auto. eapply traces_ext; [|exact X]. intros t. cbn. rewrite ell_inside. tauto.
Qed.
End Ellipsoid.

(** ** Cylinders *)
Section Cylinder.
Context (r i h : R) (p d : vec) (Hi : 0 <= i) (Hr : i < r) (Hh : 0 < h) (Hd : d <> mkv 0 0 0) (K : clear_cylinder r i h p d).
Let A := vx d * vx d + vy d * vy d.
Let B := vx p * vx d + vy p * vy d.
Let C s := vx p * vx p + vy p * vy p - s * s.
Let O t := A * t * t + 2 * B * t + C r < 0.
Let Z t := - h <= vz p + t * vz d <= h.
Let I t := 0 < i /\ A * t * t + 2 * B * t + C i < 0.
Let si t e := 0 < i /\ quad_switch A B (C i) t e.
Lemma cyl_quad s t : radial (on_line p d t) - s * s = A * t * t + 2 * B * t + C s.
Proof. unfold radial, on_line, A, B, C. cbn. ring. Qed.
Lemma cyl_A : (0 < A /\ upright d = false) \/ (A = 0 /\ B = 0 /\ upright d = true /\ vz d <> 0).
Proof.
  unfold upright. pose proof (vec_nonzero d Hd) as V. unfold A, B. destruct (Req_EM_T (vx d) 0) as [E|E]; [destruct (Req_EM_T (vy d) 0) as [F|F]|].
  - right. rewrite E, F. repeat split; try ring. tauto.
  - left. split; auto. nra.
  - left. split; auto. nra.
Qed.
Lemma cyl_inside t : in_cylinder r i h (on_line p d t) <-> O t /\ Z t /\ ~ I t.
Proof.
  unfold in_cylinder. pose proof (cyl_quad r t). pose proof (cyl_quad i t). rewrite abs_le. unfold O, Z, I. cbn [vz on_line vadd vscale].
  split.
  - intros (X & Y & W). split; [lra|]. split; [exact W|]. intros [Q1 Q2]. specialize (Y Q1). lra.
  - intros (X & Y & W). split; [lra|]. split; [|exact Y]. intros Q. destruct (Rle_lt_dec (i * i) (radial (on_line p d t))); auto. elim W. split; auto. lra.
Qed.
Lemma cyl_zero s t e : quad_switch A B (C s) t e -> radial (on_line p d t) = s * s.
Proof.
  intros (HA & HD & H). pose proof (cyl_quad s t). enough (A * t * t + 2 * B * t + C s = 0) by lra. apply (par_zero A B (C s) HA HD). destruct H as [[-> _]|[-> _]]; auto.
Qed.
Lemma cyl_lid t e : slab_switch (vz p) (vz d) (- h) h t e -> on_lid h (on_line p d t).
Proof. intros H. apply slab_switch_place in H. unfold on_lid. cbn. destruct H as [-> | ->]; [rewrite Rabs_Ropp|]; rewrite Rabs_right; lra. Qed.
Lemma cyl_d1 t e f : quad_switch A B (C r) t e -> ~ slab_switch (vz p) (vz d) (- h) h t f.
Proof. intros H L. apply cyl_zero in H. apply cyl_lid in L. pose proof (cc_lid _ _ _ _ _ K t L) as [W _]. pose proof prec_pos. cbn in W. apply W. lra. Qed.
Lemma cyl_d2 t e f : quad_switch A B (C r) t e -> ~ si t f.
Proof. intros H [L1 L2]. apply cyl_zero in H. apply cyl_zero in L2. nra. Qed.
Lemma cyl_d3 t e f : slab_switch (vz p) (vz d) (- h) h t e -> ~ si t f.
Proof. intros L [H1 H]. apply cyl_zero in H. apply cyl_lid in L. pose proof (cc_lid _ _ _ _ _ K t L) as [_ W]. pose proof prec_pos. cbn in W. apply (W H1). lra. Qed.

Lemma barrel_piece s t (e inv : bool) : radial (on_line p d t) = s * s -> on_wall r i (on_line p d t) -> (if e then A * t + B < 0 else 0 < A * t + B) ->
  piece (barrel_hit h p d inv t) (Z t) (hit_at p d t (if inv then negb e else e)).
Proof.
  intros E W S. unfold barrel_hit. pose proof (cc_wall _ _ _ _ _ K t W) as Q. pose proof prec_pos as P. unfold surface_hit. rewrite point_line.
  replace ((vx p + t * vx d) * vx d + (vy p + t * vy d) * vy d) with (A * t + B) by (unfold A, B; ring). cbn zeta.
  assert (G : Rabs (vz p + t * vz d) <= h <-> Z t) by (rewrite abs_le; reflexivity). cbn in Q.
  assert (G' : ~ h <= Rabs (vz p + t * vz d) <= h + precision) by exact Q.
  rewrite snap_same by (apply (cc_ahead _ _ _ _ _ K); auto).
  destruct (Rlt_dec _ _) as [L|L]; [destruct (Rlt_dec _ _) as [L'|L']|].
  - left. split; [|unfold hit_at; destruct (Rlt_dec (A * t + B) 0), e; auto; lra]. apply G. revert G' L L'. unfold Rabs. destruct (Rcase_abs _); lra.
  - right. split; auto. intros X. unfold Z in X. lra.
  - right. split; auto. intros X. unfold Z in X. lra.
Qed.
Lemma barrel_covers s inv (T : R -> Prop) : (0 < s) -> (forall t, radial (on_line p d t) = s * s -> on_wall r i (on_line p d t)) ->
  (forall t, radial (on_line p d t) = s * s -> (T t <-> Z t)) ->
  covers p d (test_barrel h p d (s * s) inv) (fun t e => quad_switch A B (C s) t (if inv then negb e else e)) T.
Proof.
  intros S W TZ. unfold test_barrel. cbn zeta. fold A B.
  replace (A * (s * s) - (vx p * vy d - vy p * vx d) * (vx p * vy d - vy p * vx d)) with (B * B - A * C s) by (unfold A, B, C; ring).
  destruct cyl_A as [[HA ->]|(HA & _ & -> & _)]; [|apply covers_nil; intros t e [X _]; lra].
  destruct (Rle_dec (B * B - A * C s) 0) as [HD'|HD']; [apply covers_nil; intros t e (_ & X & _); lra|]. assert (HD : 0 < B * B - A * C s) by lra.
  pose proof (par_lt A B (C s) HA HD) as L.
  assert (Z1 : radial (on_line p d ((- B - sqrt (B * B - A * C s)) * (1 / A))) = s * s) by (apply (cyl_zero s _ true); repeat split; auto).
  assert (Z2 : radial (on_line p d ((- B + sqrt (B * B - A * C s)) * (1 / A))) = s * s) by (apply (cyl_zero s _ false); repeat split; auto).
  pose proof (par_slope1 A B (C s) HA HD) as P1. pose proof (par_slope2 A B (C s) HA HD) as P2.
  apply (covers_two p d _ _ _ _ ((- B - sqrt (B * B - A * C s)) * (1 / A)) ((- B + sqrt (B * B - A * C s)) * (1 / A)) (if inv then false else true) (if inv then true else false)); [lra| | |].
  - intros t e. unfold quad_switch. destruct inv, e; cbn; intuition (try discriminate; auto).
  - destruct (barrel_piece s _ true inv Z1 (W _ Z1) P1) as [[X ->]|[X ->]]; [left|right]; (split; [rewrite (TZ _ Z1); auto|destruct inv; auto]).
  - destruct (barrel_piece s _ false inv Z2 (W _ Z2) P2) as [[X ->]|[X ->]]; [left|right]; (split; [rewrite (TZ _ Z2); auto|destruct inv; auto]).
Qed.
Lemma cap_piece z e : vz d <> 0 -> Rabs z = h -> piece (test_cap p d z (i * i) (r * r) e) (O ((z - vz p) / vz d) /\ ~ I ((z - vz p) / vz d)) (hit_at p d ((z - vz p) / vz d) e).
Proof.
  intros N H. unfold test_cap. destruct (Req_EM_T (vz d) 0); [contradiction|]. pose proof prec_pos as P. unfold surface_hit. rewrite !point_line.
  set (t := (z - vz p) / vz d). assert (E : vz (on_line p d t) = z) by (unfold t; cbn; field; auto).
  assert (L : on_lid h (on_line p d t)) by (unfold on_lid; rewrite E; auto). pose proof (cc_lid _ _ _ _ _ K t L) as [W W']. pose proof (cyl_quad r t) as Q. pose proof (cyl_quad i t) as Q'.
  rewrite snap_same by (apply (cc_ahead _ _ _ _ _ K); auto). cbn zeta in *.
  replace ((vx p + t * vx d) * (vx p + t * vx d) + (vy p + t * vy d) * (vy p + t * vy d)) with (radial (on_line p d t)) by (unfold radial; cbn; ring).
  assert (R0 : 0 <= radial (on_line p d t)) by (unfold radial; nra).
  destruct (Rle_dec _ _) as [X|X]; [destruct (Rle_dec _ _) as [Y|Y]|].
  - left. split; [|reflexivity]. unfold O, I. split; [lra|]. intros [V1 V2]. specialize (W' V1). lra.
  - right. split; auto. unfold O, I. intros [V1 V2]. apply V2. destruct (Rle_lt_or_eq_dec 0 i Hi) as [I1|I1]; [split; [auto|lra]|]. exfalso. rewrite <- I1 in Y. lra.
  - right. split; auto. unfold O. intros [V1 V2]. lra.
Qed.

Lemma cyl_ok sort height : sorts sort -> height = 2 * h -> traces (fun t => in_cylinder r i h (on_line p d t)) (cylinder_hits sort r i height p d) /\
  positioned p d (cylinder_hits sort r i height p d).
Proof.
  intros HS ->. pose proof prec_pos as P. unfold cylinder_hits. replace (1 / 2 * (2 * h)) with h by field. cbn zeta.
  assert (SO : switched O (quad_switch A B (C r))) by (apply quad_switched; destruct cyl_A; tauto).
  assert (SZ : switched Z (slab_switch (vz p) (vz d) (- h) h)) by (apply slab_switched; lra).
  assert (SI : switched I si).
  { unfold I, si. destruct (Rle_lt_or_eq_dec 0 i Hi) as [I1|I1].
    - assert (Q : switched (fun t => A * t * t + 2 * B * t + C i < 0) (quad_switch A B (C i))) by (apply quad_switched; destruct cyl_A; tauto). destruct Q as [Q1 Q2]. split.
      + intros t e [_ T]. eapply sides_ext; [|apply Q1; exact T]. intros u. cbn. tauto.
      + intros t T. destruct (Q2 t) as [x X]; [intros e E; apply (T e); auto|]. exists x. eapply steady_ext; [|exact X]. intros u. cbn. tauto.
    - split; [intros t e [T _]; lra|]. intros t _. exists false. exists 1. split; [lra|]. intros u _. split; [intros [T _]; lra|discriminate]. }
  set (lo := test_barrel h p d (r * r) false).
  set (c1 := test_cap p d h (i * i) (r * r) _). set (c2 := test_cap p d (- h) (i * i) (r * r) _).
  match goal with |- context [sort hit h_distance (lo ++ c1 ++ c2 ++ ?y)] => set (li := y) end.
  assert (Co : covers p d lo (quad_switch A B (C r)) (fun t => Z t /\ ~ I t)).
  { apply (barrel_covers r false); [lra|unfold on_wall; auto|]. intros t T. pose proof (cyl_quad i t). unfold I. split; [tauto|]. intros X. split; auto. intros [Y1 Y2]. nra. }
  assert (Cz : covers p d (c1 ++ c2) (slab_switch (vz p) (vz d) (- h) h) (fun t => O t /\ ~ I t)).
  { destruct (Req_EM_T (vz d) 0) as [E|N].
    - unfold c1, c2, test_cap. destruct (Req_EM_T (vz d) 0); [|contradiction]. apply covers_nil. intros t f [X _]. contradiction.
    - apply (covers_two p d _ _ _ _ ((h - vz p) / vz d) ((- h - vz p) / vz d) (if Rlt_dec (vz d) 0 then true else false) (if Rlt_dec 0 (vz d) then true else false)).
      + intros E. apply (f_equal (fun x => x * vz d)) in E. field_simplify in E; auto. lra.
      + intros t e. unfold slab_switch. tauto.
      + apply cap_piece; auto. rewrite Rabs_right; lra.
      + apply cap_piece; auto. rewrite Rabs_Ropp, Rabs_right; lra. }
  assert (Ci : covers p d li (fun t e => si t (negb e)) (fun t => Z t /\ O t)).
  { unfold li, si. destruct (Rlt_dec 0 i) as [I1|I1]; [|apply covers_nil; intros t e [X _]; lra].
    destruct (barrel_covers i true (fun t => Z t /\ O t)) as [X1 X2]; auto.
    - unfold on_wall. auto.
    - intros t T. pose proof (cyl_quad r t). unfold O. split; [tauto|]. intros X. split; auto. nra.
    - split; auto. intros k. rewrite X1. split; intros (t & e & Y1 & Y2 & Y3); exists t, e; tauto. }
  assert (F : exists m, forall t, m < Rabs t -> ~ (O t /\ Z t /\ ~ I t)).
  { destruct cyl_A as [[HA _]|(_ & _ & _ & N)].
    - destruct (quad_far A B (C r) HA) as [m M]. exists m. intros t T [X _]. apply (M t T X).
    - destruct (slab_far (vz p) (vz d) (- h) h N) as [m M]. exists m. intros t T (_ & X & _). apply (M t T X). }
  destruct F as [m M]. replace (lo ++ c1 ++ c2 ++ li) with (lo ++ (c1 ++ c2) ++ li) by (rewrite !app_assoc; reflexivity).
  pose proof (whole_nodup p d O Z I _ _ si cyl_d1 cyl_d2 cyl_d3 lo (c1 ++ c2) li Co Cz Ci) as ND.
  set (all := lo ++ (c1 ++ c2) ++ li) in *. pose proof (sorted_strict sort all HS ND) as ST.
  assert (D : dedup None (sort hit h_distance all) = sort hit h_distance all).
  { apply dedup_same; auto; [|intros x [=]].
    assert (Q : forall k, In k (sort hit h_distance all) -> on_wall r i (on_line p d (h_distance k)) \/ on_lid h (on_line p d (h_distance k))).
    { intros k H. apply (Permutation_in _ (proj1 (HS hit h_distance all))) in H. unfold all in H. rewrite !in_app_iff in H. destruct H as [H|[H|H]].
      - apply Co in H as (t & e & -> & H & _). left. left. apply (cyl_zero _ _ _ H).
      - rewrite <- in_app_iff in H. apply Cz in H as (t & e & -> & H & _). right. apply (cyl_lid _ _ H).
      - apply Ci in H as (t & e & -> & [H1 H] & _). left. right. split; auto. apply (cyl_zero _ _ _ H). }
    intros x y X Y N. apply (cc_apart _ _ _ _ _ K); auto. }
  rewrite D. destruct (whole_traces p d O Z I _ _ si SO SZ SI cyl_d1 cyl_d2 cyl_d3 lo (c1 ++ c2) li Co Cz Ci m M (sort hit h_distance all)) as [X Y]; auto.
  - apply HS.
  - split; auto. eapply traces_ext; [|exact X]. intros t. cbn beta. rewrite cyl_inside. tauto.
Qed.
End Cylinder.
