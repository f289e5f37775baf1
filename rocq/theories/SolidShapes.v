(** The lists of crossings of cylinders, ellipsoids and tubes. *)
From Coq Require Import Reals Lra Lia List Bool Permutation Sorted Arith.
From Verif Require Import VectorModel GeometryModel GeometrySpec SolidModel SolidSpec SolidProofs.
Import ListNotations.
Open Scope R_scope.

Definition hit_at (p d : vec) (t : R) (e : bool) : hit := mkhit t e (on_line p d t).
Lemma point_line p d t : point_at p d t = on_line p d t.
Proof. reflexivity. Qed.

(** [l] holds the crossings of [sw] at which [K] holds, once each. *)
Definition covers (p d : vec) (l : list hit) (sw : R -> bool -> Prop) (K : R -> Prop) : Prop :=
  (forall h, In h l <-> exists t e, h = hit_at p d t e /\ sw t e /\ K t) /\ NoDup (map h_distance l).

Lemma covers_nil p d (sw : R -> bool -> Prop) (K : R -> Prop) : (forall t e, sw t e -> ~ K t) -> covers p d [] sw K.
Proof. intros H. split; [|constructor]. intros h. split; [intros []|]. intros (t & e & _ & X & Y). elim (H t e X Y). Qed.
Definition piece (l : list hit) (c : Prop) (h : hit) : Prop := (c /\ l = [h]) \/ (~ c /\ l = []).
Lemma covers_two p d l1 l2 (sw : R -> bool -> Prop) (K : R -> Prop) t1 t2 e1 e2 : t1 <> t2 ->
  (forall t e, sw t e <-> (t = t1 /\ e = e1) \/ (t = t2 /\ e = e2)) ->
  piece l1 (K t1) (hit_at p d t1 e1) -> piece l2 (K t2) (hit_at p d t2 e2) -> covers p d (l1 ++ l2) sw K.
Proof.
  intros N S P1 P2. split.
  - intros h. rewrite in_app_iff. split.
    + intros [X|X]; [destruct P1 as [[c ->]|[_ ->]]|destruct P2 as [[c ->]|[_ ->]]]; cbn in X; try contradiction; destruct X as [<-|[]].
      * exists t1, e1. split; auto. split; auto. apply S. auto.
      * exists t2, e2. split; auto. split; auto. apply S. auto.
    + intros (t & e & -> & X & Y). apply S in X as [[-> ->]|[-> ->]].
      * left. destruct P1 as [[_ ->]|[c _]]; [left; auto|contradiction].
      * right. destruct P2 as [[_ ->]|[c _]]; [left; auto|contradiction].
  - destruct P1 as [[_ ->]|[_ ->]], P2 as [[_ ->]|[_ ->]]; cbn; repeat constructor; cbn; auto; intros [X|[]]; auto.
Qed.

Section Whole.
Context (p d : vec) (O Z I : R -> Prop) (so sz si : R -> bool -> Prop) (SO : switched O so) (SZ : switched Z sz) (SI : switched I si).
Context (D1 : forall t a b, so t a -> ~ sz t b) (D2 : forall t a b, so t a -> ~ si t b) (D3 : forall t a b, sz t a -> ~ si t b).
Context (lo lz li : list hit) (Co : covers p d lo so (fun t => Z t /\ ~ I t)) (Cz : covers p d lz sz (fun t => O t /\ ~ I t))
        (Ci : covers p d li (fun t e => si t (negb e)) (fun t => Z t /\ O t)).
Context (m : R) (far : forall t, m < Rabs t -> ~ (O t /\ Z t /\ ~ I t)).

Lemma whole_nodup : NoDup (map h_distance (lo ++ lz ++ li)).
Proof.
  rewrite !map_app. apply nodup_app; [apply Co| |].
  - apply nodup_app; [apply Cz|apply Ci|]. intros x X Y. apply in_map_iff in X as (h & <- & H). apply in_map_iff in Y as (k & E & K).
    apply Cz in H as (t & e & -> & H & _). apply Ci in K as (u & f & -> & K & _). cbn in E. subst u. exact (D3 _ _ _ H K).
  - intros x X. apply in_map_iff in X as (h & <- & H). apply Co in H as (t & e & -> & H & _). rewrite in_app_iff.
    intros [Y|Y]; apply in_map_iff in Y as (k & E & K); [apply Cz in K as (u & f & -> & K & _)|apply Ci in K as (u & f & -> & K & _)]; cbn in E; subst u.
    + exact (D1 _ _ _ H K).
    + exact (D2 _ _ _ H K).
Qed.
Lemma whole_traces l : strict l -> Permutation l (lo ++ lz ++ li) -> traces (fun t => O t /\ Z t /\ ~ I t) l /\ positioned p d l.
Proof.
  intros S Q. assert (M : forall h, In h l <-> In h lo \/ In h lz \/ In h li).
  { intros h. rewrite <- !in_app_iff. split; apply Permutation_in; [auto|apply Permutation_sym; auto]. }
  split.
  - apply (toggles _ l m); auto.
    + intros h H. apply (frame_crosses O Z I so sz si SO SZ SI D1 D2 D3). apply M in H as [H|[H|H]].
      * apply Co in H as (t & e & -> & H & K). left. cbn. tauto.
      * apply Cz in H as (t & e & -> & H & K). right. left. cbn. tauto.
      * apply Ci in H as (t & e & -> & H & K). right. right. cbn. tauto.
    + intros t N. apply (frame_steady O Z I so sz si SO SZ SI D1 D2 D3). intros e H.
      assert (In (hit_at p d t e) l).
      { apply M. destruct H as [H|[H|H]]; [left; apply Co|right; left; apply Cz|right; right; apply Ci]; exists t, e; split; auto; tauto. }
      apply (N _ H0). reflexivity.
  - intros h H. apply M in H as [H|[H|H]]; [apply Co in H as (t & e & -> & _)|apply Cz in H as (t & e & -> & _)|apply Ci in H as (t & e & -> & _)]; reflexivity.
Qed.
End Whole.

Lemma traces_ext P Q l : (forall t, P t <-> Q t) -> traces P l -> traces Q l.
Proof.
  intros E [A B C D F]. split; auto.
  - intros h H. destruct (D h H) as (e & X & Y & Z). exists e. split; auto. split; intros u U; rewrite <- E; auto.
  - intros t T. rewrite <- E. auto.
Qed.

(** Far away along the line. *)
Lemma quad_far A B C : 0 < A -> exists m, forall t, m < Rabs t -> ~ A * t * t + 2 * B * t + C < 0.
Proof.
  intros HA. destruct (Rle_lt_dec (B * B - A * C) 0) as [D|D]; [exists 0; intros t _; apply parabola_none; auto|].
  set (r1 := (- B - sqrt (B * B - A * C)) * (1 / A)). set (r2 := (- B + sqrt (B * B - A * C)) * (1 / A)).
  exists (Rmax (Rabs r1) (Rabs r2)). intros t T H. apply (par_below A B C HA D) in H. fold r1 r2 in H.
  pose proof (Rmax_l (Rabs r1) (Rabs r2)). pose proof (Rmax_r (Rabs r1) (Rabs r2)). revert T H0 H1 H. generalize (Rmax (Rabs r1) (Rabs r2)).
  clearbody r1 r2. clear. intros m. unfold Rabs. repeat destruct (Rcase_abs _); lra.
Qed.
Lemma slab_far p d z1 z2 : d <> 0 -> exists m, forall t, m < Rabs t -> ~ z1 <= p + t * d <= z2.
Proof.
  intros N. set (a := (z1 - p) / d). set (b := (z2 - p) / d). exists (Rmax (Rabs a) (Rabs b)). intros t T H. apply slab_between in H; auto. fold a b in H.
  pose proof (Rmax_l (Rabs a) (Rabs b)). pose proof (Rmax_r (Rabs a) (Rabs b)). revert T H0 H1 H. generalize (Rmax (Rabs a) (Rabs b)).
  clearbody a b. clear. intros m. destruct (Rlt_dec 0 d); unfold Rabs; repeat destruct (Rcase_abs _); lra.
Qed.

Lemma vec_nonzero d : d <> mkv 0 0 0 -> vx d <> 0 \/ vy d <> 0 \/ vz d <> 0.
Proof.
  intros N. destruct d as [x y z]. cbn. destruct (Req_EM_T x 0) as [-> | ]; auto. destruct (Req_EM_T y 0) as [-> | ]; auto. right. right. intros ->. auto.
Qed.
Lemma abs_le x h : Rabs x <= h <-> - h <= x <= h.
Proof. unfold Rabs. destruct (Rcase_abs x); lra. Qed.

(** ** Tubes *)
Section Tube.
Context (a b h : R) (p d : vec) (Ha : 0 < a) (Hb : 0 < b) (Hh : 0 < h) (Hd : d <> mkv 0 0 0) (K : clear_tube a b h p d).
Let ia := 1 / (a * a).
Let ib := 1 / (b * b).
Let A := vx d * vx d * ia + vy d * vy d * ib.
Let B := vx p * vx d * ia + vy p * vy d * ib.
Let C := vx p * vx p * ia + vy p * vy p * ib - 1.
Let O t := A * t * t + 2 * B * t + C < 0.
Let Z t := - h <= vz p + t * vz d <= h.
Lemma tube_quad t : ellipse a b (on_line p d t) - 1 = A * t * t + 2 * B * t + C.
Proof. unfold ellipse, on_line, A, B, C, ia, ib. cbn. field. lra. Qed.
Lemma tube_A : 0 < A \/ (A = 0 /\ B = 0 /\ vx d = 0 /\ vy d = 0).
Proof.
  assert (0 < ia /\ 0 < ib) as [X Y] by (unfold ia, ib; split; apply Rdiv_lt_0_compat; nra).
  destruct (Req_EM_T (vx d) 0) as [E|E]; [destruct (Req_EM_T (vy d) 0) as [F|F]|].
  - right. unfold A, B. rewrite E, F. repeat split; ring.
  - left. unfold A. assert (0 < vy d * vy d) by nra. assert (0 <= vx d * vx d) by nra. assert (0 <= vx d * vx d * ia) by (apply Rmult_le_pos; lra).
    assert (0 < vy d * vy d * ib) by (apply Rmult_lt_0_compat; lra). lra.
  - left. unfold A. assert (0 < vx d * vx d) by nra. assert (0 <= vy d * vy d) by nra. assert (0 < vx d * vx d * ia) by (apply Rmult_lt_0_compat; lra).
    assert (0 <= vy d * vy d * ib) by (apply Rmult_le_pos; lra). lra.
Qed.
Lemma tube_inside t : in_tube a b h (on_line p d t) <-> O t /\ Z t /\ ~ False.
Proof. unfold in_tube. pose proof (tube_quad t). rewrite abs_le. unfold O, Z. cbn. split; [intros [X Y]; repeat split; lra|intros (X & Y & _); split; lra]. Qed.

Lemma tube_apart t e f : quad_switch A B C t e -> ~ slab_switch (vz p) (vz d) (- h) h t f.
Proof.
  intros (HA & HD & H) (N & L).
  assert (E : ellipse a b (on_line p d t) = 1).
  { pose proof (tube_quad t). enough (A * t * t + 2 * B * t + C = 0) by lra. apply (par_zero A B C HA HD). destruct H as [[-> _]|[-> _]]; auto. }
  apply (ct_wall _ _ _ _ _ K t E). cbn. assert (F : forall z, vz p + (z - vz p) / vz d * vz d = z) by (intros; field; auto).
  assert (P : 0 < precision) by (unfold precision; lra).
  destruct L as [[-> _]|[-> _]]; rewrite F; [rewrite Rabs_Ropp|]; rewrite Rabs_right; lra.
Qed.
Lemma tube_root_piece t (e : bool) : ellipse a b (on_line p d t) = 1 -> (if e then A * t + B < 0 else 0 < A * t + B) ->
  piece (tube_root ia ib h p d t) (Z t /\ ~ False) (hit_at p d t e).
Proof.
  intros E S. unfold tube_root. rewrite point_line. pose proof (ct_wall _ _ _ _ _ K t E) as W.
  assert (P : 0 < precision) by (unfold precision; lra).
  replace (vx (on_line p d t) * vx d * ia + vy (on_line p d t) * vy d * ib) with (A * t + B) by (unfold A, B; cbn; ring).
  assert (G : Z t <-> Rabs (vz (on_line p d t)) <= h) by (rewrite abs_le; cbn; reflexivity).
  destruct (Rle_dec _ _) as [L|L].
  - left. split; [split; auto; apply G; lra|]. unfold hit_at. destruct (Rlt_dec (A * t + B) 0), e; auto; lra.
  - right. split; auto. intros [X _]. apply G in X. lra.
Qed.
Lemma tube_cap_piece z e : vz d <> 0 -> Rabs z = h -> piece (tube_cap ia ib z p d e) (O ((z - vz p) / vz d) /\ ~ False) (hit_at p d ((z - vz p) / vz d) e).
Proof.
  intros N H. unfold tube_cap. set (t := (z - vz p) / vz d). assert (E : vz (on_line p d t) = z) by (unfold t; cbn; field; auto).
  assert (L : on_lid h (on_line p d t)) by (unfold on_lid; rewrite E; auto). pose proof (ct_lid _ _ _ _ _ K t L) as W. pose proof (tube_quad t) as Q.
  assert (P : 0 < precision) by (unfold precision; lra).
  replace ((vx p + t * vx d) * (vx p + t * vx d) * ia + (vy p + t * vy d) * (vy p + t * vy d) * ib) with (ellipse a b (on_line p d t))
    by (unfold ellipse, ia, ib; cbn; field; lra).
  destruct (Rle_dec _ _) as [X|X].
  - left. split; [unfold O; split; [lra|auto]|]. unfold hit_at. rewrite <- E. reflexivity.
  - right. split; auto. unfold O. intros [Y _]. lra.
Qed.

Lemma tube_ok sort : sorts sort -> traces (fun t => in_tube a b h (on_line p d t)) (tube_hits sort a b h p d) /\ positioned p d (tube_hits sort a b h p d).
Proof.
  intros HS. assert (P : 0 < precision) by (unfold precision; lra).
  assert (SO : switched O (quad_switch A B C)). { apply quad_switched. destruct tube_A; tauto. }
  assert (SZ : switched Z (slab_switch (vz p) (vz d) (- h) h)) by (apply slab_switched; lra).
  unfold tube_hits. fold ia ib. cbn zeta. fold A. set (sh := - (vx p * vx d + vy p * vy d + vz p * vz d)).
  replace ((vx p + sh * vx d) * vx d * ia + (vy p + sh * vy d) * vy d * ib) with (B + A * sh) by (unfold A, B; ring).
  replace ((vx p + sh * vx d) * (vx p + sh * vx d) * ia + (vy p + sh * vy d) * (vy p + sh * vy d) * ib - 1) with (A * sh * sh + 2 * B * sh + C) by (unfold A, B, C; ring).
  replace ((B + A * sh) * (B + A * sh) - A * (A * sh * sh + 2 * B * sh + C)) with (B * B - A * C) by ring.
  match goal with |- context [sort hit h_distance (?x ++ ?y)] => set (lo := x); set (lz := y) end.
  assert (Co : covers p d lo (quad_switch A B C) (fun t => Z t /\ ~ False)).
  { unfold lo. destruct (Rlt_dec 0 (B * B - A * C)) as [HD|HD]; [|apply covers_nil; intros t e (_ & X & _); contradiction].
    destruct (Rlt_dec (precision * precision) A) as [HP|HP].
    - assert (HA : 0 < A) by nra.
      replace ((- (B + A * sh) - sqrt (B * B - A * C)) * (1 / A) + sh) with ((- B - sqrt (B * B - A * C)) * (1 / A)) by (field; lra).
      replace ((- (B + A * sh) + sqrt (B * B - A * C)) * (1 / A) + sh) with ((- B + sqrt (B * B - A * C)) * (1 / A)) by (field; lra).
      pose proof (par_lt A B C HA HD) as L.
      apply (covers_two p d _ _ _ _ ((- B - sqrt (B * B - A * C)) * (1 / A)) ((- B + sqrt (B * B - A * C)) * (1 / A)) true false); [lra| | |].
      + intros t e. unfold quad_switch. tauto.
      + apply tube_root_piece; [|apply (par_slope1 A B C HA HD)]. pose proof (tube_quad ((- B - sqrt (B * B - A * C)) * (1 / A))).
        pose proof (proj2 (par_zero A B C HA HD _) (or_introl eq_refl)). lra.
      + apply tube_root_piece; [|apply (par_slope2 A B C HA HD)]. pose proof (tube_quad ((- B + sqrt (B * B - A * C)) * (1 / A))).
        pose proof (proj2 (par_zero A B C HA HD _) (or_intror eq_refl)). lra.
    - apply covers_nil. intros t e (X & _ & _). elim HP. destruct (ct_upright _ _ _ _ _ K) as [[E F]|X'].
      + unfold A in X. rewrite E, F in X. lra.
      + replace A with (ellipse a b d); auto. unfold ellipse, A, ia, ib. field. lra. }
  assert (Cz : covers p d lz (slab_switch (vz p) (vz d) (- h) h) (fun t => O t /\ ~ False)).
  { unfold lz. destruct (Rlt_dec precision (Rabs (vz d))) as [HP|HP].
    - assert (N : vz d <> 0) by (intros E; rewrite E, Rabs_R0 in HP; lra).
      apply (covers_two p d _ _ _ _ ((h - vz p) / vz d) ((- h - vz p) / vz d) (if Rlt_dec (vz d) 0 then true else false) (if Rlt_dec 0 (vz d) then true else false)).
      + intros E. apply (f_equal (fun x => x * vz d)) in E. field_simplify in E; auto. lra.
      + intros t e. unfold slab_switch. tauto.
      + apply tube_cap_piece; auto. rewrite Rabs_right; lra.
      + apply tube_cap_piece; auto. rewrite Rabs_Ropp, Rabs_right; lra.
    - apply covers_nil. intros t e (X & _). destruct (ct_level _ _ _ _ _ K); contradiction. }
  assert (F : exists m, forall t, m < Rabs t -> ~ (O t /\ Z t /\ ~ False)).
  { destruct tube_A as [HA|(_ & _ & E1 & E2)].
    - destruct (quad_far A B C HA) as [m M]. exists m. intros t T [X _]. apply (M t T X).
    - assert (N : vz d <> 0) by (destruct (vec_nonzero d Hd) as [?|[?|?]]; tauto). destruct (slab_far (vz p) (vz d) (- h) h N) as [m M]. exists m. intros t T (_ & X & _). apply (M t T X). }
  destruct F as [m M].
  assert (Ci : covers p d [] (fun _ _ => False) (fun t => Z t /\ O t)) by (apply covers_nil; tauto).
  pose proof (whole_nodup p d O Z (fun _ => False) _ _ (fun _ _ => False) tube_apart ltac:(tauto) ltac:(tauto) lo lz [] Co Cz Ci) as ND.
  rewrite app_nil_r in ND.
  destruct (whole_traces p d O Z (fun _ => False) _ _ (fun _ _ => False) SO SZ switched_never tube_apart ltac:(tauto) ltac:(tauto) lo lz [] Co Cz Ci m M (sort hit h_distance (lo ++ lz))) as [X Y].
  - apply sorted_strict; auto.
  - rewrite app_nil_r. apply HS.
  - split; auto. eapply traces_ext; [|exact X]. intros t. cbn. rewrite tube_inside. tauto.
Qed.
End Tube.
