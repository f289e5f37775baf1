(** Property C192: the whole list of crossings of a cone. *)
From Coq Require Import Reals List Bool Lra Lia Psatz Permutation Sorted.
From Verif Require Import VectorModel GeometryModel GeometrySpec SolidModel SolidSpec SolidProofs SolidShapes SolidRound WedgeModel WedgeSpec WedgeProps PconeModel PconeSpec PconeProofs FrusModel FrusProofs FrusProps FrustumModel FrustumProofs.
Import ListNotations.
Open Scope R_scope.

(** The points of a cone, hollow if an inner radius is positive. *)
Definition hollow (c : cone) : Prop := 0 < co_min1 c \/ 0 < co_min2 c.
Definition in_frustum (c : cone) (q : vec) : Prop :=
  let at_z r1 r2 := radius_at (- co_z c / 2) (co_z c / 2) r1 r2 (vz q) in
  radial q < at_z (co_max1 c) (co_max2 c) * at_z (co_max1 c) (co_max2 c) /\
  (hollow c -> at_z (co_min1 c) (co_min2 c) * at_z (co_min1 c) (co_min2 c) <= radial q) /\ - co_z c / 2 <= vz q <= co_z c / 2.

(** Cones without tip whose radii are in order. *)
Record proper_cone (c : cone) : Prop := {
  pc_z : 0 < co_z c;
  pc_1 : 0 <= co_min1 c <= co_max1 c;
  pc_2 : 0 <= co_min2 c <= co_max2 c;
  pc_tip : 0 < co_max1 c /\ 0 < co_max2 c
}.

(** The point at [t] is on one of the double cones of the walls, or at the height of a cap. *)
Definition there (c : cone) (i : bool) : Prop := i = true -> hollow c.
Definition on_cone (c : cone) (p d : vec) (t : R) : Prop := (exists i, there c i /\ out_of c i p d t = 0) \/ exists top, vz (on_line p d t) = cap_height c top.

(** Lines that do not touch the walls, are not nearly parallel to walls or caps, keep clear of the rims, and whose points on the surfaces keep apart. *)
Record clear_cone (c : cone) (p d : vec) : Prop := {
  cn_bend : forall i, there c i -> precision < Rabs (bend d (- co_z c / 2) (co_z c / 2) (below c i) (above c i));
  cn_level : vz d = 0 \/ precision < Rabs (vz d);
  cn_touch : forall i t, there c i -> out_of c i p d t = 0 -> exists u, u <> t /\ out_of c i p d u = 0;
  cn_apart : forall t u, on_cone c p d t -> on_cone c p d u -> t <> u -> precision <= Rabs (t - u);
  cn_ahead : forall t, on_cone c p d t -> ~ 0 < t < precision;
  cn_both : hollow c -> forall t, out_of c false p d t = 0 -> out_of c true p d t <> 0;
  cn_wall : forall i t, there c i -> out_of c i p d t = 0 -> ~ co_z c / 2 <= Rabs (vz (on_line p d t)) <= co_z c / 2 + precision;
  cn_cap : forall top t, vz (on_line p d t) = cap_height c top -> let s := radial (on_line p d t) in
    ~ cap_max c top * cap_max c top <= s <= cap_max c top * cap_max c top + precision /\
    (hollow c -> ~ cap_min c top * cap_min c top - precision <= s <= cap_min c top * cap_min c top)
}.

Section Frustum.
Context (c : cone) (p d : vec) (PC : proper_cone c) (K : clear_cone c p d).
Let h := co_z c / 2.
Let O t := out_of c false p d t < 0.
Let Z t := - co_z c / 2 <= vz p + t * vz d <= co_z c / 2.
Let I t := hollow c /\ out_of c true p d t < 0.
Let so := turns (out_of c false p d).
Let sz := slab_switch (vz p) (vz d) (- co_z c / 2) (co_z c / 2).
Let si t e := hollow c /\ turns (out_of c true p d) t e.

Lemma fr_hollow : hollow c \/ ~ hollow c.
Proof. unfold hollow. destruct (Rlt_dec 0 (co_min1 c)), (Rlt_dec 0 (co_min2 c)); tauto. Qed.

Lemma fr_switched i : there c i -> switched (fun t => out_of c i p d t < 0) (turns (out_of c i p d)).
Proof.
  intros T. destruct (out_of_quad c i p d (pc_z c PC)) as (B & C & F). pose proof (cn_bend _ _ _ K i T) as G.
  eapply quad_turns; [|exact F|intros t; apply (cn_touch _ _ _ K); auto]. intros E. rewrite E, Rabs_R0 in G. unfold precision in G. lra.
Qed.

Lemma fr_line t : vz (on_line p d t) = vz p + t * vz d.
Proof. reflexivity. Qed.

(** Between the caps the radii are in order. *)
Lemma fr_radii t : Z t -> 0 <= wall_radius c true p d t <= wall_radius c false p d t.
Proof.
  destruct PC as [P0 P1 P2 P3]. unfold Z, wall_radius, radius_at, below, above. rewrite <- fr_line. intros H. set (z := vz (on_line p d t)) in *.
  assert (E : forall u v, u + (v - u) * (z - - co_z c / 2) / (co_z c / 2 - - co_z c / 2) = (u * (co_z c / 2 - z) + v * (z + co_z c / 2)) / co_z c) by (intros; field; lra).
  rewrite !E. assert (Q : 0 < / co_z c) by (apply Rinv_0_lt_compat; auto). unfold Rdiv at 2 5. split.
  - apply Rmult_le_pos; [nra|]. lra.
  - apply Rmult_le_compat_r; [lra|]. nra.
Qed.
Lemma fr_out i t : out_of c i p d t = radial (on_line p d t) - wall_radius c i p d t * wall_radius c i p d t.
Proof. reflexivity. Qed.

Lemma fr_window i t : there c i -> out_of c i p d t = 0 -> (on_wall c i p d t -> Z t) /\ (Z t -> on_wall c i p d t).
Proof.
  intros T E. pose proof (cn_wall _ _ _ K i t T E) as W. pose proof (pc_z c PC) as P0. pose proof prec_pos as PP. split.
  - intros [H _]. unfold Z. rewrite <- fr_line. revert W H. unfold Rabs. destruct (Rcase_abs _); lra.
  - intros H. split; [unfold Z in H; rewrite fr_line; lra|]. pose proof (fr_radii t H). destruct i; lra.
Qed.

Lemma fr_ahead i t : there c i -> out_of c i p d t = 0 -> ~ 0 < t < precision.
Proof. intros T E. apply (cn_ahead _ _ _ K). left. exists i. auto. Qed.

(** The hits with a wall are the turns of the line there between the caps. *)
Lemma fr_wall i : there c i -> covers p d (wall_hits c i p d) (fun t e => turns (out_of c i p d) t (if i then negb e else e)) Z.
Proof.
  intros T. pose proof (pc_z c PC) as P0. assert (H0 : i = true -> 0 < co_min1 c \/ 0 < co_min2 c) by exact T.
  destruct (C189_wall c i p d P0 H0 (fun t => fr_ahead i t T) (cn_bend _ _ _ K i T)) as [A B]. split.
  - intros k. split.
    + intros X. destruct (A k X) as (A1 & A2 & A3 & A4 & A5). exists (h_distance k), (h_entering k). split; [destruct k; unfold hit_at; cbn in *; congruence|].
      split; [|apply (fr_window i _ T A1); auto]. split; auto. destruct i, (h_entering k); cbn [negb] in *; auto.
    + intros (t & e & -> & [E G] & H). destruct (cn_touch _ _ _ K i t T E) as (u & U & Eu).
      destruct (B t u E Eu U (proj2 (fr_window i t T E) H)) as (k & X & Y). destruct (A k X) as (A1 & A2 & A3 & A4 & A5).
      replace (hit_at p d t e) with k; auto. assert (Q : h_entering k = e).
      { rewrite Y in A4, A5. destruct i, e, (h_entering k); cbn [negb] in *; auto; exfalso; first [exact (turns_one _ _ G (A5 eq_refl))|exact (turns_one _ _ (A4 eq_refl) G)]. }
      destruct k. unfold hit_at. cbn in *. congruence.
  - rewrite wall_hits_sides by auto. apply side_nodup; [lra|]. intros t. apply (fr_ahead i t T).
Qed.

Lemma fr_cap_radius top t : vz (on_line p d t) = cap_height c top -> wall_radius c false p d t = cap_max c top /\ wall_radius c true p d t = cap_min c top.
Proof.
  pose proof (pc_z c PC) as P0. intros E. unfold wall_radius, radius_at. rewrite E. unfold cap_height, cap_max, cap_min, below, above. destruct top; split; field; lra.
Qed.
Lemma fr_cap_slab top t : vz (on_line p d t) = cap_height c top -> Z t.
Proof. pose proof (pc_z c PC). intros E. unfold Z. rewrite <- fr_line, E. unfold cap_height. destruct top; lra. Qed.

Lemma fr_turn_place t e : sz t e <-> vz d <> 0 /\ exists top, vz (on_line p d t) = cap_height c top /\ (e = true <-> runs_in top d).
Proof.
  unfold sz, slab_switch. rewrite fr_line. split.
  - intros (N & [[-> ->]|[-> ->]]); (split; [auto|]); [exists false|exists true]; (split; [unfold cap_height; field; auto|]); unfold runs_in;
      destruct (Rlt_dec _ _); split; auto; try discriminate; contradiction.
  - intros (N & [|] & E & F); (split; [auto|]); [right|left]; unfold cap_height, runs_in in *; (split; [rewrite <- E; field; auto|]);
      (destruct (Rlt_dec _ _) as [Q|Q], e; auto; exfalso; [apply F in Q; discriminate|apply Q, F; reflexivity]).
Qed.

Lemma fr_cap_hit top : covers p d (cap_hits c top p d) (fun t e => vz d <> 0 /\ vz (on_line p d t) = cap_height c top /\ (e = true <-> runs_in top d)) (fun t => O t /\ ~ I t).
Proof.
  assert (M : 0 < cap_max c top) by (destruct PC as [_ _ _ [? ?]]; destruct top; auto).
  assert (M0 : 0 <= cap_min c top) by (destruct PC as [_ ? ? _]; destruct top; unfold cap_min; lra).
  destruct (cn_level _ _ _ K) as [L|L].
  { assert (E : cap_hits c top p d = []).
    { unfold cap_hits, top_hits, bottom_hits, cap_hit. rewrite L, Rabs_R0. pose proof prec_pos. destruct (Rlt_dec precision 0); [lra|]. destruct top, (tip _ _); auto. }
    rewrite E. apply covers_nil. intros t e [N _]. contradiction. }
  assert (N : vz d <> 0). { intros E. rewrite E, Rabs_R0 in L. pose proof prec_pos. lra. }
  destruct (C190_cap c top p d M) as (A & B & S). { intros t E. apply (cn_ahead _ _ _ K). right. exists top. auto. }
  split.
  - intros k. split.
    + intros X. destruct (A k X) as (A1 & A2 & A3 & A4). rewrite A1 in A2, A3. exists (h_distance k), (h_entering k). split; [destruct k; unfold hit_at; cbn in *; congruence|].
      split; [auto|]. set (t := h_distance k) in *. destruct (fr_cap_radius top t A2) as [R1 R2]. destruct (cn_cap _ _ _ K top t A2) as [Q1 Q2]. unfold O, I. rewrite !fr_out, R1, R2.
      split; [lra|]. intros [V1 V2]. specialize (Q2 V1). lra.
    + intros (t & e & -> & (_ & E & F) & V1 & V2). destruct (fr_cap_radius top t E) as [R1 R2]. unfold O, I in V1, V2. rewrite fr_out in V1, V2. rewrite R1 in V1. rewrite R2 in V2.
      assert (W : cap_min c top * cap_min c top <= radial (on_line p d t)).
      { destruct fr_hollow as [Y|Y].
        - destruct (Rle_lt_dec (cap_min c top * cap_min c top) (radial (on_line p d t))); auto. elim V2. split; auto. lra.
        - assert (X : cap_min c top = 0). { unfold hollow in Y. destruct top; unfold cap_min in *; destruct (Rle_lt_or_eq_dec _ _ M0); auto; tauto. }
          rewrite X. unfold radial. nra. }
      destruct (B t E L) as (k & X & Y); [lra|]. destruct (A k X) as (A1 & A2 & A3 & A4). replace (hit_at p d t e) with k; auto.
      assert (Q : h_entering k = e) by (destruct (h_entering k), e; auto; [symmetry|]; tauto).
      destruct k. unfold hit_at. cbn in *. congruence.
  - destruct (cap_hits c top p d) as [|x [|y l]]; [constructor|repeat constructor; intros []|cbn in S; lia].
Qed.

Lemma fr_caps : covers p d (top_hits c p d ++ bottom_hits c p d) sz (fun t => O t /\ ~ I t).
Proof.
  destruct (fr_cap_hit true) as [A1 A2]. destruct (fr_cap_hit false) as [B1 B2]. unfold cap_hits in *. pose proof (pc_z c PC) as P0. split.
  - intros k. rewrite in_app_iff, A1, B1. split.
    + intros [(t & e & -> & (N & E & F) & V)|(t & e & -> & (N & E & F) & V)]; exists t, e; (split; [auto|]); (split; [|auto]); apply fr_turn_place; (split; [auto|]); eauto.
    + intros (t & e & -> & X & V). apply fr_turn_place in X as (N & [|] & E & F); [left|right]; exists t, e; auto.
  - rewrite map_app. apply nodup_app; auto. intros x X Y. apply in_map_iff in X as (k & <- & X). apply in_map_iff in Y as (l & E & Y).
    apply A1 in X as (t & e & -> & (_ & X & _) & _). apply B1 in Y as (u & f & -> & (_ & Y & _) & _). cbn in E. subst u. rewrite X in Y. unfold cap_height in Y. lra.
Qed.

Lemma fr_rim i t e b : there c i -> turns (out_of c i p d) t e -> ~ sz t b.
Proof.
  intros T [E _] S. apply fr_turn_place in S as (_ & top & X & _). apply (cn_wall _ _ _ K i t T E). pose proof (pc_z c PC). pose proof prec_pos.
  rewrite X. unfold cap_height, Rabs. destruct top; destruct (Rcase_abs _); lra.
Qed.
Lemma fr_d1 t a b : so t a -> ~ sz t b.
Proof. apply (fr_rim false). discriminate. Qed.
Lemma fr_d2 t a b : so t a -> ~ si t b.
Proof. intros [E _] [H [F _]]. exact (cn_both _ _ _ K H t E F). Qed.
Lemma fr_d3 t a b : sz t a -> ~ si t b.
Proof. intros S [H F]. apply (fr_rim true t b a (fun _ => H) F S). Qed.

Lemma fr_whole sort : sorts sort -> traces (fun t => in_frustum c (on_line p d t)) (frustum_hits sort c p d) /\ positioned p d (frustum_hits sort c p d) /\
  frustum_hits sort c p d = sort hit h_distance (frustum_surface c p d) /\ NoDup (map h_distance (frustum_surface c p d)).
Proof.
  intros HS. pose proof (pc_z c PC) as P0. assert (T0 : there c false) by discriminate.
  assert (SO : switched O so) by (apply fr_switched; auto).
  assert (SZ : switched Z sz) by (apply slab_switched; lra).
  assert (SI : switched I si).
  { unfold I, si. destruct fr_hollow as [H|H].
    - destruct (fr_switched true (fun _ => H)) as [Q1 Q2]. split.
      + intros t e [_ T]. eapply sides_ext; [|apply Q1; exact T]. intros u. cbn. tauto.
      + intros t T. destruct (Q2 t) as [x X]; [intros e E; apply (T e); auto|]. exists x. eapply steady_ext; [|exact X]. intros u. cbn. tauto.
    - split; [intros t e [T _]; contradiction|]. intros t _. exists false. exists 1. split; [lra|]. intros u _. split; [intros [T _]; contradiction|discriminate]. }
  assert (Co : covers p d (outer_hits c p d) so (fun t => Z t /\ ~ I t)).
  { destruct (fr_wall false T0) as [A B]. cbn [wall_hits] in *. split; auto. intros k. rewrite A. split; intros (t & e & E & S & V); exists t, e; (split; [auto|]); (split; [exact S|]); [|tauto].
    split; auto. intros [H1 H2]. destruct S as [S _]. rewrite fr_out in S, H2. pose proof (fr_radii t V). nra. }
  assert (Ci : covers p d (inner_hits c p d) (fun t e => si t (negb e)) (fun t => Z t /\ O t)).
  { destruct fr_hollow as [H|H].
    - destruct (fr_wall true (fun _ => H)) as [A B]. cbn [wall_hits] in *. split; auto. intros k. rewrite A. split; intros (t & e & E & S & V); exists t, e; (split; [auto|]).
      + split; [split; auto|]. split; auto. destruct S as [S _]. pose proof (fun X => cn_both _ _ _ K H t X S) as Y. unfold O. rewrite fr_out in S, Y |- *. pose proof (fr_radii t V).
        destruct (Req_EM_T (radial (on_line p d t) - wall_radius c false p d t * wall_radius c false p d t) 0) as [Q|Q]; [contradiction|]. nra.
      + destruct S as [_ S]. tauto.
    - unfold inner_hits. unfold hollow in H. destruct (Rlt_dec 0 (co_min1 c)); [tauto|]. destruct (Rlt_dec 0 (co_min2 c)); [tauto|]. apply covers_nil. intros t e [X _]. contradiction. }
  pose proof fr_caps as Cz.
  assert (F : exists m, forall t, m < Rabs t -> ~ (O t /\ Z t /\ ~ I t)).
  { destruct (Req_EM_T (vz d) 0) as [E|N].
    - destruct (out_of_quad c false p d P0) as (B & C & F). pose proof (cn_bend _ _ _ K false T0) as G.
      set (A := bend _ _ _ _ _) in *. assert (A0 : 0 < A).
      { assert (X : 0 <= A) by (unfold A, bend; rewrite E; nra). destruct X as [X|X]; auto. rewrite <- X, Rabs_R0 in G. pose proof prec_pos. lra. }
      destruct (quad_far A B C A0) as [m M]. exists m. intros t T [X _]. apply (M t T). rewrite <- F. exact X.
    - destruct (slab_far (vz p) (vz d) (- co_z c / 2) (co_z c / 2) N) as [m M]. exists m. intros t T (_ & X & _). apply (M t T X). }
  destruct F as [m M]. unfold frustum_hits, frustum_surface.
  set (lo := outer_hits c p d) in *. set (li := inner_hits c p d) in *. set (lz := top_hits c p d ++ bottom_hits c p d) in *.
  assert (PM : Permutation (lo ++ li ++ lz) (lo ++ lz ++ li)) by (apply Permutation_app_head, Permutation_app_comm).
  pose proof (whole_nodup p d O Z I so sz si fr_d1 fr_d2 fr_d3 lo lz li Co Cz Ci) as ND.
  assert (ND' : NoDup (map h_distance (lo ++ li ++ lz))) by (apply (Permutation_NoDup (Permutation_map h_distance (Permutation_sym PM))); exact ND).
  set (all := lo ++ li ++ lz) in *. pose proof (sorted_strict sort all HS ND') as ST.
  assert (D : dedup None (sort hit h_distance all) = sort hit h_distance all).
  { apply dedup_same; auto; [|intros x [=]].
    assert (Q : forall k, In k (sort hit h_distance all) -> on_cone c p d (h_distance k)).
    { intros k H. apply (Permutation_in _ (proj1 (HS hit h_distance all))) in H. unfold all in H. rewrite !in_app_iff in H. destruct H as [H|[H|H]].
      - apply Co in H as (t & e & -> & [H _] & _). left. exists false. auto.
      - apply Ci in H as (t & e & -> & [H1 [H _]] & _). left. exists true. split; [intros _|]; auto.
      - apply Cz in H as (t & e & -> & H & _). apply fr_turn_place in H as (_ & top & H & _). right. exists top. exact H. }
    intros x y X Y N. apply (cn_apart _ _ _ K); auto. }
  rewrite D. destruct (whole_traces p d O Z I so sz si SO SZ SI fr_d1 fr_d2 fr_d3 lo lz li Co Cz Ci m M (sort hit h_distance all)) as [X Y]; auto.
  - eapply Permutation_trans; [apply HS|exact PM].
  - split; [|auto]. eapply traces_ext; [|exact X]. intros t. unfold in_frustum, O, Z, I. rewrite !fr_out. rewrite <- fr_line.
    change (radius_at (- co_z c / 2) (co_z c / 2) (co_max1 c) (co_max2 c) (vz (on_line p d t))) with (wall_radius c false p d t).
    change (radius_at (- co_z c / 2) (co_z c / 2) (co_min1 c) (co_min2 c) (vz (on_line p d t))) with (wall_radius c true p d t).
    split.
    + intros (A1 & A2 & A3). split; [lra|]. split; auto. intros H. destruct (Rle_lt_dec (wall_radius c true p d t * wall_radius c true p d t) (radial (on_line p d t))); auto. elim A3. split; auto. lra.
    + intros (A1 & A2 & A3). split; [lra|]. split; auto. intros [H1 H2]. specialize (A2 H1). lra.
Qed.
End Frustum.

(** ** C192: cones *)

(** C192: for lines that keep clear of the rims, the crossings of a cone without tip are exactly where the line enters and leaves it, in order and by turns. *)
Theorem C192_crossings sort c p d : sorts sort -> proper_cone c -> clear_cone c p d ->
  traces (fun t => in_frustum c (on_line p d t)) (frustum_hits sort c p d) /\ positioned p d (frustum_hits sort c p d).
Proof. intros S P K. destruct (fr_whole c p d P K sort S) as (A & B & _). auto. Qed.
Print Assumptions C192_crossings.

(** C192: with a cut in azimuth, they are those of the part of the cone in the wedge, for lines that keep clear of the half planes and do not meet them on the surface. *)
Theorem C192_cut sort c start delta p d : sorts sort -> proper_cone c -> clear_cone c p d -> 0 < delta < 2 * PI -> vx d * vx d + vy d * vy d <= 1 ->
  clear_wedge start delta p d -> (forall t, on_cone c p d t -> ~ on_face start delta (on_line p d t)) ->
  let l := cut_frustum_hits sort c start delta p d in
  traces (fun t => in_frustum c (on_line p d t) /\ in_wedge start delta (vx (on_line p d t)) (vy (on_line p d t))) l /\ positioned p d l.
Proof.
  intros S P K D U W N l. destruct (fr_whole c p d P K sort S) as (A & B & E & F). rewrite E in A, B.
  assert (G : forall h, In h (frustum_surface c p d) -> In h (sort hit h_distance (frustum_surface c p d))).
  { intros h. apply Permutation_in, Permutation_sym, S. }
  apply C166_any; auto.
  - intros h H. apply B, G, H.
  - intros h H. apply N. unfold frustum_surface in H. rewrite !in_app_iff in H. assert (T0 : there c false) by discriminate.
    destruct H as [H|[H|H]].
    + apply (fr_wall c p d P K false T0) in H as (t & e & -> & [H _] & _). left. exists false. auto.
    + destruct (fr_hollow c p d) as [Y|Y].
      * apply (fr_wall c p d P K true (fun _ => Y)) in H as (t & e & -> & [H _] & _). left. exists true. split; [intros _|]; auto.
      * exfalso. unfold inner_hits, hollow in *. destruct (Rlt_dec 0 (co_min1 c)); [tauto|]. destruct (Rlt_dec 0 (co_min2 c)); [tauto|]. destruct H.
    + rewrite <- in_app_iff in H. apply (fr_caps c p d P K) in H as (t & e & -> & H & _). apply (fr_turn_place c p d) in H as (_ & top & H & _). right. exists top. exact H.
Qed.
Print Assumptions C192_cut.

(** A level line through the middle of a hollow cone of height 2, with outer radius 3 below and 1 above: in at 3, out at 4, in at 6, out at 7. *)
Example C192_case : let c := mkcone 2 1 1 3 1 in let p := mkv (- (5)) 0 0 in let d := mkv 1 0 0 in
  proper_cone c /\ clear_cone c p d /\ in_frustum c (on_line p d (7 / 2)) /\ ~ in_frustum c (on_line p d 5).
Proof.
  intros c p d. assert (F : forall t, out_of c false p d t = (t - 3) * (t - 7)).
  { intros t. unfold out_of, outside_by, radius_at, radial, on_line, vadd, vscale, below, above, c, p, d. cbn [vx vy vz co_z co_min1 co_min2 co_max1 co_max2]. field. }
  assert (G : forall t, out_of c true p d t = (t - 4) * (t - 6)).
  { intros t. unfold out_of, outside_by, radius_at, radial, on_line, vadd, vscale, below, above, c, p, d. cbn [vx vy vz co_z co_min1 co_min2 co_max1 co_max2]. field. }
  assert (L : forall t, vz (on_line p d t) = 0) by (intros t; unfold on_line, vadd, vscale, p, d; cbn [vx vy vz]; ring).
  assert (N : forall t top, vz (on_line p d t) <> cap_height c top) by (intros t [|]; rewrite L; unfold cap_height, c; cbn [co_z]; lra).
  assert (Q : forall t, on_cone c p d t -> t = 3 \/ t = 4 \/ t = 6 \/ t = 7).
  { intros t [([|] & _ & E)|[top E]]; [rewrite G in E|rewrite F in E|elim (N t top E)]; apply Rmult_integral in E; lra. }
  assert (PP := prec_pos). assert (PS : precision < 1) by (unfold precision; lra).
  split; [split; cbn; lra|]. split; [split|].
  - intros i _. unfold bend, d. cbn [vx vy vz]. rewrite Rabs_pos_eq; lra.
  - left. reflexivity.
  - intros [|] t _ E; [rewrite G in E|rewrite F in E]; apply Rmult_integral in E as [E|E]; [exists 6|exists 4|exists 7|exists 3]; (split; [lra|]); rewrite ?G, ?F; ring.
  - intros t u T U X. apply Q in T. apply Q in U. unfold Rabs. destruct (Rcase_abs (t - u)); lra.
  - intros t T. apply Q in T. lra.
  - intros _ t E E'. rewrite F in E. rewrite G in E'. apply Rmult_integral in E. apply Rmult_integral in E'. lra.
  - intros i t _ _. rewrite L, Rabs_R0. unfold c. cbn [co_z]. lra.
  - intros top t E. elim (N t top E).
  - split.
    + unfold in_frustum, radius_at, radial, on_line, vadd, vscale, c, p, d. cbn [vx vy vz co_z co_min1 co_min2 co_max1 co_max2]. replace (2 / 2 - - (2) / 2) with 2 by lra. repeat split; try lra; intros; lra.
    + intros (_ & H & _). specialize (H (or_introl Rlt_0_1)). unfold radius_at, radial, on_line, vadd, vscale, c, p, d in H. cbn [vx vy vz co_z co_min1 co_min2 co_max1 co_max2] in H. lra.
Qed.
