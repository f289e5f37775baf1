(** Solids of which a range of azimuths is kept. *)
From Coq Require Import Reals ZArith List Bool Lra Lia Permutation Sorted.
From Verif Require Import VectorModel GeometryModel GeometrySpec EulerModel SolidModel SolidSpec SolidProofs SolidShapes SolidRound WedgeModel WedgeSpec WedgeProofs WedgeLine WedgeMerge.
Import ListNotations.
Open Scope R_scope.

Lemma strict_pairs (k : list (bool * hit)) : StronglySorted (fun a b => h_distance (snd a) <= h_distance (snd b)) k ->
  NoDup (map (fun x => h_distance (snd x)) k) -> apart_hits k.
Proof.
  intros So. induction So as [|x k So IH F]; intros ND'; [constructor|].
  cbn in ND'. apply NoDup_cons_iff in ND' as [NI ND'']. constructor; [apply IH; auto|]. rewrite Forall_forall in *. intros y Y. specialize (F y Y).
  destruct (Rle_lt_or_eq_dec _ _ F) as [L|E]; auto. exfalso. apply NI. rewrite E. apply in_map_iff. exists y. auto.
Qed.
Lemma sort_apart (sort : forall A : Type, (A -> R) -> list A -> list A) (l : list (bool * hit)) : sorts sort ->
  NoDup (map (fun x => h_distance (snd x)) l) -> apart_hits (sort _ (fun x => h_distance (snd x)) l).
Proof.
  intros HS ND. destruct (HS _ (fun x : bool * hit => h_distance (snd x)) l) as [Pm So]. apply strict_pairs; auto.
  eapply Permutation_NoDup; [apply Permutation_map, Permutation_sym, Pm|exact ND].
Qed.

Lemma below_pairs (l : list (bool * hit)) (m : R) : exists x, x < m /\ forall y, In y l -> x < h_distance (snd y).
Proof. destruct (below_all (map snd l) m) as (x & X & H). exists x. split; auto. intros y Y. apply H, in_map, Y. Qed.

Theorem cut_traces sort start delta p d (S : R -> Prop) surface : sorts sort -> 0 < delta < two_pi -> vx d * vx d + vy d * vy d <= 1 ->
  clear_wedge start delta p d ->
  (exists m, forall t, m < Rabs t -> ~ S t) ->
  NoDup (map h_distance surface) -> positioned p d surface ->
  (forall h, In h surface -> crosses S h) ->
  (forall t, (forall h, In h surface -> h_distance h <> t) -> exists c, steady S t c) ->
  (forall h, In h surface -> ~ on_face start delta (on_line p d (h_distance h))) ->
  let r := cut_hits sort start delta p d surface in
  traces (fun t => S t /\ in_wedge start delta (vx (on_line p d t)) (vy (on_line p d t))) r /\ positioned p d r.
Proof.
  intros HS D U K [m M] ND PO CR ST NF. cbv zeta. unfold cut_hits.
  set (raw := map (fun h => (false, h)) surface ++ map (fun h => (true, h)) (wedge_hits start delta p d)).
  set (all := sort _ (fun x : bool * hit => h_distance (snd x)) raw).
  set (W := wedge_at start delta p d).
  assert (PM : Permutation all raw) by apply HS.
  assert (IN : forall s h, In (s, h) all <-> if s : bool then In h (wedge_hits start delta p d) else In h surface).
  { intros s h. transitivity (In (s, h) raw); [split; apply Permutation_in; auto using Permutation_sym|]. unfold raw. rewrite in_app_iff, !in_map_iff. split.
    - intros [(k & E & I)|(k & E & I)]; injection E as <- <-; auto.
    - destruct s; intros I; [right|left]; eauto. }
  assert (WH : forall h, In h (wedge_hits start delta p d) -> on_face start delta (on_line p d (h_distance h))).
  { intros h I. apply (wedge_hits_are start delta p d K h D) in I as (t & e & -> & [(Z & C & _)|(Z & C & _)]); cbn [h_distance hit_at]; [left|right]; rewrite across_line; split; auto; lra. }
  assert (AP : apart_hits all).
  { apply sort_apart; auto. unfold raw. rewrite map_app, !map_map. cbn [snd]. apply nodup_app; auto; [apply wedge_hits_nodup; auto|].
    intros x X Y. apply in_map_iff in X as (h & <- & H). apply in_map_iff in Y as (k & E & I). apply (NF h H). rewrite <- E. auto. }
  destruct (wedge_switched start delta p d D K) as [SW1 SW2].
  assert (CW : forall h, In h (wedge_hits start delta p d) -> crosses W h).
  { intros h I. apply (wedge_hits_are start delta p d K h D) in I as (t & e & -> & SW). apply crosses_sides. cbn. apply SW1. exact SW. }
  assert (HW : forall t, (forall h, In h (wedge_hits start delta p d) -> h_distance h <> t) -> exists c, steady W t c).
  { intros t T. apply SW2. intros e E. apply (T (hit_at p d t e)); [|reflexivity]. apply (wedge_hits_are start delta p d K _ D). eauto. }
  destruct (backwards start delta p d D K) as [b B].
  destruct (below_pairs all (Rmin b (- Rabs m))) as (lo & L1 & L2). pose proof (Rmin_l b (- Rabs m)). pose proof (Rmin_r b (- Rabs m)).
  pose proof (Rabs_pos m) as M0. pose proof (RRle_abs m) as M1.
  set (bw := initial_phi_state (vx p) (vy p) (vx d) (vy d) start delta).
  destruct (merge_run S W all false bw lo) as (R1 & R2 & R3 & R4); auto.
  - intros h I. apply CR. now apply (IN false).
  - intros h I. apply CW. now apply (IN true).
  - intros t T N. apply ST. intros h I. apply N. now apply (IN false).
  - intros t T N. apply HW. intros h I. apply N. now apply (IN true).
  - exists (- Rabs m - lo). split; [lra|]. intros u Hu. split; [|discriminate]. intros X. elim (M u); auto. rewrite Rabs_left1; lra.
  - exists (b - lo). split; [lra|]. intros u Hu. unfold W. rewrite (B u) by lra. symmetry. now apply initial_ok.
  - cbn [andb] in *. split.
    + apply (toggles _ _ (Rabs m - lo)); auto.
      * intros t T [X _]. apply (M t); auto. lra.
      * intros t N. destruct (Rlt_dec lo t) as [L|L]; [apply R4; auto|]. exists false. apply steady_none_l.
        exists (- Rabs m - lo). split; [lra|]. intros u Hu. split; [|discriminate]. intros X. elim (M u); auto. rewrite Rabs_left1; lra.
    + unfold positioned in *. intros h I. destruct (R2 h I) as ([s k] & J & E1 & E2). cbn in E1, E2. rewrite <- E1, <- E2. apply IN in J. destruct s.
      * apply (wedge_hits_are start delta p d K k D) in J as (t & e & -> & _). reflexivity.
      * apply PO; auto.
Qed.

(** ** The surface of a cylinder *)
Section Surface.
Context (r i h : R) (p d : vec) (Hi : 0 <= i) (Hr : i < r) (Hh : 0 < h) (Hd : d <> mkv 0 0 0) (K : clear_cylinder r i h p d).
Let A := vx d * vx d + vy d * vy d.
Let B := vx p * vx d + vy p * vy d.
Let C s := vx p * vx p + vy p * vy p - s * s.
Let O t := A * t * t + 2 * B * t + C r < 0.
Let Z t := - h <= vz p + t * vz d <= h.
Let I t := 0 < i /\ A * t * t + 2 * B * t + C i < 0.
Let si t e := 0 < i /\ quad_switch A B (C i) t e.

Lemma surface_ok sort height : sorts sort -> height = 2 * h ->
  NoDup (map h_distance (surface_hits r i height p d)) /\
  cylinder_hits sort r i height p d = sort hit h_distance (surface_hits r i height p d) /\
  (forall k, In k (surface_hits r i height p d) -> on_wall r i (on_line p d (h_distance k)) \/ on_lid h (on_line p d (h_distance k))).
Proof.
  intros HS ->. pose proof prec_pos as P. assert (SQ : i * i < r * r) by nra. unfold cylinder_hits, surface_hits. replace (1 / 2 * (2 * h)) with h by field. cbn zeta.
  set (lo := test_barrel h p d (r * r) false).
  set (c1 := test_cap p d h (i * i) (r * r) _). set (c2 := test_cap p d (- h) (i * i) (r * r) _).
  match goal with |- context [sort hit h_distance (lo ++ c1 ++ c2 ++ ?y)] => set (li := y) end.
  assert (Co : covers p d lo (quad_switch A B (C r)) (fun t => Z t /\ ~ I t)).
  { apply (barrel_covers r i h p d Hd K r false); [lra|unfold on_wall; auto|]. intros t T. pose proof (cyl_quad p d i t) as Q. unfold I. split; [tauto|]. intros X. split; auto. intros [Y1 Y2].
    unfold C, A, B in *. cbn beta in Q. rewrite T in Q. lra. }
  assert (Cz : covers p d (c1 ++ c2) (slab_switch (vz p) (vz d) (- h) h) (fun t => O t /\ ~ I t)).
  { destruct (Req_EM_T (vz d) 0) as [E|N].
    - unfold c1, c2, test_cap. destruct (Req_EM_T (vz d) 0); [|contradiction]. apply covers_nil. intros t f [X _]. contradiction.
    - apply (covers_two p d _ _ _ _ ((h - vz p) / vz d) ((- h - vz p) / vz d) (if Rlt_dec (vz d) 0 then true else false) (if Rlt_dec 0 (vz d) then true else false)).
      + intros E. apply (f_equal (fun x => x * vz d)) in E. field_simplify in E; auto. lra.
      + intros t e. unfold slab_switch. tauto.
      + apply (cap_piece r i h p d Hi K); auto. rewrite Rabs_right; lra.
      + apply (cap_piece r i h p d Hi K); auto. rewrite Rabs_Ropp, Rabs_right; lra. }
  assert (Ci : covers p d li (fun t e => si t (negb e)) (fun t => Z t /\ O t)).
  { unfold li, si. destruct (Rlt_dec 0 i) as [I1|I1]; [|apply covers_nil; intros t e [X _]; lra].
    destruct (barrel_covers r i h p d Hd K i true (fun t => Z t /\ O t)) as [X1 X2]; auto.
    - unfold on_wall. auto.
    - intros t T. pose proof (cyl_quad p d r t) as Q. unfold O. split; [tauto|]. intros X. split; auto. unfold C, A, B in *. cbn beta in Q. rewrite T in Q. lra.
    - split; auto. intros k. rewrite X1. split; intros (t & e & Y1 & Y2 & Y3); exists t, e; tauto. }
  replace (lo ++ c1 ++ c2 ++ li) with (lo ++ (c1 ++ c2) ++ li) by (rewrite !app_assoc; reflexivity).
  pose proof (whole_nodup p d O Z I _ _ si (cyl_d1 r i h p d Hh K) (cyl_d2 r i p d Hr) (cyl_d3 r i h p d Hh K) lo (c1 ++ c2) li Co Cz Ci) as ND.
  set (all := lo ++ (c1 ++ c2) ++ li) in *. pose proof (sorted_strict sort all HS ND) as SS.
  assert (Q : forall k, In k all -> on_wall r i (on_line p d (h_distance k)) \/ on_lid h (on_line p d (h_distance k))).
  { intros k H. unfold all in H. rewrite !in_app_iff in H. destruct H as [H|[H|H]].
    - apply Co in H as (t & e & -> & H & _). left. left. apply (cyl_zero p d _ _ _ H).
    - rewrite <- in_app_iff in H. apply Cz in H as (t & e & -> & H & _). right. apply (cyl_lid h p d Hh _ _ H).
    - apply Ci in H as (t & e & -> & [H1 H] & _). left. right. split; auto. apply (cyl_zero p d _ _ _ H). }
  split; auto. split; auto. apply dedup_same; auto; [|intros x [=]].
  intros x y X Y N. apply (Permutation_in _ (proj1 (HS hit h_distance all))) in X. apply (Permutation_in _ (proj1 (HS hit h_distance all))) in Y.
  apply (cc_apart _ _ _ _ _ K); auto.
Qed.
End Surface.

Theorem cut_cylinder_ok sort r i height start delta p d : sorts sort -> 0 <= i -> i < r -> 0 < height ->
  vx d * vx d + vy d * vy d <= 1 -> 0 < delta < two_pi ->
  clear_cylinder r i (height / 2) p d -> clear_wedge start delta p d ->
  (forall t, on_wall r i (on_line p d t) \/ on_lid (height / 2) (on_line p d t) -> ~ on_face start delta (on_line p d t)) ->
  let l := cut_cylinder_hits sort r i height start delta true p d in
  traces (fun t => in_cylinder r i (height / 2) (on_line p d t) /\ in_wedge start delta (vx (on_line p d t)) (vy (on_line p d t))) l /\ positioned p d l.
Proof.
  intros HS Hi Hr Hh U D KC KW NF. cbv zeta. unfold cut_cylinder_hits.
  assert (Hd : d <> mkv 0 0 0).
  { intros ->. pose proof (cw_slope _ _ _ _ KW start (or_introl eq_refl)) as X. unfold across in X. cbn in X.
    replace (- 0 * sin start + 0 * cos start) with 0 in X by ring. rewrite Rabs_R0 in X. pose proof prec_pos. lra. }
  destruct (surface_ok r i (height / 2) p d Hi Hr ltac:(lra) Hd KC sort height HS ltac:(lra)) as (ND & E & Q).
  destruct (cyl_ok r i (height / 2) p d Hi Hr ltac:(lra) Hd KC sort height HS ltac:(lra)) as [T PO]. rewrite E in T, PO.
  assert (IN : forall k, In k (sort hit h_distance (surface_hits r i height p d)) <-> In k (surface_hits r i height p d)).
  { intros k. split; apply Permutation_in; [|apply Permutation_sym]; apply HS. }
  apply cut_traces; auto.
  - destruct (above_all (sort hit h_distance (surface_hits r i height p d)) 0) as (hi & H1 & H2).
    destruct (below_all (sort hit h_distance (surface_hits r i height p d)) 0) as (lo & L1 & L2).
    exists (Rmax hi (- lo)). intros t M X. pose proof (Rmax_l hi (- lo)). pose proof (Rmax_r hi (- lo)).
    assert (V : (forall k, In k (sort hit h_distance (surface_hits r i height p d)) -> h_distance k < t) \/ (forall k, In k (sort hit h_distance (surface_hits r i height p d)) -> t < h_distance k)).
    { revert M. unfold Rabs. destruct (Rcase_abs t); intros M; [right|left]; intros k J; [specialize (L2 k J)|specialize (H2 k J)]; lra. }
    apply (tr_state _ _ T) in X; [|intros k J; destruct V as [V|V]; specialize (V k J); lra]. rewrite state_fold in X. destruct V as [V|V].
    + rewrite fold_after with (b := false) in X; auto; [|apply (tr_alternating _ _ T)]. pose proof (tr_closed _ _ T) as CL. unfold closed in CL.
      apply Nat.even_spec in CL. rewrite CL in X. discriminate.
    + rewrite fold_before in X; [discriminate|]. intros k J. specialize (V k J). lra.
  - intros k J. apply (PO k). now apply IN.
  - intros k J. apply (tr_real _ _ T). now apply IN.
  - intros t N. apply (traces_steady _ _ _ T). intros k J. apply N. now apply IN.
Qed.
