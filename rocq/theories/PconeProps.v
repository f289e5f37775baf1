(** Properties C168 to C170: polycones. *)
From Coq Require Import Reals List Bool ZArith Lra Lia Psatz.
From Verif Require Import VectorModel GeometryModel GeometrySpec SolidSpec PconeModel PconeSpec PconeProofs.
Import ListNotations.
Open Scope R_scope.

(** ** C168: reading *)

Lemma scaled_parts lscale zs : map (fun e : R * R * R => fst (fst e) * lscale) zs = map pl_z (map (scaled lscale) zs) /\
  map (fun e : R * R * R => snd (fst e) * lscale) zs = map pl_min (map (scaled lscale) zs) /\ map (fun e : R * R * R => snd e * lscale) zs = map pl_max (map (scaled lscale) zs).
Proof. rewrite !map_map. auto. Qed.

(** C168: a polycone is made exactly of documents with at least two planes, never falling or never rising, with radii in order and a positive range; its planes are those of the document, from below. *)
Theorem C168_accepted zs lscale ascale start delta s : let planes := map (scaled lscale) zs in
  parse_polycone zs lscale ascale start delta = Solid s <->
  (2 <= length zs)%nat /\ Forall proper planes /\ 0 < range_given delta ascale /\
  ((rising planes /\ po_planes s = planes) \/ (falling planes /\ ~ rising planes /\ po_planes s = rev planes)) /\
  po_start s = start_given start ascale /\ po_delta s = Rmin (range_given delta ascale) (2 * PI) /\
  (po_cut s = true <-> po_delta s < 2 * PI - 1 / 10 ^ 9).
Proof.
  intros planes. unfold parse_polycone, phi_range. fold (start_given start ascale) (range_given delta ascale).
  destruct (scaled_parts lscale zs) as (-> & -> & ->). fold planes. assert (L : length (map pl_z planes) = length zs) by (unfold planes; now rewrite !map_length).
  rewrite L. destruct (Nat.ltb_spec (length zs) 2) as [Q|Q]; [split; [discriminate|lia]|].
  unfold z_monotone. rewrite L. destruct (Nat.ltb_spec (length zs) 2) as [Q'|_]; [lia|].
  destruct (flags_spec planes true true) as (E & X & Y). rewrite E. unfold make_polycone.
  pose proof (validate_spec planes) as V. assert (Lp : length planes = length zs) by (unfold planes; apply map_length).
  destruct (fst (flags (map pl_z planes) true true) || snd (flags (map pl_z planes) true true)) eqn:O; cbn [negb].
  - destruct (validate (map pl_z planes) (map pl_min planes) (map pl_max planes)) as [l|].
    + destruct (proj1 (V l) eq_refl) as (_ & P & W). destruct (Rle_dec (range_given delta ascale) 0) as [N|N].
      * split; [discriminate|]. intros (_ & _ & H & _). lra.
      * assert (M : (if Rlt_dec (2 * PI) (range_given delta ascale) then 2 * PI else range_given delta ascale) = Rmin (range_given delta ascale) (2 * PI)).
        { destruct (Rlt_dec (2 * PI) (range_given delta ascale)); [rewrite Rmin_right|rewrite Rmin_left]; lra. }
        rewrite M. set (de := Rmin (range_given delta ascale) (2 * PI)). split.
        -- intros H. assert (Es : mkpoly l (start_given start ascale) de (if Rlt_dec de (2 * PI - 1 / 10 ^ 9) then true else false) = s) by congruence.
           rewrite <- Es. clear H Es s. cbn [po_planes po_start po_delta po_cut]. split; [lia|]. split; [auto|]. split; [lra|]. split; [tauto|]. split; [auto|]. split; [auto|].
           destruct (Rlt_dec de (2 * PI - 1 / 10 ^ 9)) as [G|G]; [tauto|]. split; [intros H; discriminate H|intros H; contradiction].
        -- intros (_ & _ & _ & H & H1 & H2 & H3). f_equal. destruct s as [pl st dl cut]. cbn [po_planes po_start po_delta po_cut] in *. subst st dl.
           assert (EL : l = pl) by (destruct W as [[? ->]|(? & ? & ->)], H as [[? ->]|(? & ? & ->)]; auto; contradiction). subst l.
           f_equal. destruct (Rlt_dec de (2 * PI - 1 / 10 ^ 9)) as [G|G]; destruct cut; auto; [apply H3 in G; discriminate|exfalso; apply G, H3; auto].
    + split; [discriminate|]. intros (_ & P & _ & [[H _]|(H & H' & _)] & _).
      * destruct (V planes) as [_ V']. enough (None = Some planes) by discriminate. apply V'. split; [lia|auto].
      * destruct (V (rev planes)) as [_ V']. enough (None = Some (rev planes)) by discriminate. apply V'. split; [lia|]. split; auto.
  - split; [discriminate|]. apply orb_false_iff in O as [O1 O2]. intros (_ & _ & _ & [[H _]|(H & _ & _)] & _).
    + rewrite (proj2 X) in O1 by auto. discriminate.
    + rewrite (proj2 Y) in O2 by auto. discriminate.
Qed.
Print Assumptions C168_accepted.

(** C168: nothing at all is made of documents with fewer planes, and only of those. *)
Theorem C168_absent zs lscale ascale start delta : parse_polycone zs lscale ascale start delta = Absent <-> (length zs < 2)%nat.
Proof.
  unfold parse_polycone, phi_range. rewrite map_length. destruct (Nat.ltb_spec (length zs) 2) as [Q|Q]; [tauto|].
  split; [|lia]. destruct (negb _); [discriminate|]. destruct (make_polycone _ _ _ _ _); discriminate.
Qed.
Print Assumptions C168_absent.

(** C168: whatever the order in the document, the planes of the solid never fall. *)
Theorem C168_rising zs lscale ascale start delta s : parse_polycone zs lscale ascale start delta = Solid s -> rising (po_planes s) /\ Forall proper (po_planes s).
Proof.
  intros H. apply C168_accepted in H. destruct H as (_ & P & _ & [[H ->]|(H & _ & ->)] & _); auto. split; [now apply falling_rev|now apply Forall_rev].
Qed.
Print Assumptions C168_rising.

(** A document from above to below, in millimetres. *)
Example C168_case : exists s, parse_polycone [(20, 0, 10); (10, 0, 10); (10, 5, 20); (0, 5, 20)] (1 / 1000) 1 None (Some 1) = Solid s /\
  po_planes s = [mkplane 0 (5 * (1 / 1000)) (20 * (1 / 1000)); mkplane (10 * (1 / 1000)) (5 * (1 / 1000)) (20 * (1 / 1000));
                 mkplane (10 * (1 / 1000)) 0 (10 * (1 / 1000)); mkplane (20 * (1 / 1000)) 0 (10 * (1 / 1000))].
Proof.
  set (ps := map (scaled (1 / 1000)) [(20, 0, 10); (10, 0, 10); (10, 5, 20); (0, 5, 20)]).
  pose proof PI2_1 as PP. exists (mkpoly (rev ps) 0 (Rmin (1 * 1) (2 * PI)) true). split.
  - apply C168_accepted. fold ps. cbn [po_planes po_start po_delta po_cut]. split; [cbn; lia|].
    split; [repeat constructor; cbn; lra|]. split; [unfold range_given; lra|]. split.
    + right. split; [|split; auto].
      * unfold ps. cbn [map]. repeat apply falling_cons; try (cbn; lra). apply single_falling.
      * intros H. specialize (H [] (scaled (1 / 1000) (20, 0, 10)) [] (scaled (1 / 1000) (10, 0, 10)) [scaled (1 / 1000) (10, 5, 20); scaled (1 / 1000) (0, 5, 20)] eq_refl). cbn in H. lra.
    + split; [reflexivity|]. split; [reflexivity|]. split; auto. intros _. pose proof (Rmin_l (1 * 1) (2 * PI)). lra.
  - unfold ps, scaled. cbn [map rev app po_planes fst snd]. repeat (f_equal; try ring).
Qed.

(** ** C169: walls *)

(** C169: the crossings with a wall that the line does not run along are the points of the line on the wall between the planes, and each tells which way the line goes. *)
Theorem C169_wall p d lo hi rlo rhi invert : let f := outside_by p d lo hi rlo rhi in
  lo < hi -> 0 <= rlo -> 0 <= rhi -> (forall t, f t = 0 -> ~ 0 < t < precision) -> precision < Rabs (bend d lo hi rlo rhi) ->
  (forall h, In h (cone_hits p d lo hi rlo rhi invert) ->
     f (h_distance h) = 0 /\ lo <= vz (on_line p d (h_distance h)) < hi /\ h_position h = on_line p d (h_distance h) /\
     (h_entering h = negb invert -> goes_in f (h_distance h)) /\ (h_entering h = invert -> goes_out f (h_distance h))) /\
  (forall t u, f t = 0 -> f u = 0 -> u <> t -> lo <= vz (on_line p d t) < hi -> exists h, In h (cone_hits p d lo hi rlo rhi invert) /\ h_distance h = t).
Proof.
  intros f H1 H2 H3 H4 H5. destruct (cone_bent p d lo hi rlo rhi H1 H2 H3 H4 invert H5) as [K L]. split; auto.
  intros h I. destruct (K h I) as (A1 & A2 & A3 & A4). split; [exact A1|]. split; [exact A2|]. split; [exact A3|].
  split; intros E; rewrite E in A4; destruct invert; exact A4.
Qed.
Print Assumptions C169_wall.

(** C169: likewise for lines parallel to a side of the cone, which meet it once. *)
Theorem C169_parallel p d lo hi rlo rhi invert s : let f := outside_by p d lo hi rlo rhi in
  lo < hi -> 0 <= rlo -> 0 <= rhi -> (forall t, f t = 0 -> ~ 0 < t < precision) ->
  precision < Rabs s -> (forall t u, f u - f t = s * (u - t)) ->
  (forall h, In h (cone_hits p d lo hi rlo rhi invert) ->
     f (h_distance h) = 0 /\ lo <= vz (on_line p d (h_distance h)) < hi /\ h_position h = on_line p d (h_distance h) /\
     (h_entering h = negb invert -> goes_in f (h_distance h)) /\ (h_entering h = invert -> goes_out f (h_distance h))) /\
  (forall t, f t = 0 -> lo <= vz (on_line p d t) < hi -> exists h, In h (cone_hits p d lo hi rlo rhi invert) /\ h_distance h = t).
Proof.
  intros f H1 H2 H3 H4 H5 H6. destruct (cone_straight p d lo hi rlo rhi H1 H2 H3 H4 invert s H5 H6) as [K L]. split; auto.
  intros h I. destruct (K h I) as (A1 & A2 & A3 & A4). split; [exact A1|]. split; [exact A2|]. split; [exact A3|].
  split; intros E; rewrite E in A4; destruct invert; exact A4.
Qed.
Print Assumptions C169_parallel.

(** A level line through a cone of radius 3 below and 1 above, at half its height. *)
Example C169_case : let f := outside_by (mkv (- (5)) 0 1) (mkv 1 0 0) 0 2 3 1 in
  (forall t, f t = 0 -> ~ 0 < t < precision) /\ precision < Rabs (bend (mkv 1 0 0) 0 2 3 1) /\ f 3 = 0 /\ f 7 = 0 /\ goes_in f 3 /\
  exists h, In h (cone_hits (mkv (- (5)) 0 1) (mkv 1 0 0) 0 2 3 1 false) /\ h_distance h = 3.
Proof.
  intros f. assert (F : forall t, f t = (t - 3) * (t - 7)). { intros t. unfold f, outside_by, radius_at, radial, on_line, vadd, vscale. cbn [vx vy vz]. field. }
  assert (A1 : forall t, f t = 0 -> ~ 0 < t < precision). { intros t H. rewrite F in H. apply Rmult_integral in H. unfold precision. lra. }
  assert (A2 : precision < Rabs (bend (mkv 1 0 0) 0 2 3 1)). { unfold bend, precision. cbn [vx vy vz]. rewrite Rabs_pos_eq; lra. }
  split; [exact A1|]. split; [exact A2|]. split; [rewrite F; ring|]. split; [rewrite F; ring|]. split.
  - exists 1. split; [lra|]. split; intros u U; rewrite F; nra.
  - destruct (C169_wall (mkv (- (5)) 0 1) (mkv 1 0 0) 0 2 3 1 false) as [_ L]; try lra; auto. apply (L 3 7); try lra.
    + change (f 3 = 0). rewrite F. ring.
    + change (f 7 = 0). rewrite F. ring.
    + unfold on_line, vadd, vscale. cbn. lra.
Qed.

(** ** C170: steps *)

(** C170: at a height between the ends at which planes repeat, entries less exits of the rings are the change from the first to the last of these planes. *)
Theorem C170_steps p d x k u m l : let planes := x :: k ++ u :: m ++ l in
  let t := (pl_z u - vz p) / vz d in let r2 := radial (on_line p d t) in
  vz d <> 0 -> Forall proper planes -> (forall w, In w planes -> ~ 0 < (pl_z w - vz p) / vz d < precision) ->
  (forall w, In w (x :: k) -> pl_z w < pl_z u) -> (forall w, In w m -> pl_z w = pl_z u) -> (forall w, In w l -> pl_z u < pl_z w) -> l <> [] ->
  (forall w, In w (u :: m) -> r2 <> pl_min w * pl_min w /\ r2 <> pl_max w * pl_max w) ->
  net (at_time t (steps p d planes)) =
    ((if Rlt_dec 0 (vz d) then 1 else -1) *
     ((if between_radii (last m u) r2 then 1 else 0) - (if between_radii u r2 then 1 else 0)))%Z.
Proof.
  intros planes t r2 D P A K M L N C.
  assert (T : forall w, In w planes -> plane_time p d (pl_z w) = (pl_z w - vz p) / vz d) by (intros w I; unfold plane_time; apply snap_clear, A, I).
  assert (Iu : In u planes) by (right; apply in_or_app; right; now left).
  assert (Il : In (last m u) (u :: m)).
  { clear. destruct m as [|y m]; [now left|]. right. destruct (@exists_last _ (y :: m)) as (q & z & ->); [discriminate|]. rewrite last_last. apply in_or_app. right. now left. }
  assert (Sub : forall w, In w (u :: m) -> In w planes). { intros w [<-|I]; auto. right. apply in_or_app. right. right. apply in_or_app. now left. }
  assert (Et : t = plane_time p d (pl_z u)) by (symmetry; now apply T). rewrite Et. unfold planes. rewrite steps_at; auto.
  - assert (Er : plane_radius2 p d (pl_z u) = r2). { unfold plane_radius2. rewrite <- Et. reflexivity. }
    rewrite Forall_forall in P. rewrite step_net; auto; rewrite ?Er.
    + destruct (Rlt_dec 0 (vz d)); reflexivity.
    + destruct Il as [<-|I]; auto. symmetry. now apply M.
    + intros w [-> | ->]; apply C; auto. now left.
  - intros w H. assert (Iw : In w planes). { destruct H as [[<-|I]|I]; [now left|right; apply in_or_app; now left|right; apply in_or_app; right; right; apply in_or_app; now right]. }
    assert (Zw : pl_z w <> pl_z u) by (destruct H as [I|I]; [specialize (K w I)|specialize (L w I)]; lra).
    rewrite !T by auto. intros E. apply Zw. apply (f_equal (fun x => x * vz d)) in E. unfold Rdiv in E. rewrite !Rmult_assoc, Rinv_l in E by auto. lra.
Qed.
Print Assumptions C170_steps.

(** C170: a line along the axis of a stack of tubes meets nothing but lids and rings. *)
Theorem C170_stack p d u v l : vx d = 0 -> vy d = 0 -> precision < Rabs (vz d) ->
  (forall a x y b, u :: v :: l = a ++ x :: y :: b -> pl_z x < pl_z y -> pl_min x = pl_min y /\ pl_max x = pl_max y) ->
  polycone_hits (u :: v :: l) p d =
    lid_hits p d u (if Rlt_dec 0 (vz d) then true else false) ++ lid_hits p d (last (u :: v :: l) u) (if Rlt_dec (vz d) 0 then true else false) ++ steps p d (u :: v :: l).
Proof.
  intros X Y Z H. unfold polycone_hits. rewrite stack_sections by auto. destruct (Rlt_dec precision (Rabs (vz d))); [reflexivity|contradiction].
Qed.
Print Assumptions C170_stack.

(** A tube of radius 1 below one between 1/2 and 2, and a line at 3/2 from the axis. *)
Example C170_case : net (at_time 2 (steps (mkv (3 / 2) 0 (- (1))) (mkv 0 0 1) [mkplane 0 0 1; mkplane 1 0 1; mkplane 1 (1 / 2) 2; mkplane 2 (1 / 2) 2])) = 1%Z.
Proof.
  pose proof (C170_steps (mkv (3 / 2) 0 (- (1))) (mkv 0 0 1) (mkplane 0 0 1) [] (mkplane 1 0 1) [mkplane 1 (1 / 2) 2] [mkplane 2 (1 / 2) 2]) as H. cbv zeta in H.
  assert (T : (pl_z (mkplane 1 0 1) - vz (mkv (3 / 2) 0 (- (1)))) / vz (mkv 0 0 1) = 2) by (cbn; field). rewrite T in H.
  assert (E : radial (on_line (mkv (3 / 2) 0 (- (1))) (mkv 0 0 1) 2) = 9 / 4) by (unfold radial, on_line, vadd, vscale; cbn; field). rewrite E in H.
  cbn [app] in H. rewrite H; clear H.
  - unfold between_radii. cbn [last pl_min pl_max vz]. destruct (Rlt_dec 0 1); [|lra].
    destruct (Rle_dec (1 / 2 * (1 / 2)) (9 / 4)); [|lra]. destruct (Rlt_dec (9 / 4) (2 * 2)); [|lra]. destruct (Rle_dec (0 * 0) (9 / 4)); [|lra]. destruct (Rlt_dec (9 / 4) (1 * 1)); [lra|]. reflexivity.
  - cbn. lra.
  - repeat constructor; cbn; lra.
  - unfold precision. intros w [<-|[<-|[<-|[<-|[]]]]]; cbn [pl_z vz]; unfold Rdiv; rewrite Rinv_1; lra.
  - intros w [<-|[]]; cbn; lra.
  - intros w [<-|[]]; reflexivity.
  - intros w [<-|[]]; cbn; lra.
  - discriminate.
  - intros w [<-|[<-|[]]]; cbn; lra.
Qed.

(** Finding (C170): a repeated height at the lower end is accepted, but the ring between its radii is no lid: a line that goes in through it only leaves. *)
Theorem C170_end_refuted : exists planes p d,
  validate (map pl_z planes) (map pl_min planes) (map pl_max planes) = Some planes /\
  (forall z, 0 < z < 1 -> exists u v, In u planes /\ In v planes /\ pl_z u < z < pl_z v /\ pl_max u = 2 /\ pl_max v = 2) /\
  radial p = 9 / 4 /\ polycone_hits planes p d = [mkhit 2 false (mkv (3 / 2) 0 1)].
Proof.
  exists [mkplane 0 0 1; mkplane 0 0 2; mkplane 1 0 2], (mkv (3 / 2) 0 (- (1))), (mkv 0 0 1). split; [|split; [|split]].
  - apply validate_spec. split; [cbn; lia|]. split; [repeat constructor; cbn; lra|]. left. split; auto. repeat apply rising_cons; try (cbn; lra). apply single_rising.
  - intros z Z. exists (mkplane 0 0 2), (mkplane 1 0 2). cbn. repeat split; auto; lra.
  - unfold radial. cbn. field.
  - rewrite C170_stack; auto.
    + cbn [last steps group_hits]. unfold lid_hits, step_hits, ring_hits, plane_radius2, plane_time. cbn [pl_z pl_min pl_max vx vy vz].
      replace ((0 - - (1)) / 1) with 1 by field. replace ((1 - - (1)) / 1) with 2 by field. rewrite !snap_clear by (unfold precision; lra).
      unfold point_at. cbn [vx vy vz]. rewrite !Rmax_left by lra. rewrite !Rmax_right by lra. unfold precision.
      destruct (Req_EM_T 2 2); [|contradiction]. destruct (Req_EM_T 0 0); [|contradiction].
      destruct (Rle_dec ((3 / 2 + 1 * 0) * (3 / 2 + 1 * 0) + (0 + 1 * 0) * (0 + 1 * 0)) _) as [H|_]; [exfalso; lra|].
      destruct (Rle_dec ((3 / 2 + 2 * 0) * (3 / 2 + 2 * 0) + (0 + 2 * 0) * (0 + 2 * 0)) _) as [_|H]; [|exfalso; lra].
      destruct (Rle_dec _ _) as [_|H]; [|exfalso; lra]. destruct (Rlt_dec 1 0); [lra|]. cbn [app]. repeat (f_equal; try field).
    + unfold precision. cbn. rewrite Rabs_R1. lra.
    + intros a x y b E. destruct a as [|a0 [|a1 [|a2 [|]]]]; try discriminate; injection E; intros; subst; cbn in *; try lra; auto.
Qed.
Print Assumptions C170_end_refuted.
