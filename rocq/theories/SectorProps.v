(** Properties C23, C24 and C34: sectors, their registration, and queries through the
    bounding volume hierarchy. *)
From Coq Require Import Reals ZArith String Lra Lia List Bool Permutation Sorted Arith.
From Verif Require Import TraversalModel VectorModel QuatModel QuatSpec QuatProofs GeometryModel GeometrySpec GeometryProofs GeometryCsg GeometryShape GeometryProps SectorModel SectorSpec SectorProofs SectorReg.
Import ListNotations.
Open Scope R_scope.

(** ** C23 *)

(** The containing sector is the one of the greatest level among all that contain the
    point, whatever the shape of the hierarchy; there is no other such sector. Sectors of
    infinite extent have to contain the point, the other boxes to enclose their
    geometries, and only the former may be at the least integer. *)
Theorem C23_containing : forall A big plan imin (m : detector A) p, rearranges plan -> reached big plan m ->
  (forall s, In s (d_sectors m) -> (imin <= s_level s)%Z /\ (world_box big (s_geo s) <> None -> imin < s_level s)%Z /\ sound_at big (s_geo s) p) ->
  exists r, containing big plan imin m p = Ok r /\ highest (d_sectors m) p r /\ forall r', highest (d_sectors m) p r' -> r' = r.
Proof.
  intros A big plan imin m p Pl R H. destruct (containing_ok big plan imin m p (reached_fresh big plan Pl m R) H) as (r & E & B). exists r. split; [auto|]. split; [auto|].
  intros r' H'. eapply highest_unique; eauto. apply (rg_levels _ (reached_registered big plan Pl m R)).
Qed.
Print Assumptions C23_containing.

(** In particular for sectors made of boxes, spheres and combinations: the sector found is
    the highest whose set of points contains the point, if no boundary is within three
    times [precision] along z. *)
Theorem C23_shapes : forall A big plan sort imin (m : detector A) (shape_of : sector A -> shape) p, rearranges plan -> sorts sort -> stable sort -> reached big plan m ->
  (forall s, In s (d_sectors m) -> s_geo s = shape_geo big sort (shape_of s) /\ well_formed (shape_of s) /\ settled (shape_of s) p (mkv 0 0 1) 0 (3 * precision) /\ (imin < s_level s)%Z) ->
  exists r, containing big plan imin m p = Ok r /\
    match r with
    | Some s => In s (d_sectors m) /\ in_shape (shape_of s) p /\ forall s', In s' (d_sectors m) -> in_shape (shape_of s') p -> (s_level s' <= s_level s)%Z
    | None => forall s, In s (d_sectors m) -> ~ in_shape (shape_of s) p
    end.
Proof.
  intros A big plan sort imin m shape_of p Pl So St R H.
  assert (I : forall s, In s (d_sectors m) -> (geo_inside (s_geo s) p = true <-> in_shape (shape_of s) p)).
  { intros s Hs. destruct (H s Hs) as (-> & W & S & _). apply shape_geo_inside; auto. }
  destruct (C23_containing A big plan imin m p Pl R) as (r & E & B & _).
  { intros s Hs. destruct (H s Hs) as (E & W & S & L). split; [lia|]. split; [auto|]. rewrite E. apply shape_sound_at; auto. }
  exists r. split; [auto|]. unfold highest in B. destruct r as [s|].
  - destruct B as (B1 & B2 & B3). split; [auto|]. split; [apply I; auto|]. intros s' Hs Hi. apply B3; auto. apply I; auto.
  - intros s Hs Hi. apply I in Hi; auto. rewrite B in Hi by auto. discriminate.
Qed.
Print Assumptions C23_shapes.

(** A detector with a ball in a box, found in the ball or only in the box. *)
Definition halves (l : list (nat * aabb)) : option (list (nat * aabb) * nat) := Some (rev l, 0%nat).
Lemma halves_ok : rearranges halves.
Proof. intros l l' m E. injection E as <- <-. apply Permutation_sym, Permutation_rev. Qed.
Definition huge : R := 10 ^ 308.
Definition outer_box : shape := SBox here 4 4 4.
Definition ball : shape := SSphere here 1 0.
Definition room : sector Datatypes.unit := mksector "room" 1 (shape_geo huge isort outer_box) tt.
Definition core : sector Datatypes.unit := mksector "core" 2 (shape_geo huge isort ball) tt.
Definition two : detector Datatypes.unit := step huge halves (step huge halves (step huge halves empty_detector (AddSector room)) (AddSector core)) Query.
Lemma two_reached : reached huge halves two.
Proof. repeat apply reached_step; try reflexivity. apply reached_empty. Qed.
Lemma two_sectors : d_sectors two = [room; core].
Proof. unfold two. cbn [step]. rewrite fresh_sectors. reflexivity. Qed.
Lemma here_placed : well_placed here.
Proof. split; [unfold unit, qnorm2; cbn; ring|intros _; exact here_local]. Qed.
Definition shape_of_two (s : sector Datatypes.unit) : shape := if Z.eqb (s_level s) 1 then outer_box else ball.
Lemma two_settled p : (p = mkv 0 0 0 \/ p = mkv 0 0 (3 / 2)) ->
  forall s, In s (d_sectors two) -> s_geo s = shape_geo huge isort (shape_of_two s) /\ well_formed (shape_of_two s) /\
    settled (shape_of_two s) p (mkv 0 0 1) 0 (3 * precision) /\ (-2147483648 < s_level s)%Z.
Proof.
  intros P s Hs. rewrite two_sectors in Hs.
  assert (Sb : forall u, Rabs u < 1 / 10 -> in_box 4 4 4 (on_line p (mkv 0 0 1) u)) by (intros u U; apply Rabs_def2 in U; destruct P as [-> | ->]; unfold in_box, on_line; cbn; unfold Rabs; repeat destruct (Rcase_abs _); lra).
  assert (Ss : forall u, Rabs u < 1 / 10 -> (in_shell 1 0 (on_line p (mkv 0 0 1) u) <-> p = mkv 0 0 0)).
  { intros u U. apply Rabs_def2 in U. unfold in_shell. rewrite mag_below by lra. unfold vdot, on_line. destruct P as [-> | ->]; cbn; split; intros X.
    - auto.
    - split; [nra|lra].
    - exfalso. destruct X as [X _]. nra.
    - exfalso. injection X as X. lra. }
  assert (T : 0 < 3 * precision < 1 / 10) by (unfold precision; lra).
  destruct Hs as [<-|[<-|[]]]; unfold shape_of_two; cbn [s_level room core Z.eqb Pos.eqb].
  - split; [reflexivity|]. split; [split; [apply here_placed|lra]|]. split; [|lia]. unfold settled. cbn [shape_placement outer_box settled_local in_local].
    destruct (here_local p) as (-> & _), (here_local (mkv 0 0 1)) as (_ & -> & _). intros u U. rewrite Rminus_0_r in U.
    split; intros _; apply Sb; rewrite ?Rabs_R0; lra.
  - split; [reflexivity|]. split; [split; [apply here_placed|unfold precision; lra]|]. split; [|lia]. unfold settled. cbn [shape_placement ball settled_local in_local].
    destruct (here_local p) as (-> & _), (here_local (mkv 0 0 1)) as (_ & -> & _). intros u U. rewrite Rminus_0_r in U.
    rewrite !Ss by (rewrite ?Rabs_R0; lra). tauto.
Qed.
Example C23_case : reached huge halves two /\ containing huge halves (-2147483648) two (mkv 0 0 0) = Ok (Some core) /\
  containing huge halves (-2147483648) two (mkv 0 0 (3 / 2)) = Ok (Some room).
Proof.
  split; [apply two_reached|].
  assert (B : forall p, in_shape outer_box p <-> in_box 4 4 4 p) by (intros p; unfold in_shape, outer_box; cbn; rewrite (proj1 (here_local p)); tauto).
  assert (S : forall p, in_shape ball p <-> vdot p p < 1).
  { intros p. unfold in_shape, ball. cbn. rewrite (proj1 (here_local p)). unfold in_shell. rewrite mag_below by lra. split; [intros [X _]|intros X; split]; lra. }
  split.
  - destruct (C23_shapes _ huge halves isort (-2147483648) two shape_of_two (mkv 0 0 0) halves_ok (proj1 isort_ok) (proj2 isort_ok) two_reached (two_settled _ (or_introl eq_refl))) as (r & -> & H).
    do 2 f_equal. rewrite two_sectors in H. destruct r as [s|].
    + destruct H as ([<-|[<-|[]]] & _ & H); [|reflexivity]. exfalso. specialize (H core (or_intror (or_introl eq_refl))).
      cbn [s_level core room] in H. assert (2 <= 1)%Z; [|lia]. apply H. apply S. unfold vdot; cbn; lra.
    + exfalso. apply (H core (or_intror (or_introl eq_refl))). apply S. unfold vdot; cbn; lra.
  - destruct (C23_shapes _ huge halves isort (-2147483648) two shape_of_two (mkv 0 0 (3 / 2)) halves_ok (proj1 isort_ok) (proj2 isort_ok) two_reached (two_settled _ (or_intror eq_refl))) as (r & -> & H).
    do 2 f_equal. rewrite two_sectors in H. destruct r as [s|].
    + destruct H as ([<-|[<-|[]]] & H & _); [reflexivity|]. exfalso. apply S in H. unfold vdot in H. cbn in H. lra.
    + exfalso. apply (H room (or_introl eq_refl)). apply B. unfold in_box. cbn. unfold Rabs. repeat destruct (Rcase_abs _); lra.
Qed.

Lemma huge_big : 10 < huge.
Proof. unfold huge. rewrite <- (pow_1 10) at 1. apply Rlt_pow; [lra|lia]. Qed.
Lemma box_outside big p : 10 < big -> vz p < -2 -> aabb_contains (node_bounds big [(0%nat, shape_bounds big outer_box)]) p = false.
Proof.
  intros B L. apply not_true_is_false. intros C. apply aabb_contains_iff in C. revert C. unfold node_bounds. cbn [fold_left snd].
  assert (low : forall b q, -2 <= vz (b_min b) -> -2 <= vz q -> -2 <= vz (b_min (expand_point b q))) by (intros; cbn; apply Rmin_glb; auto).
  assert (V : aabb_valid (box_bounds 4 4 4) = true) by (apply aabb_valid_iff; cbn; lra).
  assert (E : -2 <= vz (b_min (shape_bounds big outer_box))).
  { unfold outer_box. cbn [shape_bounds]. unfold world_bounds. rewrite V. cbn [fold_left]. repeat apply low; rewrite ?(proj2 (proj2 (here_local _))); cbn; lra. }
  assert (F : -2 <= vz (b_max (shape_bounds big outer_box))).
  { unfold outer_box. cbn [shape_bounds]. unfold world_bounds. rewrite V. cbn [fold_left]. unfold expand_point at 1. cbn [b_max vz].
    eapply Rle_trans; [|apply Rmax_r]. rewrite (proj2 (proj2 (here_local _))). cbn. lra. }
  intros (_ & _ & [X _]). assert (-2 <= vz (b_min (expand_box (empty_aabb big) (shape_bounds big outer_box)))); [|lra].
  unfold expand_box. apply low; auto. apply low; auto. cbn. lra.
Qed.
Lemma one_sector big plan imin (s : sector Datatypes.unit) p b : world_box big (s_geo s) = Some b ->
  containing big plan imin (step big plan empty_detector (AddSector s)) p =
  Ok (if aabb_valid b && negb (aabb_contains (node_bounds big [(0%nat, b)]) p) then None else snd (consider false (geo_inside (s_geo s) p) s (imin, None))).
Proof.
  intros W. unfold containing, fresh. cbn [step add_sector empty_detector has_level has_name existsb fst d_levels d_names d_sectors d_dirty app].
  unfold rebuild. cbn [d_sectors classify]. rewrite W. destruct (aabb_valid b) eqn:V.
  - cbn [List.length build d_sectors d_cache c_infinite c_invalid c_tree scan find_tree nth_error andb]. destruct (aabb_contains (node_bounds big [(0%nat, b)]) p); reflexivity.
  - reflexivity.
Qed.

(** A sector of finite extent at the least integer is never found. *)
Theorem C23_least_level_refuted : exists (m : detector Datatypes.unit) s p, reached huge halves m /\ In s (d_sectors m) /\ geo_inside (s_geo s) p = true /\
  containing huge halves (-2147483648) m p = Ok None.
Proof.
  set (s := mksector "a" (-2147483648) (shape_geo huge isort outer_box) tt : sector Datatypes.unit).
  set (m := step huge halves empty_detector (AddSector s)). exists m, s, (mkv 0 0 0). split; [apply reached_step; [apply reached_empty|reflexivity]|].
  split; [left; reflexivity|]. split.
  - unfold s. cbn [s_geo]. apply shape_geo_inside; try apply isort_ok; [split; [apply here_placed|lra]| |].
    + unfold settled, outer_box. cbn [shape_placement settled_local in_local]. destruct (here_local (mkv 0 0 0)) as (-> & _), (here_local (mkv 0 0 1)) as (_ & -> & _).
      intros u U. rewrite Rminus_0_r in U. unfold precision in U. apply Rabs_def2 in U. unfold in_box, on_line. cbn. unfold Rabs. split; intros _; repeat destruct (Rcase_abs _); lra.
    + unfold in_shape, outer_box. cbn. rewrite (proj1 (here_local _)). unfold in_box. cbn. unfold Rabs. repeat destruct (Rcase_abs _); lra.
  - unfold m. rewrite (one_sector _ _ _ s (mkv 0 0 0) (shape_bounds huge outer_box)) by reflexivity. f_equal. destruct (_ && _); [reflexivity|].
    unfold consider, s. cbn [s_level fst]. rewrite Z.ltb_irrefl. reflexivity.
Qed.
Print Assumptions C23_least_level_refuted.

(** A sector whose box is not finite is taken to contain every point, whatever its
    geometry, for instance an infinite sphere with a hole. *)
Theorem C23_infinite_refuted : exists (m : detector Datatypes.unit) s p, reached huge halves m /\ In s (d_sectors m) /\ geo_inside (s_geo s) p = false /\
  containing huge halves (-2147483648) m p = Ok (Some s).
Proof.
  set (s := mksector "a" 0 (mkgeo here (fun p d => if Rlt_dec (vdot p p) 1 then [mkhit 1 true (mkv 0 0 0)] else [mkhit 1 false (mkv 0 0 0)]) None) tt : sector Datatypes.unit).
  set (m := step huge halves empty_detector (AddSector s)). exists m, s, (mkv 0 0 0). split; [apply reached_step; [apply reached_empty|reflexivity]|].
  split; [left; reflexivity|]. split; [|reflexivity].
  unfold geo_inside, is_inside_default, is_inside, s. cbn [s_geo g_compute g_placement]. rewrite (proj1 (here_local _)).
  destruct (Rlt_dec _ 1) as [|n]; [|elim n; unfold vdot; cbn; lra]. cbn. destruct (Rlt_dec precision 1) as [|n]; [reflexivity|elim n; unfold precision; lra].
Qed.
Print Assumptions C23_infinite_refuted.

(** Closer to a surface than the tolerance, the hierarchy and the geometry disagree: the
    point is inside according to the geometry, but not found. *)
Theorem C23_surface_refuted : exists (m : detector Datatypes.unit) s p, reached huge halves m /\ d_sectors m = [s] /\ geo_inside (s_geo s) p = true /\
  containing huge halves (-2147483648) m p = Ok None.
Proof.
  set (p := mkv 0 0 (- 2 - precision / 2)). set (m := step huge halves empty_detector (AddSector room)). exists m, room, p.
  assert (Pp := precision_pos). assert (Ps : precision < 1) by (unfold precision; lra).
  split; [apply reached_step; [apply reached_empty|reflexivity]|]. split; [reflexivity|]. split.
  - unfold geo_inside, is_inside_default, is_inside, room. cbn [s_geo shape_geo g_compute g_placement shape_placement outer_box shape_compute].
    destruct (here_local p) as (-> & _), (here_local (mkv 0 0 1)) as (_ & -> & _).
    assert (Nz : mkv 0 0 1 <> mkv 0 0 0) by (intros E; injection E as E; lra).
    destruct (C42_box 4 4 4 p (mkv 0 0 1) ltac:(lra) ltac:(lra) ltac:(lra) Nz) as [[_ H]|(a & b & L & H & ->)].
    + exfalso. apply (H 2). unfold in_box, on_line, p. cbn. unfold Rabs. repeat destruct (Rcase_abs _); lra.
    + assert (Q : forall t, in_box 4 4 4 (on_line p (mkv 0 0 1) t) <-> precision / 2 <= t <= 4 + precision / 2).
      { intros t. unfold in_box, on_line, p. cbn. unfold Rabs. split; [intros (_ & _ & X)|intros X]; repeat destruct (Rcase_abs _); lra. }
      assert (Ea : a = precision / 2). { apply Rle_antisym; [apply (H (precision / 2)), Q; lra|apply Q, H; lra]. }
      assert (Eb : b = 4 + precision / 2). { apply Rle_antisym; [apply Q, H; lra|apply (H (4 + precision / 2)), Q; lra]. }
      assert (Sa : snap a < precision). { destruct (C42_snap a) as [X _]. apply Rabs_def2 in X. unfold snap in *. destruct (Rlt_dec 0 a); [destruct (Rlt_dec a precision)|]; cbn; lra. }
      assert (Sb : snap b = b) by (apply C42_snap; lra).
      cbn [first_forward h_distance h_entering]. destruct (Rlt_dec precision (snap a)); [lra|]. rewrite Sb. destruct (Rlt_dec precision b); [reflexivity|lra].
  - unfold m. rewrite (one_sector _ _ _ room p (shape_bounds huge outer_box)) by reflexivity.
    assert (Out : aabb_contains (node_bounds huge [(0%nat, shape_bounds huge outer_box)]) p = true -> False).
    { rewrite box_outside; [discriminate|exact huge_big|unfold p; cbn; lra]. }
    destruct (aabb_valid (shape_bounds huge outer_box)) eqn:V; cbn [andb].
    + destruct (aabb_contains _ p) eqn:C; [exfalso; exact (Out eq_refl)|reflexivity].
    + exfalso. assert (X : in_aabb (shape_bounds huge outer_box) (mkv 0 0 0)).
      { apply shape_bounds_ok; [split; [apply here_placed|lra]|]. unfold in_shape, outer_box. cbn. rewrite (proj1 (here_local _)). unfold in_box. cbn. unfold Rabs. repeat destruct (Rcase_abs _); lra. }
      assert (aabb_valid (shape_bounds huge outer_box) = true) by (apply aabb_valid_iff; unfold in_aabb in X; lra). congruence.
Qed.
Print Assumptions C23_surface_refuted.

(** ** C24 *)

(** The hits found through the hierarchy are those of every sector on its own, each as
    often, for every hierarchy and every line. A sector has to have no hits when the
    line misses its box. *)
Theorem C24_intersections : forall A big plan (m : detector A) p d, rearranges plan -> reached big plan m ->
  (forall s, In s (d_sectors m) -> sound_along (s_geo s) p d) ->
  exists r, get_intersections big plan m p d = Ok r /\ Permutation r (flat_map (fun s => map (fun h => (h, s_level s)) (intersections (g_compute (s_geo s)) (g_placement (s_geo s)) p d)) (d_sectors m)).
Proof. intros A big plan m p d Pl R H. exact (intersections_ok big plan m p d (reached_fresh big plan Pl m R) H). Qed.
Print Assumptions C24_intersections.

(** Unions and differences of placed boxes and spheres satisfy that. *)
Theorem C24_shapes : forall A big plan sort (m : detector A) p d, rearranges plan -> sorts sort -> stable sort -> reached big plan m -> vdot d d = 1 ->
  (forall s, In s (d_sectors m) -> exists sh, s_geo s = shape_geo big sort sh /\ well_formed sh /\ no_intersection sh) ->
  exists r, get_intersections big plan m p d = Ok r /\ Permutation r (flat_map (fun s => map (fun h => (h, s_level s)) (intersections (g_compute (s_geo s)) (g_placement (s_geo s)) p d)) (d_sectors m)).
Proof.
  intros A big plan sort m p d Pl So St R U H. apply C24_intersections; auto. intros s Hs. destruct (H s Hs) as (sh & -> & W & N). apply shape_sound_along; auto.
Qed.
Print Assumptions C24_shapes.

Example C24_case : reached huge halves two /\ vdot (mkv 0 0 1) (mkv 0 0 1) = 1 /\
  (forall s, In s (d_sectors two) -> exists sh, s_geo s = shape_geo huge isort sh /\ well_formed sh /\ no_intersection sh) /\
  exists r, get_intersections huge halves two (mkv 0 0 (-5)) (mkv 0 0 1) = Ok r /\ In (mkhit 3 true (mkv 0 0 (-2)), 1%Z) r.
Proof.
  assert (U : vdot (mkv 0 0 1) (mkv 0 0 1) = 1) by (unfold vdot; cbn; ring).
  assert (H : forall s, In s (d_sectors two) -> exists sh, s_geo s = shape_geo huge isort sh /\ well_formed sh /\ no_intersection sh).
  { intros s Hs. destruct (two_settled (mkv 0 0 0) (or_introl eq_refl) s Hs) as (E & W & _). exists (shape_of_two s). split; [auto|]. split; [auto|].
    unfold shape_of_two. destruct (Z.eqb _ _); exact Logic.I. }
  split; [apply two_reached|]. split; [exact U|]. split; [exact H|].
  destruct (C24_shapes _ huge halves isort two (mkv 0 0 (-5)) (mkv 0 0 1) halves_ok (proj1 isort_ok) (proj2 isort_ok) two_reached U H) as (r & E & P). exists r. split; [exact E|].
  apply (Permutation_in _ (Permutation_sym P)). apply in_flat_map. exists room. rewrite two_sectors. split; [left; auto|].
  apply in_map_iff. exists (mkhit 3 true (mkv 0 0 (-2))). split; [reflexivity|]. unfold intersections, room. cbn [s_geo shape_geo g_placement g_compute shape_placement outer_box p_identity here shape_compute].
  assert (Nz : mkv 0 0 1 <> mkv 0 0 0) by (intros X; injection X as X; lra).
  destruct (C42_box 4 4 4 (mkv 0 0 (-5)) (mkv 0 0 1) ltac:(lra) ltac:(lra) ltac:(lra) Nz) as [[_ X]|(a & b & L & X & ->)].
  - exfalso. apply (X 5). unfold in_box, on_line. cbn. unfold Rabs. repeat destruct (Rcase_abs _); lra.
  - assert (Q : forall t, in_box 4 4 4 (on_line (mkv 0 0 (-5)) (mkv 0 0 1) t) <-> 3 <= t <= 7).
    { intros t. unfold in_box, on_line. cbn. unfold Rabs. split; [intros (_ & _ & Y)|intros Y]; repeat destruct (Rcase_abs _); lra. }
    assert (Ea : a = 3) by (apply Rle_antisym; [apply (X 3), Q; lra|apply Q, X; lra]). subst a.
    left. assert (S3 : snap 3 = 3) by (apply C42_snap; unfold precision; lra). rewrite S3. f_equal. apply vec_eq; unfold on_line; cbn; lra.
Qed.

(** ** C34 *)

(** After any calls, of which only AddSector may have failed, levels and names are unique,
    and looking one up gives the sector that has it or throws. *)
Theorem C34_registered : forall A big plan (m : detector A), rearranges plan -> reached big plan m ->
  NoDup (map s_level (d_sectors m)) /\ NoDup (map s_name (d_sectors m)) /\
  (forall k s, get_sector m k = Ok s <-> In s (d_sectors m) /\ s_level s = k) /\
  (forall k s, get_sector_named m k = Ok s <-> In s (d_sectors m) /\ s_name s = k) /\
  (forall k, get_sector m k <> UB) /\ (forall k, get_sector_named m k <> UB).
Proof.
  intros A big plan m Pl R. destruct (reached_registered big plan Pl m R) as [a b c d [e f]]. exact (conj a (conj b (conj c (conj d (conj e f))))).
Qed.
Print Assumptions C34_registered.

(** AddSector accepts exactly new levels with new names; a call that throws changes
    nothing at all. *)
Theorem C34_add : forall A big plan (m : detector A) s, rearranges plan -> reached big plan m ->
  let '(m', threw) := add_sector m s in
  (threw = true <-> In (s_level s) (map s_level (d_sectors m)) \/ In (s_name s) (map s_name (d_sectors m))) /\
  d_sectors m' = (if threw then d_sectors m else d_sectors m ++ [s]) /\ (threw = true -> m' = m).
Proof.
  intros A big plan m s Pl R. pose proof (add_ok m s (proj1 (reached_kept big plan Pl m R))) as H. destruct (add_sector m s) as [m' threw]. destruct H as [_ H]. destruct threw.
  - destruct H as [-> H]. repeat split; auto.
  - destruct H as (E & _ & N1 & N2). split; [|split; [auto|discriminate]]. split; [discriminate|tauto].
Qed.
Print Assumptions C34_add.

(** SetSectors accepts exactly lists with unique levels and names, and the sectors are then
    the given ones, registered and with queries answered for them. *)
Theorem C34_set : forall A big plan (m : detector A) l, rearranges plan -> reached big plan m ->
  let '(m', threw) := set_sectors m l in
  (threw = false <-> NoDup (map s_level l) /\ NoDup (map s_name l)) /\ (threw = false -> d_sectors m' = l /\ reached big plan m').
Proof.
  intros A big plan m l Pl R. pose proof (set_ok m l) as H. pose proof (reached_step big plan m (SetSectors l) R) as Q. cbn [fails step] in Q.
  destruct (set_sectors m l) as [m' threw]. cbn [fst snd] in Q. destruct H as [H1 H2]. split; [exact H1|]. intros E. split; [apply H2; auto|auto].
Qed.
Print Assumptions C34_set.

Example C34_case : reached huge halves two /\ snd (add_sector two core) = true /\ snd (set_sectors two [core; room]) = false /\ get_sector_named two "core" = Ok core.
Proof.
  split; [apply two_reached|]. split; [|split; [reflexivity|]].
  - destruct (C34_registered _ huge halves two halves_ok two_reached) as (_ & _ & H & _). pose proof (C34_add _ huge halves two core halves_ok two_reached) as X.
    destruct (add_sector two core) as [m' threw]. apply X. left. rewrite two_sectors. right. left. reflexivity.
  - apply (C34_registered _ huge halves two halves_ok two_reached). rewrite two_sectors. split; [right; left; reflexivity|reflexivity].
Qed.

(** A SetSectors call that throws does leave a mark: the sectors are replaced, two of them
    share a level, and queries still use the old hierarchy, here reading past the end of
    the new sectors. *)
Theorem C34_set_refuted : exists (m : detector Datatypes.unit) l p, reached huge halves m /\ snd (set_sectors m l) = true /\
  (exists r, containing huge halves (-2147483648) m p = Ok r) /\
  d_sectors (fst (set_sectors m l)) <> d_sectors m /\ ~ NoDup (map s_level (d_sectors (fst (set_sectors m l)))) /\
  containing huge halves (-2147483648) (fst (set_sectors m l)) p = UB.
Proof.
  set (g := mkgeo here (fun _ _ => [mkhit 1 false (mkv 0 0 0)]) None).
  set (a := mksector "a" 0 g tt : sector Datatypes.unit). set (b := mksector "b" 1 g tt : sector Datatypes.unit). set (c := mksector "c" 2 g tt : sector Datatypes.unit).
  set (m := step huge halves (step huge halves empty_detector (SetSectors [a; b; c])) Query). exists m, [a; a], (mkv 0 0 0).
  split; [repeat apply reached_step; try reflexivity; apply reached_empty|]. split; [reflexivity|]. split; [eexists; reflexivity|].
  split; [discriminate|]. split; [|reflexivity]. cbn. intros N. apply NoDup_cons_iff in N as [N _]. apply N. left. reflexivity.
Qed.
Print Assumptions C34_set_refuted.
