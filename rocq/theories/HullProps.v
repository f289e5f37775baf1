(** Properties C121 and C122: crossings of lines with parallelepipeds and general
    trapezoids, and the boxes around these. *)
From Coq Require Import Reals Lra Lia List Bool Arith.
From Verif Require Import VectorModel GeometryModel GeometrySpec HullModel HullSpec HullProofs HullTrap.
Import ListNotations.
Open Scope R_scope.

(** ** C121: parallelepipeds *)

(** C121: a parallelepiped is made exactly when its half lengths are positive. *)
Theorem C121_make dx dy dz alpha theta phi : make_para dx dy dz alpha theta phi = None <-> dx <= 0 \/ dy <= 0 \/ dz <= 0.
Proof. unfold make_para. destruct (Rle_dec dx 0), (Rle_dec dy 0), (Rle_dec dz 0); split; auto; try discriminate; lra. Qed.
Print Assumptions C121_make.

(** C121: the crossings found bound exactly the part of the line in the parallelepiped, up to moving those just ahead of the origin to it; there are none exactly if no point is in it. *)
Theorem C121_crossings dx dy dz alpha theta phi fs p d : make_para dx dy dz alpha theta phi = Some fs -> d <> mkv 0 0 0 ->
  (forall n, In n (para_normals dy dz alpha theta phi) -> oblique n d) ->
  (para_hits fs p d = Some [] /\ forall t, ~ in_para dx dy dz alpha theta phi (on_line p d t)) \/
  (exists e x, clips (fun t => in_para dx dy dz alpha theta phi (on_line p d t)) e x /\
    para_hits fs p d = Some [mkhit (snap e) true (on_line p d (snap e)); mkhit (snap x) false (on_line p d (snap x))]).
Proof.
  unfold make_para. destruct (Rle_dec dx 0), (Rle_dec dy 0), (Rle_dec dz 0); try discriminate. intros E N O. injection E as <-.
  destruct (para_clip (para_faces dx dy dz alpha theta phi) p d) as [[A B]|(e & x & [A B] & C)].
  - apply para_steep; auto; lra.
  - apply para_some; auto; lra.
  - left. split; auto. intros t T. apply (B t). apply para_inside; auto; lra.
  - right. exists e, x. split; auto. split; auto. intros t. rewrite <- para_inside by lra. apply B.
Qed.
Print Assumptions C121_crossings.

(** C121: the box around a parallelepiped holds all of it. *)
Theorem C121_bounds big dx dy dz alpha theta phi q : in_para dx dy dz alpha theta phi q -> in_aabb (corner_bounds big (para_corners dx dy dz alpha theta phi)) q.
Proof.
  intros (a & b & c & A & B & C & X & Y & Z). rewrite abs_two in *. apply bounds_between.
  exists [(1 - a) / 2 * ((1 - b) / 2) * ((1 - c) / 2); (1 - a) / 2 * ((1 - b) / 2) * ((1 + c) / 2); (1 - a) / 2 * ((1 + b) / 2) * ((1 - c) / 2); (1 - a) / 2 * ((1 + b) / 2) * ((1 + c) / 2);
    (1 + a) / 2 * ((1 - b) / 2) * ((1 - c) / 2); (1 + a) / 2 * ((1 - b) / 2) * ((1 + c) / 2); (1 + a) / 2 * ((1 + b) / 2) * ((1 - c) / 2); (1 + a) / 2 * ((1 + b) / 2) * ((1 + c) / 2)].
  split; [reflexivity|]. split; [repeat (apply Forall_cons; [apply Rmult_le_pos; [apply Rmult_le_pos; lra|lra]|]); apply Forall_nil|]. split; [cbn; field|].
  destruct q as [x y z]. cbn [vx vy vz] in *. subst. unfold para_corners, para_edges. cbn [flat_map map app]. unfold vadd, vscale. cbn [vx vy vz weighted]. unfold vadd, vscale. cbn [vx vy vz]. f_equal; field.
Qed.
Print Assumptions C121_bounds.

(** Finding (C121): a line off parallel to a face by less than the precision that begins just beyond the plane of the face is found to miss the parallelepiped it goes through. *)
Theorem C121_parallel_refuted : exists fs p d, make_para 1 1 1 0 0 0 = Some fs /\ d <> mkv 0 0 0 /\
  (forall t, 1 <= t <= 3 -> in_para 1 1 1 0 0 0 (on_line p d t)) /\ para_hits fs p d = Some [].
Proof.
  exists (para_faces 1 1 1 0 0 0), (mkv (- (2)) 0 (1 + 1 / 10 ^ 10)), (mkv 1 0 (- (5 / 10 ^ 10))).
  assert (T0 : tan 0 = 0) by apply tan_0. split.
  { unfold make_para. destruct (Rle_dec 1 0); [lra|]. reflexivity. }
  split; [intros E; injection E; lra|]. split.
  - intros t T. exists (- (2) + t), 0, (1 + 1 / 10 ^ 10 - t * (5 / 10 ^ 10)). rewrite T0. unfold on_line, vadd, vscale. cbn [vx vy vz]. rewrite !abs_two. repeat split; lra.
  - unfold para_hits. destruct (para_faces_form 1 1 1 0 0 0) as (k1 & k2 & k3 & K1 & K2 & K3 & _); try lra.
    assert (N3 : face_normal (mkv 1 0 0) (mkv (1 * tan 0) 1 0) = mkv 0 0 1).
    { unfold face_normal. rewrite T0. unfold vcross, vmag, vdiv. cbn [vx vy vz]. replace (sqrt _) with 1 by (symmetry; apply sqrt_lem_1; lra). destruct (Rlt_dec 0 1); [|lra]. f_equal; field. }
    assert (N2 : face_normal (mkv (1 * tan 0 * cos 0) (1 * tan 0 * sin 0) 1) (mkv 1 0 0) = mkv 0 1 0).
    { unfold face_normal. rewrite T0. unfold vcross, vmag, vdiv. cbn [vx vy vz]. replace (sqrt _) with 1 by (symmetry; apply sqrt_lem_1; lra). destruct (Rlt_dec 0 1); [|lra]. f_equal; field. }
    assert (N1 : face_normal (mkv (1 * tan 0) 1 0) (mkv (1 * tan 0 * cos 0) (1 * tan 0 * sin 0) 1) = mkv 1 0 0).
    { unfold face_normal. rewrite T0. unfold vcross, vmag, vdiv. cbn [vx vy vz]. replace (sqrt _) with 1 by (symmetry; apply sqrt_lem_1; lra). destruct (Rlt_dec 0 1); [|lra]. f_equal; field. }
    unfold para_faces, para_edges. rewrite N1, N2, N3. rewrite T0. unfold vdot. cbn [vx vy vz].
    assert (R1 : Rabs (1 * 1 + 0 * 0 + 0 * 0) = 1) by (rewrite Rabs_pos_eq; lra). rewrite R1.
    assert (R2 : Rabs (0 * (1 * 0) + 1 * 1 + 0 * 0) = 1) by (rewrite Rabs_pos_eq; lra). rewrite R2.
    assert (R3 : Rabs (0 * (1 * 0 * cos 0) + 0 * (1 * 0 * sin 0) + 1 * 1) = 1) by (rewrite Rabs_pos_eq; lra). rewrite R3.
    cbn [para_scan]. unfold vdot. cbn [vx vy vz]. unfold Rabs, precision. repeat (destruct (Rcase_abs _); try (exfalso; lra)).
    destruct (Rlt_dec _ _) as [L|L]; [exfalso; lra|]. destruct (Rlt_dec _ _) as [L1|L1]; [exfalso; lra|]. cbn [later sooner passed]. destruct (Rlt_dec _ _) as [L2|L2]; [reflexivity|].
    cbn [later sooner passed]. destruct (Rlt_dec _ _) as [L3|L3]; [|exfalso; lra]. destruct (Rlt_dec _ _) as [L4|L4]; [exfalso; lra|].
    destruct (Rlt_dec _ _) as [L5|L5]; [|exfalso; lra]. destruct (Rlt_dec _ _) as [L6|L6]; [reflexivity|exfalso; lra].
Qed.
Print Assumptions C121_parallel_refuted.

Lemma sqrt_small s : 0 <= s -> sqrt s <= 1 + s.
Proof. intros S. pose proof (sqrt_sqrt s S). pose proof (sqrt_pos s). nra. Qed.
Lemma oblique_num n d : vdot n d = 0 \/ precision * (1 + vdot n n) <= Rabs (vdot n d) -> oblique n d.
Proof.
  intros [H|H]; [left; auto|right]. assert (Q : 0 <= vdot n n) by (unfold vdot; nra). pose proof (sqrt_small _ Q). pose proof hull_prec. nra.
Qed.
Ltac oblique_by := apply oblique_num; unfold vdot, vcross, vsub, precision; cbn [vx vy vz]; first [left; ring | right; unfold Rabs; destruct (Rcase_abs _); lra].

Example C121_case : (forall n, In n (para_normals 2 3 (PI / 4) 0 0) -> oblique n (mkv 1 0 1)) /\ in_para 1 2 3 (PI / 4) 0 0 (on_line (mkv 0 0 0) (mkv 1 0 1) (1 / 2)) /\
  make_para 1 2 3 (PI / 4) 0 0 = Some (para_faces 1 2 3 (PI / 4) 0 0).
Proof.
  assert (T0 : tan 0 = 0) by apply tan_0. assert (T1 : tan (PI / 4) = 1) by apply tan_PI4. split; [|split].
  - intros n [<-|[<-|[<-|[]]]]; rewrite ?T0, ?T1; oblique_by.
  - exists (1 / 2), 0, (1 / 6). rewrite T0, T1. unfold on_line, vadd, vscale. cbn [vx vy vz]. rewrite !abs_two. repeat split; lra.
  - unfold make_para. destruct (Rle_dec 1 0); [lra|]. destruct (Rle_dec 2 0); [lra|]. destruct (Rle_dec 3 0); [lra|]. reflexivity.
Qed.

(** ** C122: general trapezoids *)
Definition corners_of (s : trap) : list vec :=
  trap_corners (t_dz s) (t_theta s) (t_phi s) (t_dy1 s) (t_dx1 s) (t_dx2 s) (t_alpha1 s) (t_dy2 s) (t_dx3 s) (t_dx4 s) (t_alpha2 s).
Lemma vertices_corners s : trap_vertices s = corners_of s.
Proof. unfold trap_vertices, corners_of, trap_corners, corner. cbn zeta. repeat (f_equal; [f_equal; ring|]). f_equal. f_equal; ring. Qed.

(** C122: the planes of the faces bound exactly the points between the corners, if the sides are flat and have not shrunk. *)
Theorem C122_planes s q : full_sides (t_dz s) (t_dy1 s) (t_dx1 s) (t_dx2 s) (t_dy2 s) (t_dx3 s) (t_dx4 s) ->
  flat_sides (t_dy1 s) (t_dx1 s) (t_dx2 s) (t_alpha1 s) (t_dy2 s) (t_dx3 s) (t_dx4 s) (t_alpha2 s) ->
  ((forall n c, In (n, c) (trap_planes (trap_vertices s)) -> vdot n q + c <= 0) <-> between_points (corners_of s) q).
Proof.
  intros (Z & Y1 & Y2 & X1 & X2 & X3 & X4) (A & F).
  assert (V : exists x0 x1 x2 x3 x4 x5 x6 x7 y0 y1 y2 y3, trap_vertices s =
      [mkv x0 y0 (- t_dz s); mkv x1 y0 (- t_dz s); mkv x2 y1 (- t_dz s); mkv x3 y1 (- t_dz s); mkv x4 y2 (t_dz s); mkv x5 y2 (t_dz s); mkv x6 y3 (t_dz s); mkv x7 y3 (t_dz s)] /\
      y0 < y1 /\ y2 < y3 /\ x0 < x1 /\ x3 < x2 /\ x4 <= x5 /\ x7 < x6 /\ (x3 - x0) * (y3 - y2) = (x7 - x4) * (y1 - y0) /\ (x2 - x1) * (y3 - y2) = (x6 - x5) * (y1 - y0)).
  { unfold trap_vertices. cbn zeta. do 12 eexists. split; [reflexivity|]. repeat split; try lra; rewrite A; lra. }
  destruct V as (x0 & x1 & x2 & x3 & x4 & x5 & x6 & x7 & y0 & y1 & y2 & y3 & E & H1 & H2 & H3 & H4 & H5 & H6 & H7 & H8).
  assert (B : behind (trap_planes (trap_vertices s)) q <-> between_points (trap_vertices s) q).
  { rewrite E. split; [apply behind_between; auto|apply between_behind; auto]. }
  rewrite <- vertices_corners, <- B. unfold behind. split; [intros H [n c] I; apply H; auto|intros H n c I; apply (H (n, c) I)].
Qed.
Print Assumptions C122_planes.

Lemma trap_steep vs d : clear_trap vs d -> steep (trap_planes vs) d.
Proof.
  intros C f F. unfold trap_planes in F. apply in_map_iff in F as ([[i j] k] & <- & F). apply outward_steep. apply (C i j k). exact F.
Qed.

(** C122: the crossings found bound exactly the part of the line between the corners; there are none if that is at most a point. *)
Theorem C122_crossings s p d : full_sides (t_dz s) (t_dy1 s) (t_dx1 s) (t_dx2 s) (t_dy2 s) (t_dx3 s) (t_dx4 s) ->
  flat_sides (t_dy1 s) (t_dx1 s) (t_dx2 s) (t_alpha1 s) (t_dy2 s) (t_dx3 s) (t_dx4 s) (t_alpha2 s) ->
  d <> mkv 0 0 0 -> clear_trap (corners_of s) d ->
  (trap_hits (trap_planes (trap_vertices s)) p d = Some [] /\
    forall t u, between_points (corners_of s) (on_line p d t) -> between_points (corners_of s) (on_line p d u) -> t = u) \/
  (exists e x, e < x /\ clips (fun t => between_points (corners_of s) (on_line p d t)) e x /\
    trap_hits (trap_planes (trap_vertices s)) p d = Some [mkhit e true (on_line p d e); mkhit x false (on_line p d x)]).
Proof.
  intros F L N C.
  assert (B : forall q, behind (trap_planes (trap_vertices s)) q <-> between_points (corners_of s) q).
  { intros q. rewrite <- (C122_planes s q F L). unfold behind. split; [intros H n c I; apply (H (n, c) I)|intros H [n c] I; apply H; auto]. }
  destruct (leaves (corner_bounds 0 (corners_of s)) p d N) as [m M].
  destruct (trap_clip (trap_planes (trap_vertices s)) p d m) as [[H U]|(e & x & H & [I J] & K)].
  - apply trap_steep. rewrite vertices_corners. auto.
  - intros t T H. apply B in H. apply (M t T). apply bounds_between. auto.
  - left. split; auto. intros t u T U'. apply U; apply B; auto.
  - right. exists e, x. split; auto. split; auto. split; auto. intros t. rewrite <- B. apply J.
Qed.
Print Assumptions C122_crossings.

(** C122: the box around a general trapezoid holds all points between its corners. *)
Theorem C122_bounds big s q : between_points (corners_of s) q -> in_aabb (corner_bounds big (trap_vertices s)) q.
Proof. rewrite <- vertices_corners. apply bounds_between. Qed.
Print Assumptions C122_bounds.

(** C122: the constructor accepts exactly a positive height and widths and depths that are not negative. *)
Theorem C122_valid s : trap_valid s = true <->
  0 < t_dz s /\ 0 <= t_dx1 s /\ 0 <= t_dx2 s /\ 0 <= t_dx3 s /\ 0 <= t_dx4 s /\ 0 <= t_dy1 s /\ 0 <= t_dy2 s.
Proof.
  unfold trap_valid. destruct (Rle_dec (t_dz s) 0); [split; [discriminate|lra]|].
  destruct (Rlt_dec (t_dx1 s) 0); [split; [discriminate|lra]|]. destruct (Rlt_dec (t_dx2 s) 0); [split; [discriminate|lra]|].
  destruct (Rlt_dec (t_dx3 s) 0); [split; [discriminate|lra]|]. destruct (Rlt_dec (t_dx4 s) 0); [split; [discriminate|lra]|].
  destruct (Rlt_dec (t_dy1 s) 0); [split; [discriminate|lra]|]. destruct (Rlt_dec (t_dy2 s) 0); [split; [discriminate|lra]|]. split; auto. intros _. lra.
Qed.
Print Assumptions C122_valid.

Lemma scan_parallel fs p d e x : (forall f, In f fs -> vdot (fst f) d = 0 /\ vdot (fst f) p + snd f <= 0) -> trap_scan fs p d e x = Some (e, x).
Proof.
  induction fs as [|[n c] fs IH]; intros H; cbn; auto. destruct (H (n, c) (or_introl eq_refl)) as [A B]. cbn in A, B. rewrite A, Rabs_R0.
  pose proof hull_prec. destruct (Rlt_dec 0 precision); [|lra]. destruct (Rlt_dec 0 _); [lra|]. apply IH. intros f F. apply H. right. auto.
Qed.
Lemma plane_none m a b c : vcross (vsub b a) (vsub c a) = mkv 0 0 0 -> outward m (compute_plane a b c) = (mkv 0 0 0, - vdot (mkv 0 0 0) a).
Proof.
  intros E. unfold compute_plane, face_normal. rewrite E. cbn zeta. unfold vmag. cbn [vx vy vz]. replace (0 * 0 + 0 * 0 + 0 * 0) with 0 by ring. rewrite sqrt_0. destruct (Rlt_dec 0 0); [lra|].
  unfold outward. cbn [fst snd]. rewrite !dot_zero. destruct (Rlt_dec 0 _); [lra|reflexivity].
Qed.
Lemma plane_parallel m a b c d : vdot (vcross (vsub b a) (vsub c a)) d = 0 -> vdot (fst (outward m (compute_plane a b c))) d = 0.
Proof.
  intros E. assert (G : vdot (face_normal (vsub b a) (vsub c a)) d = 0).
  { unfold face_normal. cbn zeta. destruct (Rlt_dec 0 _) as [L|L]; auto. transitivity (vdot (vcross (vsub b a) (vsub c a)) d / vmag (vcross (vsub b a) (vsub c a))); [unfold vdot, vdiv; cbn [vx vy vz]; field; lra|]. rewrite E. unfold Rdiv. ring. }
  unfold outward, compute_plane. cbn [fst snd]. destruct (Rlt_dec 0 _); cbn [fst]; auto. transitivity (- vdot (face_normal (vsub b a) (vsub c a)) d); [unfold vdot, vneg; cbn; ring|]. rewrite G. ring.
Qed.

(** Finding (C122): a wedge, whose lower end has no depth, is accepted; three of its faces, computed from corners that coincide, are lost, and a line across is inside from minus infinity to infinity. *)
Theorem C122_wedge_refuted : exists s p d, trap_valid s = true /\ vdot d d = 1 /\
  (forall t, between_points (corners_of s) (on_line p d t) -> -1 <= t <= 1) /\ trap_hits (trap_planes (trap_vertices s)) p d = None.
Proof.
  set (s := mktrap 1 0 0 0 1 1 0 1 1 1 0). exists s, (mkv 0 0 0), (mkv 1 0 0).
  assert (T0 : tan 0 = 0) by apply tan_0.
  assert (E : trap_vertices s = [mkv (- (1)) 0 (- (1)); mkv 1 0 (- (1)); mkv 1 0 (- (1)); mkv (- (1)) 0 (- (1)); mkv (- (1)) (- (1)) 1; mkv 1 (- (1)) 1; mkv 1 1 1; mkv (- (1)) 1 1]).
  { unfold trap_vertices, s. cbn. rewrite T0. repeat (f_equal; [f_equal; ring|]). f_equal. f_equal; ring. }
  split; [apply C122_valid; cbn; lra|]. split; [unfold vdot; cbn; ring|]. split.
  - intros t H. rewrite <- vertices_corners, E in H.
    pose proof (fun K => between_half (mkv 1 0 0) (- (1)) _ _ K H) as A. specialize (A ltac:(intros v V; cbn in V; destruct V as [<-|[<-|[<-|[<-|[<-|[<-|[<-|[<-|[]]]]]]]]]; unfold vdot; cbn; lra)).
    pose proof (fun K => between_half (mkv (- (1)) 0 0) (- (1)) _ _ K H) as B. specialize (B ltac:(intros v V; cbn in V; destruct V as [<-|[<-|[<-|[<-|[<-|[<-|[<-|[<-|[]]]]]]]]]; unfold vdot; cbn; lra)).
    unfold vdot in A, B. cbn in A, B. lra.
  - unfold trap_hits. rewrite E. set (vs := [_; _; _; _; _; _; _; _]). assert (M : mean vs = mkv 0 0 (0)) by (unfold mean, vdiv, vs; cbn; f_equal; field).
    rewrite scan_parallel; [reflexivity|]. intros f F. unfold trap_planes in F. rewrite M in F. cbn [map face_corners fst snd In] in F.
    cbn [nth vs] in F.
    destruct F as [<-|[<-|[<-|[<-|[<-|[<-|[]]]]]]].
    + rewrite plane_none by (unfold vcross, vsub; cbn; f_equal; ring). cbn [fst snd]. rewrite !dot_zero. lra.
    + split; [apply plane_parallel; unfold vdot, vcross, vsub; cbn; ring|]. apply plane_side; unfold raw, vdot, vcross, vsub; cbn; lra.
    + split; [apply plane_parallel; unfold vdot, vcross, vsub; cbn; ring|]. apply plane_side; unfold raw, vdot, vcross, vsub; cbn; lra.
    + split; [apply plane_parallel; unfold vdot, vcross, vsub; cbn; ring|]. apply plane_side; unfold raw, vdot, vcross, vsub; cbn; lra.
    + rewrite plane_none by (unfold vcross, vsub; cbn; f_equal; ring). cbn [fst snd]. rewrite !dot_zero. lra.
    + rewrite plane_none by (unfold vcross, vsub; cbn; f_equal; ring). cbn [fst snd]. rewrite !dot_zero. lra.
Qed.
Print Assumptions C122_wedge_refuted.

(** Finding (C122): with sides that are not flat, a line between two corners is found to enter only halfway. *)
Theorem C122_twisted_refuted : exists s p d e x, trap_valid s = true /\
  (forall t, 0 <= t <= 1 -> between_points (corners_of s) (on_line p d t)) /\
  trap_hits (trap_planes (trap_vertices s)) p d = Some [mkhit e true (on_line p d e); mkhit x false (on_line p d x)] /\ 1 / 2 <= e.
Proof.
  set (s := mktrap 1 0 0 1 1 1 0 1 1 1 (PI / 4)).
  assert (T0 : tan 0 = 0) by apply tan_0. assert (T1 : tan (PI / 4) = 1) by apply tan_PI4.
  assert (E : trap_vertices s = [mkv (- (1)) (- (1)) (- (1)); mkv 1 (- (1)) (- (1)); mkv 1 1 (- (1)); mkv (- (1)) 1 (- (1)); mkv (- (2)) (- (1)) 1; mkv 0 (- (1)) 1; mkv 2 1 1; mkv 0 1 1]).
  { unfold trap_vertices, s. cbn. rewrite T0, T1. repeat (f_equal; [f_equal; ring|]). f_equal. f_equal; ring. }
  set (p := mkv (- (2)) (- (1)) 1). set (d := mkv 3 2 (- (2))). set (vs := trap_vertices s) in *.
  assert (M : mean vs = mkv 0 0 0) by (rewrite E; unfold mean, vdiv; cbn; f_equal; field).
  assert (S : steep (trap_planes vs) d).
  { apply trap_steep. intros i j k H. cbn zeta. rewrite E. cbn [In] in H. unfold d. destruct H as [H|[H|[H|[H|[H|[H|[]]]]]]]; injection H as <- <- <-; cbn [nth]; oblique_by. }
  assert (B : forall t, 1 / 2 <= t <= 1 -> behind (trap_planes vs) (on_line p d t)).
  { intros t T f F. unfold trap_planes in F. rewrite M in F. cbn [map face_corners fst snd In] in F. rewrite E in F. cbn [nth] in F.
    destruct F as [<-|[<-|[<-|[<-|[<-|[<-|[]]]]]]]; apply plane_side; unfold raw, vdot, vcross, vsub, on_line, vadd, vscale, p, d; cbn [vx vy vz]; try lra. }
  assert (L : forall t, behind (trap_planes vs) (on_line p d t) -> 1 / 2 <= t <= 3).
  { intros t H. split.
    - assert (F : In (outward (mean vs) (compute_plane (mkv (- (1)) (- (1)) (- (1))) (mkv (- (1)) 1 (- (1))) (mkv 0 1 1))) (trap_planes vs)) by (unfold trap_planes; rewrite E; cbn [map face_corners]; do 4 right; left; reflexivity).
      apply H in F. rewrite M in F. apply plane_side in F; unfold raw, vdot, vcross, vsub, on_line, vadd, vscale, p, d in *; cbn [vx vy vz] in *; lra.
    - assert (F : In (outward (mean vs) (compute_plane (mkv (- (1)) (- (1)) (- (1))) (mkv 1 (- (1)) (- (1))) (mkv 1 1 (- (1))))) (trap_planes vs)) by (unfold trap_planes; rewrite E; cbn [map face_corners]; left; reflexivity).
      apply H in F. rewrite M in F. apply plane_side in F; unfold raw, vdot, vcross, vsub, on_line, vadd, vscale, p, d in *; cbn [vx vy vz] in *; lra. }
  destruct (trap_clip (trap_planes vs) p d 3 S) as [[H U]|(e & x & H & [I J] & K)].
  - intros t T H. apply L in H. unfold Rabs in T. destruct (Rcase_abs t); lra.
  - exfalso. assert (3 / 4 = 1) by (apply U; apply B; lra). lra.
  - exists s, p, d, e, x. split; [apply C122_valid; cbn; lra|]. split; [|split; [exact K|]].
    + intros t T. rewrite <- vertices_corners. fold vs. rewrite E. exists [0; 0; t; 0; 1 - t; 0; 0; 0]. split; [reflexivity|]. split; [repeat (apply Forall_cons; [lra|]); apply Forall_nil|]. split; [cbn; ring|].
      cbn [weighted]. unfold on_line, vadd, vscale, p, d. cbn [vx vy vz]. f_equal; ring.
    + apply (L e). apply J. lra.
Qed.
Print Assumptions C122_twisted_refuted.

Example C122_case : let s := mktrap 1 0 0 1 1 1 0 2 2 2 0 in trap_valid s = true /\
  full_sides (t_dz s) (t_dy1 s) (t_dx1 s) (t_dx2 s) (t_dy2 s) (t_dx3 s) (t_dx4 s) /\ flat_sides (t_dy1 s) (t_dx1 s) (t_dx2 s) (t_alpha1 s) (t_dy2 s) (t_dx3 s) (t_dx4 s) (t_alpha2 s) /\
  clear_trap (corners_of s) (mkv 1 2 3) /\ between_points (corners_of s) (mkv 0 0 0).
Proof.
  cbn zeta. set (s := mktrap 1 0 0 1 1 1 0 2 2 2 0). assert (T0 : tan 0 = 0) by apply tan_0.
  assert (E : corners_of s = [mkv (- (1)) (- (1)) (- (1)); mkv 1 (- (1)) (- (1)); mkv 1 1 (- (1)); mkv (- (1)) 1 (- (1)); mkv (- (2)) (- (2)) 1; mkv 2 (- (2)) 1; mkv 2 2 1; mkv (- (2)) 2 1]).
  { unfold corners_of, trap_corners, corner, s. cbn. rewrite T0. repeat (f_equal; [f_equal; ring|]). f_equal. f_equal; ring. }
  split; [apply C122_valid; cbn; lra|]. split; [unfold full_sides; cbn; lra|]. split; [unfold flat_sides; cbn; split; [reflexivity|ring]|]. split.
  - intros i j k H. cbn zeta. rewrite E. cbn [In] in H. destruct H as [H|[H|[H|[H|[H|[H|[]]]]]]]; injection H as <- <- <-; cbn [nth]; oblique_by.
  - rewrite E. exists [1 / 8; 1 / 8; 1 / 8; 1 / 8; 1 / 8; 1 / 8; 1 / 8; 1 / 8]. split; [reflexivity|]. split; [repeat (apply Forall_cons; [lra|]); apply Forall_nil|]. split; [cbn; lra|]. cbn. unfold vadd, vscale. cbn. f_equal; lra.
Qed.
