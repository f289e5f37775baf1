(** Theorems about vertices drawn uniformly in a volume (C161, C162). *)
From Coq Require Import Reals List Sorted Permutation Lia Lra Psatz Arith.
From Verif Require Import TraversalModel VectorModel QuatModel QuatSpec QuatProofs QuatPlace GeometryModel GeometrySpec GeometryProofs GeometryShape GeometryProps SolidModel SolidSpec SolidProps RandomModel FillModel FillSpec FillProofs.
Import ListNotations.
Open Scope R_scope.

(** ** Placed crossings *)

Lemma to_global_line pl p d t : well_placed pl -> local_to_global pl (on_line (global_to_local pl p) (global_to_local_dir pl d) t) = on_line p d t.
Proof. intros [U _]. rewrite <- to_local_line by exact U. now apply there_and_back. Qed.

Lemma placed_hits compute pl p d : well_placed pl -> positioned (global_to_local pl p) (global_to_local_dir pl d) (compute (global_to_local pl p) (global_to_local_dir pl d)) ->
  map h_distance (intersections compute pl p d) = map h_distance (compute (global_to_local pl p) (global_to_local_dir pl d)) /\
  positioned p d (intersections compute pl p d).
Proof.
  intros W P. unfold intersections. destruct (p_identity pl) eqn:E.
  - destruct W as [_ W]. specialize (W E). destruct (W p) as (A & _ & _). destruct (W d) as (_ & B & _). rewrite A, B in *. auto.
  - split; [now rewrite map_map|]. intros h I. apply in_map_iff in I as (x & <- & I). cbn. rewrite (P _ I). now apply to_global_line.
Qed.

Lemma last_sorted l h x : StronglySorted (fun a b => h_distance a <= h_distance b) l -> In x l -> h_distance x <= h_distance (last l h).
Proof.
  induction l as [|y l IH]; intros S I; [easy|]. apply StronglySorted_inv in S as [S F]. rewrite Forall_forall in F.
  destruct l as [|z l]; [destruct I as [-> |[]]; cbn; lra|]. change (last (y :: z :: l) h) with (last (z :: l) h).
  destruct I as [<- |I]; [|auto]. apply F. apply last_in. discriminate.
Qed.

Lemma ends sort l lo hi : sorts sort -> (2 <= List.length l)%nat -> In lo (map h_distance l) -> In hi (map h_distance l) ->
  (forall x, In x (map h_distance l) -> lo <= x <= hi) ->
  exists h0 rest, sort hit h_distance l = h0 :: rest /\ rest <> [] /\ h_distance h0 = lo /\
    h_distance (last (h0 :: rest) h0) = hi /\ forall h, In h (h0 :: rest) -> In h l.
Proof.
  intros S N L H B. destruct (S hit h_distance l) as [P Q]. pose proof (Permutation_length P) as Len.
  assert (K : forall h, In h (sort hit h_distance l) <-> In h l).
  { intro h. split; intro I; [eapply Permutation_in; [exact P|exact I]|eapply Permutation_in; [apply Permutation_sym; exact P|exact I]]. }
  destruct (sort hit h_distance l) as [|h0 rest]; [cbn in Len; lia|]. exists h0, rest. split; [reflexivity|].
  split; [intros ->; cbn in Len; lia|]. apply in_map_iff in L as (a & <- & Ia), H as (b & <- & Ib). apply K in Ia, Ib.
  assert (B' : forall h, In h (h0 :: rest) -> h_distance a <= h_distance h <= h_distance b).
  { intros h I. apply B. apply in_map_iff. exists h. split; [reflexivity|now apply K]. }
  split; [|split].
  - apply Rle_antisym; [|apply B'; now left]. pose proof Q as Q'. apply StronglySorted_inv in Q' as [_ F]. rewrite Forall_forall in F.
    destruct Ia as [->|Ia]; [lra|]. now apply F.
  - apply Rle_antisym; [apply B', last_in; discriminate|]. now apply last_sorted.
  - intros h I. now apply K.
Qed.

(** What the sampling and the bounds make of crossings that begin at [lo] and end at [hi]. *)
Lemma drawn sort compute pl p d lo hi : sorts sort -> well_placed pl ->
  positioned (global_to_local pl p) (global_to_local_dir pl d) (compute (global_to_local pl p) (global_to_local_dir pl d)) ->
  (2 <= List.length (compute (global_to_local pl p) (global_to_local_dir pl d)))%nat ->
  In lo (map h_distance (compute (global_to_local pl p) (global_to_local_dir pl d))) ->
  In hi (map h_distance (compute (global_to_local pl p) (global_to_local_dir pl d))) ->
  (forall x, In x (map h_distance (compute (global_to_local pl p) (global_to_local_dir pl d))) -> lo <= x <= hi) ->
  forall f, start_of f (sort hit h_distance (intersections compute pl p d)) = Ok (on_line p d lo) /\
    bounds_of (sort hit h_distance (intersections compute pl p d)) = Ok (on_line p d lo, on_line p d hi).
Proof.
  intros S W P N L H B f. destruct (placed_hits compute pl p d W P) as [E Q].
  destruct (ends sort (intersections compute pl p d) lo hi S) as (h0 & rest & E1 & R0 & D0 & D1 & K).
  - rewrite <- (map_length h_distance), E, map_length. exact N.
  - now rewrite E.
  - now rewrite E.
  - now rewrite E.
  - rewrite E1. destruct rest as [|h1 rest]; [easy|]. unfold start_of, bounds_of.
    pose proof (Q h0 (K h0 (or_introl eq_refl))) as P0.
    pose proof (Q _ (K _ (last_in (h0 :: h1 :: rest) h0 ltac:(discriminate)))) as P1. rewrite D1 in P1. rewrite D0 in P0. rewrite P0, P1. auto.
Qed.

Lemma normalized_scale d k : vdot d d = 1 -> 0 < k -> vnormalized (vscale k d) = d.
Proof.
  intros D K. assert (M : vmag (vscale k d) = k).
  { unfold vmag, vscale. cbn. unfold vdot in D. replace (k * vx d * (k * vx d) + k * vy d * (k * vy d) + k * vz d * (k * vz d)) with (k * k * (vx d * vx d + vy d * vy d + vz d * vz d)) by ring.
    rewrite D, Rmult_1_r. apply sqrt_square. lra. }
  unfold vnormalized. rewrite M. destruct (Req_EM_T k 0); [lra|]. destruct d as [x y z]. unfold vdiv, vscale. cbn. f_equal; field; lra.
Qed.

Lemma on_line_back p d t : t < 0 -> ahead_of p (on_line p d t) d.
Proof. intro H. exists (- t). split; [lra|]. destruct p, d. unfold on_line, vadd, vscale. cbn. f_equal; ring. Qed.
Lemma on_line_ahead p d t : 0 < t -> ahead_of (on_line p d t) p d.
Proof. intro H. exists t. split; [lra|reflexivity]. Qed.

(** * C161: vertices in a cylinder *)

Definition proper (c : cylinder) : Prop := 0 <= c_inner c < c_radius c /\ 0 < c_height c /\ well_placed (c_place c).

(** The squared distance from the axis, the azimuth and the height divide their ranges as the
    numbers drawn divide the unit interval. *)
Theorem C161_point : forall c g1 g2 g3, proper c -> 0 <= g2 <= 1 ->
  exists r t z, cylindrical (cylinder_point c g1 g2 g3) r t z /\
    share 0 (2 * PI) t g1 /\ share (c_inner c * c_inner c) (c_radius c * c_radius c) (r * r) g2 /\
    share (- c_height c / 2) (c_height c / 2) z g3.
Proof.
  intros c g1 g2 g3 (I & H & _) G. destruct (cylinder_point_ok c g1 g2 g3 I H G) as (r & t & z & C & E1 & E2 & E3).
  exists r, t, z. pose proof PI_RGT_0. split; [exact C|]. rewrite E1, E2, E3. repeat split; apply share_uniform; nra.
Qed.

(** The share of the numbers that lead to a part of the cylinder is the generation probability
    there times the volume of the part. *)
Theorem C161_uniform : forall c r t z f1 f2 f3, proper c ->
  share 0 (2 * PI) t f1 -> share (c_inner c * c_inner c) (c_radius c * c_radius c) (r * r) f2 ->
  share (- c_height c / 2) (c_height c / 2) z f3 ->
  (forall g1 g2 g3 r' t' z', 0 <= r -> cylindrical (cylinder_point c g1 g2 g3) r' t' z' ->
     share 0 (2 * PI) t' g1 -> share (c_inner c * c_inner c) (c_radius c * c_radius c) (r' * r') g2 ->
     share (- c_height c / 2) (c_height c / 2) z' g3 ->
     (t' <= t /\ r' <= r /\ z' <= z <-> g1 <= f1 /\ g2 <= f2 /\ g3 <= f3)) /\
  forall q, c_inner c < sqrt (radial q) < c_radius c -> Rabs (vz q) < c_height c / 2 ->
    f1 * f2 * f3 = cylinder_probability c (local_to_global (c_place c) q) * ring_volume (c_inner c) r (- c_height c / 2) z t.
Proof.
  intros c r t z f1 f2 f3 (I & H & [U W]) S1 S2 S3. pose proof PI_RGT_0 as P. split.
  - intros g1 g2 g3 r' t' z' R0 (R1 & _) T1 T2 T3.
    rewrite (share_le 0 (2 * PI) t' t g1 f1 ltac:(lra) T1 S1). rewrite (share_le (- c_height c / 2) (c_height c / 2) z' z g3 f3 ltac:(lra) T3 S3).
    assert (Q : r' <= r <-> g2 <= f2); [|rewrite Q; tauto].
    rewrite <- (share_le (c_inner c * c_inner c) (c_radius c * c_radius c) (r' * r') (r * r) g2 f2 ltac:(nra) T2 S2). split; nra.
  - intros q [Q1 Q2] Q3. unfold cylinder_probability. rewrite back_and_there by exact U. cbv zeta. fold (radial q).
    destruct (Rle_dec (1 / 2 * c_height c) (Rabs (vz q))); [lra|]. destruct (Rle_dec (sqrt (radial q)) (c_inner c)); [lra|].
    destruct (Rle_dec (c_radius c) (sqrt (radial q))); [lra|]. unfold share in *. unfold ring_volume.
    assert (V : 0 < c_radius c * c_radius c - c_inner c * c_inner c) by nra.
    replace (t / 2) with (f1 * PI) by lra. rewrite <- S2.
    replace (z - - c_height c / 2) with (f3 * c_height c) by lra. field. repeat split; lra.
Qed.

(** A sampled vertex has a positive generation probability unless a number drawn was an end of
    the unit interval. *)
Theorem C161_density : forall c g1 g2 g3, proper c -> 0 < g2 < 1 -> 0 < g3 < 1 ->
  cylinder_probability c (local_to_global (c_place c) (cylinder_point c g1 g2 g3)) =
    / ring_volume (c_inner c) (c_radius c) (- c_height c / 2) (c_height c / 2) (2 * PI).
Proof.
  intros c g1 g2 g3 Pr G2 G3. pose proof Pr as (I & H & [U W]). destruct (cylinder_point_ok c g1 g2 g3 I H ltac:(lra)) as (r & t & z & C & E1 & E2 & E3).
  pose proof (cylindrical_radius _ _ _ _ C) as Rd. pose proof C as (R1 & _ & _ & Z).
  unfold cylinder_probability. rewrite back_and_there by exact U. cbv zeta. rewrite Rd, sqrt_square by auto. rewrite Z.
  pose proof (uniform_inside (c_inner c * c_inner c) (c_radius c * c_radius c) g2 ltac:(nra) G2) as B2. rewrite <- E1 in B2.
  pose proof (uniform_inside (- c_height c / 2) (c_height c / 2) g3 ltac:(lra) G3) as B3. rewrite <- E3 in B3.
  destruct (Rle_dec (1 / 2 * c_height c) (Rabs z)) as [L|_]; [unfold Rabs in L; destruct (Rcase_abs z); lra|].
  destruct (Rle_dec r (c_inner c)); [nra|]. destruct (Rle_dec (c_radius c) r); [nra|].
  unfold ring_volume. pose proof PI_RGT_0. field. repeat split; try lra.
Qed.

Lemma inside_cylinder c q : proper c -> c_inner c < sqrt (radial q) < c_radius c -> Rabs (vz q) < c_height c / 2 ->
  in_cylinder (c_radius c) (c_inner c) (c_height c / 2) q.
Proof.
  intros (I & H & _) [A B] Z. unfold in_cylinder. assert (P : 0 <= radial q) by (unfold radial; nra).
  pose proof (sqrt_sqrt _ P). pose proof (sqrt_pos (radial q)). repeat split; try lra; nra.
Qed.

(** Along a line that keeps clear of the rims, sampling does not fail: the initial position is
    behind the vertex, the bounds of the same event begin there and end ahead of the vertex. *)
Theorem C161_start : forall sort c d g1 g2 g3 k, sorts sort -> proper c -> 0 < g2 < 1 -> 0 < g3 < 1 -> vdot d d = 1 -> 0 < k ->
  clear_cylinder (c_radius c) (c_inner c) (c_height c / 2) (cylinder_point c g1 g2 g3) (global_to_local_dir (c_place c) d) ->
  exists init exit, sample_cylinder sort c d g1 g2 g3 = Ok (init, local_to_global (c_place c) (cylinder_point c g1 g2 g3)) /\
    cylinder_bounds_of sort c (vscale k d) (local_to_global (c_place c) (cylinder_point c g1 g2 g3)) = Ok (init, exit) /\
    ahead_of (local_to_global (c_place c) (cylinder_point c g1 g2 g3)) init d /\
    ahead_of exit (local_to_global (c_place c) (cylinder_point c g1 g2 g3)) d.
Proof.
  intros sort c d g1 g2 g3 k S Pr G2 G3 D K Cl. pose proof Pr as (I & H & W). pose proof W as [U _].
  set (q := cylinder_point c g1 g2 g3) in *. set (P := local_to_global (c_place c) q).
  assert (Eq : global_to_local (c_place c) P = q) by (apply back_and_there; exact U).
  set (e := global_to_local_dir (c_place c) d) in *. assert (De : vdot e e = 1) by (apply to_local_unit; auto).
  assert (Ne : e <> mkv 0 0 0). { intro E0. rewrite E0 in De. unfold vdot in De. cbn in De. lra. }
  destruct (C117_crossings sort (c_radius c) (c_inner c) (c_height c) q e S ltac:(lra) ltac:(lra) H Ne Cl) as [T Po].
  (* the point is strictly inside *)
  destruct (cylinder_point_ok c g1 g2 g3 I H ltac:(lra)) as (r & t & z & C & E1 & _ & E3). fold q in C.
  pose proof (cylindrical_radius _ _ _ _ C) as Rd. pose proof C as (R1 & _ & _ & Z).
  pose proof (uniform_inside (c_inner c * c_inner c) (c_radius c * c_radius c) g2 ltac:(nra) G2) as B2. rewrite <- E1 in B2.
  pose proof (uniform_inside (- c_height c / 2) (c_height c / 2) g3 ltac:(lra) G3) as B3. rewrite <- E3 in B3.
  assert (L0 : on_line q e 0 = q) by (destruct q, e; unfold on_line, vadd, vscale; cbn; f_equal; ring).
  assert (Rq : radial q = r * r) by exact Rd.
  assert (In0 : in_cylinder (c_radius c) (c_inner c) (c_height c / 2) (on_line q e 0)).
  { rewrite L0. unfold in_cylinder. rewrite Rq, Z. repeat split; try lra; intros; try lra. unfold Rabs; destruct (Rcase_abs z); lra. }
  assert (D0 : forall h, In h (cylinder_hits sort (c_radius c) (c_inner c) (c_height c) q e) -> h_distance h <> 0).
  { intros h Ih E0. destruct (tr_real _ _ T h Ih) as (ep & Ep & X1 & X2). rewrite E0 in *.
    (* close to an interior point everything is inside *)
    destruct (Rcase_abs 0) as [Bad|_]; [lra|].
    assert (Cont : exists dl, 0 < dl /\ forall u, Rabs u < dl -> in_cylinder (c_radius c) (c_inner c) (c_height c / 2) (on_line q e u)).
    { pose proof (interior_near (c_radius c) (c_inner c) (c_height c / 2) q e) as N0. apply N0.
      - rewrite Rq. lra.
      - rewrite Z. unfold Rabs; destruct (Rcase_abs z); lra. }
    destruct Cont as (dl & Dl & Near).
    set (m := Rmin ep dl / 2). assert (M1 : 0 < m < ep /\ m < dl). { unfold m. pose proof (Rmin_l ep dl). pose proof (Rmin_r ep dl). assert (0 < Rmin ep dl) by (apply Rmin_pos; auto). lra. }
    pose proof (proj1 (X1 (- m) ltac:(lra)) (Near (- m) ltac:(rewrite Rabs_Ropp, Rabs_right; lra))).
    pose proof (proj1 (X2 m ltac:(lra)) (Near m ltac:(rewrite Rabs_right; lra))). congruence. }
  destruct (around _ _ T In0 D0) as (h0 & rest & El & Nr & [A1 A2] & A3).
  set (l := cylinder_hits sort (c_radius c) (c_inner c) (c_height c) q e) in *.
  destruct (drawn sort (cylinder_hits sort (c_radius c) (c_inner c) (c_height c)) (c_place c) P d (h_distance h0) (h_distance (last l h0)) S W) with (f := P) as [X1 X2];
    rewrite ?Eq; fold e; fold l.
  - exact Po.
  - rewrite El. destruct rest; [easy|cbn; lia].
  - rewrite El. now left.
  - apply in_map, last_in. rewrite El. discriminate.
  - intros x Ix. apply in_map_iff in Ix as (h & <- & Ih). now apply A3.
  - exists (on_line P d (h_distance h0)), (on_line P d (h_distance (last l h0))).
    unfold sample_cylinder, cylinder_bounds_of, cylinder_crossings. fold q. fold P. rewrite X1, normalized_scale, X2 by auto.
    repeat split; [now apply on_line_back|now apply on_line_ahead].
Qed.

(** * C162: vertices in a spherical shell *)

(** The cube of the distance from the centre, the azimuth and the cosine of the zenith divide
    their ranges as the numbers drawn divide the unit interval. *)
Theorem C162_point : forall r i g1 g2 g3, 0 <= i < r -> 0 <= g1 <= 1 -> 0 <= g3 <= 1 ->
  exists s t c, spherical (sphere_point r i g1 g2 g3) s t c /\
    share (i * i * i) (r * r * r) (s * s * s) g1 /\ share 0 (2 * PI) t g2 /\ share (- (1)) 1 c g3.
Proof.
  intros r i g1 g2 g3 I G1 G3. destruct (sphere_point_ok r i g1 g2 g3 I G1 G3) as (s & t & c & C & E1 & E2 & E3).
  exists s, t, c. pose proof PI_RGT_0. split; [exact C|]. rewrite E1, E2, E3. split; [|split]; apply share_uniform; try lra. apply cube_le; lra.
Qed.

(** The share of the numbers that lead to a part of the shell is the generation probability
    there times the volume of the part. *)
Theorem C162_uniform : forall pl r i s t c f1 f2 f3, well_placed pl -> 0 <= i < r -> 0 <= s ->
  share (i * i * i) (r * r * r) (s * s * s) f1 -> share 0 (2 * PI) t f2 -> share (- (1)) 1 c f3 ->
  (forall g1 g2 g3 s' t' c', spherical (sphere_point r i g1 g2 g3) s' t' c' ->
     share (i * i * i) (r * r * r) (s' * s' * s') g1 -> share 0 (2 * PI) t' g2 -> share (- (1)) 1 c' g3 ->
     (s' <= s /\ t' <= t /\ c' <= c <-> g1 <= f1 /\ g2 <= f2 /\ g3 <= f3)) /\
  forall q, i < vmag q < r ->
    f1 * f2 * f3 = sphere_probability pl r i (local_to_global pl q) * cap_volume i s t c.
Proof.
  intros pl r i s t c f1 f2 f3 [U W] I S0 S1 S2 S3. pose proof PI_RGT_0 as P.
  assert (V : 0 < r * r * r - i * i * i) by (pose proof (cube_mono i r); lra). split.
  - intros g1 g2 g3 s' t' c' (R1 & _) T1 T2 T3.
    rewrite (share_le 0 (2 * PI) t' t g2 f2 ltac:(lra) T2 S2), (share_le (- (1)) 1 c' c g3 f3 ltac:(lra) T3 S3).
    assert (Q : s' <= s <-> g1 <= f1); [|rewrite Q; tauto].
    rewrite <- (share_le (i * i * i) (r * r * r) (s' * s' * s') (s * s * s) g1 f1 ltac:(lra) T1 S1). split.
    + now apply cube_le.
    + intro L. destruct (Rle_dec s' s) as [A|A]; [exact A|]. pose proof (cube_mono s s' ltac:(lra) ltac:(lra)). lra.
  - intros q Q. unfold sphere_probability. rewrite back_and_there by exact U. cbv zeta.
    destruct (Rle_dec (vmag q) i); [lra|]. destruct (Rle_dec r (vmag q)); [lra|]. unfold share in *. unfold cap_volume.
    rewrite <- S1. replace t with (f2 * (2 * PI)) by lra. replace (c + 1) with (f3 * 2) by lra.
    replace (4 / 3 * PI * r * r * r - 4 / 3 * PI * i * i * i) with (4 / 3 * PI * (r * r * r - i * i * i)) by ring. field. repeat split; lra.
Qed.

Lemma sphere_inside r i g1 g2 g3 : 0 <= i < r -> 0 < g1 < 1 -> 0 <= g3 <= 1 -> i < vmag (sphere_point r i g1 g2 g3) < r.
Proof.
  intros I G1 G3. destruct (sphere_point_ok r i g1 g2 g3 I ltac:(lra) G3) as (s & t & c & C & E1 & _ & _).
  rewrite (spherical_mag _ _ _ _ C). destruct C as (S0 & _). pose proof (cube_mono i r ltac:(lra) ltac:(lra)).
  pose proof (uniform_inside (i * i * i) (r * r * r) g1 ltac:(lra) G1) as B. rewrite <- E1 in B. split; apply cube_lt; lra.
Qed.

(** A sampled vertex has the generation probability one over the volume, unless the first
    number drawn was an end of the unit interval. *)
Theorem C162_density : forall pl r i g1 g2 g3, well_placed pl -> 0 <= i < r -> 0 < g1 < 1 -> 0 <= g3 <= 1 ->
  sphere_probability pl r i (local_to_global pl (sphere_point r i g1 g2 g3)) = / cap_volume i r (2 * PI) 1.
Proof.
  intros pl r i g1 g2 g3 [U W] I G1 G3. pose proof (sphere_inside r i g1 g2 g3 I G1 G3) as B. pose proof PI_RGT_0.
  unfold sphere_probability. rewrite back_and_there by exact U. cbv zeta.
  destruct (Rle_dec (vmag _) i); [lra|]. destruct (Rle_dec r (vmag _)); [lra|]. unfold cap_volume.
  pose proof (cube_mono i r ltac:(lra) ltac:(lra)).
  replace (4 / 3 * PI * r * r * r - 4 / 3 * PI * i * i * i) with (4 / 3 * PI * (r * r * r - i * i * i)) by ring.
  field. repeat split; lra.
Qed.

Lemma snap_mono x y : x <= y -> snap x <= snap y.
Proof. intro H. unfold snap, precision. repeat match goal with |- context [Rlt_dec ?a ?b] => destruct (Rlt_dec a b) end; lra. Qed.
Lemma snap_neg x : x <= 0 -> snap x = x.
Proof. intro H. unfold snap. destruct (Rlt_dec 0 x); lra. Qed.
Lemma snap_far x : precision <= x -> snap x = x.
Proof. intro H. unfold snap. destruct (Rlt_dec 0 x); [|lra]. destruct (Rlt_dec x precision); lra. Qed.
Lemma snap_pos x : 0 < x -> 0 <= snap x.
Proof. intro H. unfold snap. repeat match goal with |- context [Rlt_dec ?a ?b] => destruct (Rlt_dec a b) end; lra. Qed.

(** The crossings around an interior point of a shell. *)
Lemma sphere_around sort r i q e : sorts sort -> vdot e e = 1 -> 0 <= i < r -> vmag q < r ->
  exists lo hi0, lo < 0 < hi0 /\ vmag (on_line q e lo) = r /\ vmag (on_line q e hi0) = r /\
    positioned q e (sphere_hits sort r i q e) /\ (2 <= List.length (sphere_hits sort r i q e))%nat /\
    In lo (map h_distance (sphere_hits sort r i q e)) /\ In (snap hi0) (map h_distance (sphere_hits sort r i q e)) /\
    forall x, In x (map h_distance (sphere_hits sort r i q e)) -> lo <= x <= snap hi0.
Proof.
  intros S D I Q. assert (M0 : 0 <= vmag q) by apply sqrt_pos.
  assert (Mq : vdot q q = vmag q * vmag q). { unfold vmag. rewrite sqrt_sqrt; [reflexivity|]. nra. }
  pose proof (perp_split q e 0 D) as E0. assert (L0 : on_line q e 0 = q) by (destruct q, e; unfold on_line, vadd, vscale; cbn; f_equal; ring).
  rewrite L0 in E0. set (pd := vdot q e) in *. set (p2 := perp2 q e) in *.
  assert (P2 : 0 <= p2). { unfold p2, perp2, vdot. nra. }
  assert (Det : pd * pd < r * r - p2) by nra. assert (Dp : 0 < r * r - p2) by nra.
  set (sq := sqrt (r * r - p2)) in *. assert (Sq : sq * sq = r * r - p2) by (apply sqrt_sqrt; lra). assert (Sp : 0 <= sq) by apply sqrt_pos.
  assert (Lo : - pd - sq < 0) by nra. assert (Hi : 0 < - pd + sq) by nra.
  assert (Mag : forall t, (t + pd) * (t + pd) = sq * sq -> vmag (on_line q e t) = r).
  { intros t Ht. unfold vmag. change (sqrt (vdot (on_line q e t) (on_line q e t)) = r). rewrite (perp_split q e t D). fold p2 pd. rewrite Ht, Sq.
    replace (p2 + (r * r - p2)) with (r * r) by ring. apply sqrt_square. lra. }
  exists (- pd - sq), (- pd + sq). split; [lra|]. split; [apply Mag; ring|]. split; [apply Mag; ring|].
  unfold sphere_hits. destruct (S hit h_distance (solve_shell q e r true ++ (if Rlt_dec 0 i then solve_shell q e i false else []))) as [Pm _].
  set (L := sort hit h_distance _) in *.
  assert (Raw : solve_shell q e r true = [mkhit (- pd - sq) true (on_line q e (- pd - sq)); mkhit (snap (- pd + sq)) false (on_line q e (snap (- pd + sq)))]).
  { rewrite shell_hits. cbv zeta. fold p2 pd. destruct (Rle_dec (r * r - p2) 0); [lra|]. fold sq. rewrite (snap_neg (- pd - sq)) by lra. reflexivity. }
  rewrite Raw in Pm.
  assert (Inner : forall h, In h (if Rlt_dec 0 i then solve_shell q e i false else []) -> h_position h = on_line q e (h_distance h) /\ - pd - sq <= h_distance h <= snap (- pd + sq)).
  { intros h Ih. destruct (Rlt_dec 0 i) as [I0|_]; [|easy]. rewrite shell_hits in Ih. cbv zeta in Ih. fold p2 pd in Ih.
    destruct (Rle_dec (i * i - p2) 0) as [_|Di]; [easy|]. assert (Qi : sqrt (i * i - p2) <= sq) by (apply sqrt_le_1_alt; nra). pose proof (sqrt_pos (i * i - p2)) as Qp.
    assert (Ge : forall x, - pd - sq <= x -> - pd - sq <= snap x) by (intros x Hx; rewrite <- (snap_neg (- pd - sq)) by lra; now apply snap_mono).
    destruct Ih as [<- |[<- |[]]]; cbn [h_position h_distance]; (split; [reflexivity|]); (split; [apply Ge; lra|apply snap_mono; lra]). }
  assert (K : forall h, In h L -> h_position h = on_line q e (h_distance h) /\ - pd - sq <= h_distance h <= snap (- pd + sq)).
  { intros h Ih. apply (Permutation_in _ Pm) in Ih. cbn [app] in Ih. destruct Ih as [<- |[<- |Ih]]; cbn [h_position h_distance].
    - split; [reflexivity|]. split; [lra|]. rewrite <- (snap_neg (- pd - sq)) at 1 by lra. apply snap_mono. lra.
    - split; [reflexivity|]. split; [|lra]. pose proof (snap_pos _ Hi). lra.
    - now apply Inner. }
  split; [intros h Ih; now apply K|]. split; [rewrite (Permutation_length Pm), app_length; cbn; lia|].
  split; [|split].
  - apply in_map_iff. eexists. split; [|eapply Permutation_in; [apply Permutation_sym; exact Pm|cbn [app]; left; reflexivity]]. reflexivity.
  - apply in_map_iff. eexists. split; [|eapply Permutation_in; [apply Permutation_sym; exact Pm|cbn [app]; right; left; reflexivity]]. reflexivity.
  - intros x Ix. apply in_map_iff in Ix as (h & <- & Ih). now apply K.
Qed.

(** Sampling does not fail: the initial position is on the outer surface behind the vertex,
    the bounds of the same event begin there, and they end ahead on the outer surface if the
    vertex is not within the precision of it. *)
Theorem C162_start : forall sort pl r i d g1 g2 g3 k, sorts sort -> well_placed pl -> 0 <= i < r -> 0 < g1 < 1 -> 0 <= g3 <= 1 ->
  vdot d d = 1 -> 0 < k ->
  exists init exit, let vertex := local_to_global pl (sphere_point r i g1 g2 g3) in
    sample_sphere sort pl r i d g1 g2 g3 = Ok (init, vertex) /\ sphere_bounds_of sort pl r i (vscale k d) vertex = Ok (init, exit) /\
    ahead_of vertex init d /\ vmag (global_to_local pl init) = r /\
    (vmag (sphere_point r i g1 g2 g3) <= r - precision -> ahead_of exit vertex d /\ vmag (global_to_local pl exit) = r).
Proof.
  intros sort pl r i d g1 g2 g3 k S W I G1 G3 D K. pose proof W as [U _].
  pose proof (sphere_inside r i g1 g2 g3 I G1 G3) as B.
  set (q := sphere_point r i g1 g2 g3) in *. set (P := local_to_global pl q).
  assert (Eq : global_to_local pl P = q) by (apply back_and_there; exact U).
  set (e := global_to_local_dir pl d). assert (De : vdot e e = 1) by (apply to_local_unit; auto).
  destruct (sphere_around sort r i q e S De I ltac:(lra)) as (lo & hi & [L H] & Ml & Mh & Po & N & Il & Ih & Bd).
  destruct (drawn sort (sphere_hits sort r i) pl P d lo (snap hi) S W) with (f := P) as [X1 X2]; rewrite ?Eq; fold e; auto.
  exists (on_line P d lo), (on_line P d (snap hi)). cbv zeta.
  unfold sample_sphere, sphere_bounds_of, sphere_crossings. fold q. fold P. rewrite X1, normalized_scale, X2 by auto.
  split; [reflexivity|]. split; [reflexivity|]. split; [now apply on_line_back|]. split.
  - rewrite to_local_line by exact U. rewrite Eq. exact Ml.
  - intro Far. assert (Hf : precision <= hi).
    { assert (Tri : vmag (on_line q e hi) <= vmag q + hi).
      { unfold vmag at 1. apply Rsqr_incr_0_var; [|pose proof (sqrt_pos (vx q * vx q + vy q * vy q + vz q * vz q)) as Z0; fold (vmag q) in Z0; lra].
        unfold Rsqr. rewrite sqrt_sqrt by nra. change (vdot (on_line q e hi) (on_line q e hi) <= (vmag q + hi) * (vmag q + hi)).
        pose proof (perp_split q e hi De) as E1. pose proof (perp_split q e 0 De) as E0.
        assert (L0 : on_line q e 0 = q) by (destruct q, e; unfold on_line, vadd, vscale; cbn; f_equal; ring). rewrite L0 in E0.
        assert (Mq : vdot q q = vmag q * vmag q). { unfold vmag. rewrite sqrt_sqrt; [reflexivity|]. nra. }
        assert (P2 : 0 <= perp2 q e) by (unfold perp2, vdot; nra). assert (M0 : 0 <= vmag q) by apply sqrt_pos.
        assert (vdot q e <= vmag q) by nra. nra. }
      rewrite Mh in Tri. lra. }
    rewrite snap_far by exact Hf. split; [now apply on_line_ahead|]. rewrite to_local_line by exact U. rewrite Eq. exact Mh.
Qed.

(** ** Cases *)

Lemma here_placed : well_placed here.
Proof.
  split; [|intros _; exact here_local]. unfold here, QuatSpec.unit, qnorm2. cbn. ring.
Qed.

(** A solid cylinder of radius 1 and height 2, and one cut to half a turn. *)
Definition drum (delta : R) : cylinder := mkcyl here 1 0 2 0 delta.
Lemma drum_proper delta : proper (drum delta).
Proof. unfold proper, drum. cbn. split; [lra|]. split; [lra|exact here_placed]. Qed.

Example C161_case : cylinder_probability (drum (2 * PI)) (local_to_global here (cylinder_point (drum (2 * PI)) (3/4) (1/4) (1/2))) = / (2 * PI) /\
  cylinder_point (drum (2 * PI)) (3/4) (1/4) (1/2) = mkv 0 (- (1/2)) 0.
Proof.
  split.
  - change here with (c_place (drum (2 * PI))). rewrite C161_density; [|apply drum_proper|lra|lra]. unfold ring_volume. cbn. f_equal. field.
  - unfold cylinder_point, drum. cbn. pose proof PI_RGT_0. rewrite !uniform_up by lra.
    replace ((1 * 1 - 0 * 0) * (1 / 4) + 0 * 0) with (1/2 * (1/2)) by field. rewrite sqrt_square by lra.
    replace ((2 * PI - 0) * (3 / 4) + 0) with (3 * (PI / 2)) by field. rewrite cos_3PI2, sin_3PI2. f_equal; field.
Qed.

Example C162_case : exists init exit, sample_sphere isort here 1 0 (mkv 0 0 1) (1/8) 0 (1/2) = Ok (init, local_to_global here (sphere_point 1 0 (1/8) 0 (1/2))) /\
  sphere_bounds_of isort here 1 0 (vscale 5 (mkv 0 0 1)) (local_to_global here (sphere_point 1 0 (1/8) 0 (1/2))) = Ok (init, exit) /\
  vmag init = 1.
Proof.
  destruct (C162_start isort here 1 0 (mkv 0 0 1) (1/8) 0 (1/2) 5) as (init & exit & A & B & _ & C & _); [exact (proj1 isort_ok)|exact here_placed|lra|lra|lra|unfold vdot; cbn; ring|lra|].
  exists init, exit. rewrite (proj1 (here_local init)) in C. auto.
Qed.

Lemma drum_clear : clear_cylinder 1 0 1 (mkv 0 (- (1/2)) 0) (mkv 0 0 1).
Proof.
  assert (NW : forall t, ~ on_wall 1 0 (on_line (mkv 0 (- (1/2)) 0) (mkv 0 0 1) t)) by (intros t [H|[H _]]; [unfold radial, on_line in H; cbn in H; lra|lra]).
  assert (L : forall t, on_lid 1 (on_line (mkv 0 (- (1/2)) 0) (mkv 0 0 1) t) -> t = 1 \/ t = - (1)).
  { intros t H. unfold on_lid, on_line in H. cbn in H. replace (0 + t * 1) with t in H by ring. unfold Rabs in H. destruct (Rcase_abs t); lra. }
  constructor.
  - intros t u on [A|A] [B|B] N; try (now apply NW in A); try (now apply NW in B). apply L in A, B. unfold precision, Rabs.
    destruct A as [-> | ->], B as [-> | ->]; try lra; destruct (Rcase_abs _); lra.
  - intros t [A|A]; [now apply NW in A|]. apply L in A. unfold precision. lra.
  - intros t A. now apply NW in A.
  - intros t A. cbv zeta. unfold radial, on_line. cbn. unfold precision. split; lra.
Qed.

Example C161_start_case : exists init exit,
  sample_cylinder isort (drum (2 * PI)) (mkv 0 0 1) (3/4) (1/4) (1/2) = Ok (init, mkv 0 (- (1/2)) 0) /\
  cylinder_bounds_of isort (drum (2 * PI)) (vscale 5 (mkv 0 0 1)) (mkv 0 (- (1/2)) 0) = Ok (init, exit).
Proof.
  destruct (C161_start isort (drum (2 * PI)) (mkv 0 0 1) (3/4) (1/4) (1/2) 5) as (init & exit & A & B & _);
    [exact (proj1 isort_ok)|apply drum_proper|lra|lra|unfold vdot; cbn; ring|lra| |].
  - rewrite (proj2 C161_case). cbn [c_place drum c_radius c_inner c_height]. rewrite (proj1 (proj2 (here_local _))).
    replace (2 / 2) with 1 by field. exact drum_clear.
  - exists init, exit. rewrite (proj2 C161_case) in A, B. cbn [c_place drum] in A, B. rewrite (proj2 (proj2 (here_local _))) in A, B. auto.
Qed.

(** ** What does not hold *)

(** The generator can return the lower end of its range: the point is then on the lower lid,
    where the generation probability is zero. *)
Theorem C161_edge_refuted : exists c g1 g2 g3, proper c /\ 0 <= g1 < 1 /\ 0 <= g2 < 1 /\ 0 <= g3 < 1 /\
  cylinder_probability c (local_to_global (c_place c) (cylinder_point c g1 g2 g3)) = 0.
Proof.
  exists (drum (2 * PI)), (1/2), (1/2), 0. split; [apply drum_proper|]. split; [lra|]. split; [lra|]. split; [lra|].
  unfold cylinder_probability. cbn [c_place drum]. rewrite (proj1 (here_local _)), (proj2 (proj2 (here_local _))). cbv zeta. cbn [c_height c_inner c_radius cylinder_point vz drum].
  rewrite (uniform_up (- 2 / 2) (2 / 2)) by lra. replace ((2 / 2 - - 2 / 2) * 0 + - 2 / 2) with (- (1)) by field.
  destruct (Rle_dec (1 / 2 * 2) (Rabs (- (1)))) as [_|n]; [reflexivity|]. exfalso. apply n. rewrite Rabs_left; lra.
Qed.

(** The range of azimuths of the cylinder is ignored: a vertex can be sampled outside of it,
    and its generation probability there is positive. *)
Theorem C161_sector_refuted : exists c g1 g2 g3, proper c /\ 0 < g1 < 1 /\ 0 < g2 < 1 /\ 0 < g3 < 1 /\
  (forall t r, c_start c <= t <= c_start c + c_delta c -> 0 <= r ->
     ~ (vx (cylinder_point c g1 g2 g3) = r * cos t /\ vy (cylinder_point c g1 g2 g3) = r * sin t)) /\
  0 < cylinder_probability c (local_to_global (c_place c) (cylinder_point c g1 g2 g3)).
Proof.
  exists (drum PI), (3/4), (1/4), (1/2). split; [apply drum_proper|]. split; [lra|]. split; [lra|]. split; [lra|]. split.
  - intros t r T R0 [_ Y]. pose proof (proj2 C161_case) as E. unfold cylinder_point in E, Y. cbn [c_inner c_radius c_height drum] in E, Y.
    apply (f_equal vy) in E. cbn [vy] in E, Y. rewrite E in Y. cbn in T. pose proof (sin_ge_0 t ltac:(lra) ltac:(lra)). nra.
  - rewrite C161_density; [|apply drum_proper|lra|lra]. apply Rinv_0_lt_compat. unfold ring_volume. cbn. pose proof PI_RGT_0. nra.
Qed.

(** In a full sphere the first number 0 gives the centre, where the generation probability is zero. *)
Theorem C162_centre_refuted : exists pl r i g1 g2 g3, well_placed pl /\ 0 <= i < r /\ 0 <= g1 < 1 /\ 0 <= g2 < 1 /\ 0 <= g3 < 1 /\
  sphere_probability pl r i (local_to_global pl (sphere_point r i g1 g2 g3)) = 0.
Proof.
  exists here, 1, 0, 0, (1/2), (1/2). split; [exact here_placed|]. repeat (split; [lra|]).
  unfold sphere_probability. rewrite (proj1 (here_local _)), (proj2 (proj2 (here_local _))). cbv zeta.
  assert (E : vmag (sphere_point 1 0 0 (1 / 2) (1 / 2)) = 0).
  { destruct (sphere_point_ok 1 0 0 (1/2) (1/2)) as (s & t & c & C & E1 & _); [lra|lra|lra|]. rewrite (spherical_mag _ _ _ _ C).
    destruct C as (S0 & _). rewrite uniform_up in E1 by lra. destruct (Req_dec s 0) as [|N]; [auto|]. assert (0 < s) by lra. assert (0 < s * s * s) by (apply Rmult_lt_0_compat; nra). lra. }
  rewrite E. destruct (Rle_dec 0 0); [reflexivity|lra].
Qed.

Print Assumptions C161_point.
Print Assumptions C161_uniform.
Print Assumptions C161_density.
Print Assumptions C161_start.
Print Assumptions C161_edge_refuted.
Print Assumptions C161_sector_refuted.
Print Assumptions C162_point.
Print Assumptions C162_uniform.
Print Assumptions C162_density.
Print Assumptions C162_start.
Print Assumptions C162_centre_refuted.
