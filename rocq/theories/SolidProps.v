(** Properties C117-C120: crossings of lines with cylinders, ellipsoids, elliptical tubes
    and trapezoids, and the boxes around these. *)
From Coq Require Import Reals Lra Lia List Bool Permutation Sorted Arith.
From Verif Require Import VectorModel GeometryModel GeometrySpec GeometryProps SolidModel SolidSpec SolidProofs SolidShapes SolidRound SolidFlat.
Import ListNotations.
Open Scope R_scope.

(** Settling comparisons of numbers. *)
Ltac settle := unfold precision in *; cbn [vx vy vz h_distance h_entering] in *; lra.
Ltac branch := repeat match goal with
  | |- context [Rlt_dec ?a ?b] => first [destruct (Rlt_dec a b) as [_|?]; [|exfalso; settle] | destruct (Rlt_dec a b) as [?|_]; [exfalso; settle|]]
  | |- context [Rle_dec ?a ?b] => first [destruct (Rle_dec a b) as [_|?]; [|exfalso; settle] | destruct (Rle_dec a b) as [?|_]; [exfalso; settle|]]
  | |- context [Req_EM_T ?a ?b] => first [destruct (Req_EM_T a b) as [_|?]; [|exfalso; settle] | destruct (Req_EM_T a b) as [?|_]; [exfalso; settle|]]
  end.
Ltac undo x y := repeat match goal with |- context [?a / x] => replace (a / x) with (a * y) by (unfold precision; field) end.
Lemma square_bound x r : 0 <= r -> x * x <= r * r -> - r <= x <= r.
Proof. intros P H. split; nra. Qed.

(** ** C117: cylinders *)

(** C117: the crossings found for a cylinder are those of the line with it. *)
Theorem C117_crossings sort r i height p d : sorts sort -> 0 <= i -> i < r -> 0 < height -> d <> mkv 0 0 0 -> clear_cylinder r i (height / 2) p d ->
  traces (fun t => in_cylinder r i (height / 2) (on_line p d t)) (cylinder_hits sort r i height p d) /\ positioned p d (cylinder_hits sort r i height p d).
Proof. intros S I R H D K. apply cyl_ok; auto; lra. Qed.
Print Assumptions C117_crossings.

(** C117: the box around a cylinder holds all of it. *)
Theorem C117_bounds r i height q : 0 <= r -> in_cylinder r i (height / 2) q -> in_aabb (cylinder_bounds r height) q.
Proof.
  intros R (A & _ & B). unfold radial in A. apply abs_le in B. unfold in_aabb, cylinder_bounds. cbn.
  pose proof (square_bound (vx q) r R). pose proof (square_bound (vy q) r R). nra.
Qed.
Print Assumptions C117_bounds.

(** C117: radii given in either order make the same cylinder. *)
Theorem C117_radii a b : snd (make_cylinder a b) <= fst (make_cylinder a b) /\ make_cylinder a b = make_cylinder b a /\
  (make_cylinder a b = (a, b) \/ make_cylinder a b = (b, a)).
Proof. unfold make_cylinder. destruct (Rlt_dec a b), (Rlt_dec b a); cbn; repeat split; auto; try lra; try (f_equal; lra). Qed.
Print Assumptions C117_radii.

(** Finding (C117): a line that passes the rim of a lid within the precision, outside of the cylinder, yields one exit and no entry: two crossings of which the second is taken for a copy of the first. *)
Theorem C117_rim_refuted : exists sort r height p d, sorts sort /\ 0 < r /\ 0 < height /\ vx d * vx d + vy d * vy d + vz d * vz d = 1 /\
  (forall t, ~ in_cylinder r 0 (height / 2) (on_line p d t)) /\ map h_entering (cylinder_hits sort r 0 height p d) = [false].
Proof.
  exists isort, 1, 2, (mkv (- (2) + 1 / 10 ^ 10) 0 5), (mkv (3 / 5) 0 (- (4 / 5))). split; [apply isort_ok|]. split; [lra|]. split; [lra|]. split; [cbn; lra|]. split.
  - intros t (A & _ & B). apply abs_le in B. unfold radial in A. cbn in *. replace (2 / 2) with 1 in B by field. assert (5 <= t) by lra. nra.
  - unfold cylinder_hits, test_barrel, upright, test_cap. cbn [vx vy vz]. cbn zeta. undo (- (4 / 5)) (- (5 / 4)). undo (3 / 5 * (3 / 5) + 0 * 0) (25 / 9). branch.
    match goal with |- context [sqrt ?x] => replace (sqrt x) with (3 / 5) by (symmetry; apply sqrt_lem_1; lra) end.
    unfold barrel_hit, surface_hit, snap. cbn [vx vy vz]. branch. cbn [app isort fold_right insert h_distance]. branch. cbn [dedup h_distance]. unfold Rabs. destruct (Rcase_abs _); branch; reflexivity.
Qed.
Print Assumptions C117_rim_refuted.

Lemma sq_roots x r : x * x = r * r -> x = r \/ x = - r.
Proof. intros H. assert (E : (x - r) * (x + r) = 0) by lra. apply Rmult_integral in E as [E|E]; lra. Qed.
Ltac apart_abs := unfold precision; unfold Rabs; destruct (Rcase_abs _); lra.

Example C117_case : clear_cylinder 2 1 1 (mkv (- (5)) 0 0) (mkv 1 0 0) /\ in_cylinder 2 1 1 (on_line (mkv (- (5)) 0 0) (mkv 1 0 0) (7 / 2)) /\
  ~ in_cylinder 2 1 1 (on_line (mkv (- (5)) 0 0) (mkv 1 0 0) 5).
Proof.
  assert (W : forall t, on_wall 2 1 (on_line (mkv (- (5)) 0 0) (mkv 1 0 0) t) -> t = 3 \/ t = 7 \/ t = 4 \/ t = 6).
  { intros t [H|[_ H]]; unfold radial in H; cbn in H; [destruct (sq_roots (- (5) + t * 1) 2)|destruct (sq_roots (- (5) + t * 1) 1)]; lra. }
  assert (L : forall t, ~ on_lid 1 (on_line (mkv (- (5)) 0 0) (mkv 1 0 0) t)).
  { intros t H. unfold on_lid in H. cbn in H. replace (0 + t * 0) with 0 in H by ring. rewrite Rabs_R0 in H. lra. }
  split; [|split].
  - split.
    + cbn zeta. intros t u [A|A] [B|B] N; try (elim (L _ A)); try (elim (L _ B)). apply W in A. apply W in B. destruct A as [->|[->|[->| ->]]], B as [->|[->|[->| ->]]]; try lra; apart_abs.
    + intros t [A|A]; [|elim (L _ A)]. apply W in A. unfold precision. lra.
    + intros t A B. cbn in B. replace (0 + t * 0) with 0 in B by ring. rewrite Rabs_R0 in B. lra.
    + intros t A. elim (L _ A).
  - unfold in_cylinder, radial. cbn. replace (0 + 7 / 2 * 0) with 0 by ring. rewrite Rabs_R0. lra.
  - intros (_ & A & _). unfold radial in A. cbn in A. lra.
Qed.

(** ** C118: ellipsoids *)

(** C118: the crossings found for an ellipsoid between two heights are those of the line with it. *)
Theorem C118_crossings sort a b c z1 z2 p d : sorts sort -> 0 < a -> 0 < b -> 0 < c -> z1 < z2 -> d <> mkv 0 0 0 -> clear_ellipsoid a b c z1 z2 p d ->
  traces (fun t => in_ellipsoid a b c z1 z2 (on_line p d t)) (ellipsoid_hits sort a b c z1 z2 p d) /\ positioned p d (ellipsoid_hits sort a b c z1 z2 p d).
Proof. intros. apply ell_ok; auto. Qed.
Print Assumptions C118_crossings.

Lemma part_le s w : 0 <= w -> 0 < s -> forall x, (x / s) ^ 2 <= w -> - (s * sqrt w) <= x <= s * sqrt w.
Proof.
  intros W S x H. pose proof (sqrt_pos w) as Q. pose proof (sqrt_sqrt w W) as QQ. apply square_bound; [nra|].
  replace (x * x) with (s * s * (x / s) ^ 2) by (field; lra). replace (s * sqrt w * (s * sqrt w)) with (s * s * w) by (rewrite <- QQ at 1; ring). apply Rmult_le_compat_l; nra.
Qed.

(** C118: the box around an ellipsoid between two heights holds all of it. *)
Theorem C118_bounds a b c z1 z2 q : 0 < a -> 0 < b -> 0 < c -> z1 < z2 -> in_ellipsoid a b c z1 z2 q -> in_aabb (ellipsoid_bounds a b c z1 z2) q.
Proof.
  intros A B C Z (Q & L). unfold in_aabb, ellipsoid_bounds. cbn zeta.
  set (zm := if Rlt_dec 0 z1 then z1 else if Rlt_dec z2 0 then z2 else 0). set (w := Rmax 0 (1 - zm * zm / (c * c))).
  assert (M : zm * zm <= vz q * vz q) by (unfold zm; destruct (Rlt_dec 0 z1); [nra|destruct (Rlt_dec z2 0); nra]).
  assert (M' : zm * zm / (c * c) <= (vz q / c) ^ 2).
  { replace ((vz q / c) ^ 2) with (vz q * vz q / (c * c)) by (field; lra). unfold Rdiv. apply Rmult_le_compat_r; auto. apply Rlt_le, Rinv_0_lt_compat. nra. }
  unfold quadric in Q. pose proof (pow2_ge_0 (vx q / a)). pose proof (pow2_ge_0 (vy q / b)).
  assert (W : 0 <= w) by apply Rmax_l. assert (W' : 1 - zm * zm / (c * c) <= w) by apply Rmax_r.
  pose proof (part_le a w W A (vx q)). pose proof (part_le b w W B (vy q)). cbn. lra.
Qed.
Print Assumptions C118_bounds.

(** C118: an ellipsoid is made exactly when its half axes are positive and its cuts leave something of it; moving the cuts to the poles takes no point away. *)
Theorem C118_make a b c z1 z2 : (make_ellipsoid a b c z1 z2 = None <-> a <= 0 \/ b <= 0 \/ c <= 0 \/ z2 <= z1 \/ c <= z1 \/ z2 <= - c) /\
  (forall a' b' c' y1 y2, make_ellipsoid a b c z1 z2 = Some (a', b', c', y1, y2) ->
    0 < a' /\ 0 < b' /\ 0 < c' /\ - c' <= y1 /\ y1 < y2 /\ y2 <= c' /\ forall q, in_ellipsoid a' b' c' y1 y2 q <-> in_ellipsoid a b c z1 z2 q).
Proof.
  unfold make_ellipsoid. split.
  - destruct (Rle_dec a 0); [split; auto|]. destruct (Rle_dec b 0); [split; auto|]. destruct (Rle_dec c 0); [split; auto|].
    destruct (Rlt_dec z1 (- c)), (Rlt_dec z2 (- c));
      repeat match goal with |- context [Rlt_dec ?x ?y] => destruct (Rlt_dec x y) end; try (exfalso; lra); match goal with |- context [Rle_dec ?x ?y] => destruct (Rle_dec x y) end; (split; [try discriminate; intros _|auto; try (intros; exfalso; lra)]); destruct (Rle_dec z2 z1); try tauto; destruct (Rle_dec c z1); try tauto; destruct (Rle_dec z2 (- c)); try tauto; exfalso; lra.
  - intros a' b' c' y1 y2. destruct (Rle_dec a 0); [discriminate|]. destruct (Rle_dec b 0); [discriminate|]. destruct (Rle_dec c 0); [discriminate|].
    assert (P : forall q, quadric a b c q < 1 -> - c < vz q < c).
    { intros q Q. unfold quadric in Q. pose proof (pow2_ge_0 (vx q / a)). pose proof (pow2_ge_0 (vy q / b)). assert ((vz q / c) ^ 2 < 1) by lra.
      assert (E : vz q = c * (vz q / c)) by (field; lra). rewrite E. set (k := vz q / c) in *. assert (- (1) < k < 1) by (split; nra). nra. }
    match goal with |- (if Rle_dec ?y ?x then _ else _) = _ -> _ => destruct (Rle_dec y x) as [|N]; [discriminate|]; set (Y := y) in *; set (X := x) in * end.
    intros E. injection E as <- <- <- <- <-. do 3 (split; [lra|]).
    assert (G : - c <= X /\ Y <= c) by (unfold X, Y; clear X Y N P; split; repeat match goal with |- context [Rlt_dec ?x ?y] => destruct (Rlt_dec x y) end; lra).
    destruct G. split; [auto|]. split; [lra|]. split; [auto|]. intros q. unfold in_ellipsoid. split; intros [Q L]; (split; [auto|]); specialize (P q Q); revert L; unfold X, Y in *; clear X Y.
    + revert N. destruct (Rlt_dec z1 (- c)), (Rlt_dec z2 (- c)). all: repeat match goal with |- context [Rlt_dec ?x ?y] => destruct (Rlt_dec x y) end; intros; lra.
    + revert N. destruct (Rlt_dec z1 (- c)), (Rlt_dec z2 (- c)). all: repeat match goal with |- context [Rlt_dec ?x ?y] => destruct (Rlt_dec x y) end; intros; lra.
Qed.
Print Assumptions C118_make.

Lemma quadric_one q : quadric 1 1 1 q = vx q * vx q + vy q * vy q + vz q * vz q.
Proof. unfold quadric. field. Qed.
Lemma ellipse_one q : ellipse 1 1 q = vx q * vx q + vy q * vy q.
Proof. unfold ellipse. field. Qed.

(** Finding (C118): a line that touches the ellipsoid in one point yields one exit and no entry. *)
Theorem C118_tangent_refuted : exists sort p d, sorts sort /\ vx d * vx d + vy d * vy d + vz d * vz d = 1 /\
  (forall t, ~ in_ellipsoid 1 1 1 (- (1)) 1 (on_line p d t)) /\ map h_entering (ellipsoid_hits sort 1 1 1 (- (1)) 1 p d) = [false].
Proof.
  exists isort, (mkv (- (5)) 1 0), (mkv 1 0 0). split; [apply isort_ok|]. split; [cbn; lra|]. split.
  - intros t (A & _). rewrite quadric_one in A. cbn in A. pose proof (Rle_0_sqr (t - 5)) as Q. unfold Rsqr in Q. lra.
  - unfold ellipsoid_hits, level. cbn [vx vy vz point_at vadd vscale]. cbn zeta.
    undo (1 * 1) 1. match goal with |- context [sqrt ?x] => replace (sqrt x) with 0 by (symmetry; apply sqrt_lem_1; lra) end.
    unfold ellipsoid_cut, ellipsoid_root. cbn [vx vy vz]. rewrite Rabs_R0. undo (1 * 1) 1.
    undo (1 * 1 * (1 * 1) + 0 * 0 * (1 * 1) + 0 * 0 * (1 * 1)) 1. branch.
    unfold snap, point_at, vadd, vscale. cbn [vx vy vz]. branch. cbn [app isort fold_right insert h_distance]. branch. cbn [dedup h_distance]. unfold Rabs. destruct (Rcase_abs _); branch; reflexivity.
Qed.
Print Assumptions C118_tangent_refuted.

(** Finding (C118): with the cuts at the poles, a line that passes a pole within the precision, outside of the ellipsoid, yields one entry and no exit. *)
Theorem C118_pole_refuted : exists sort p d, sorts sort /\ d <> mkv 0 0 0 /\
  (forall t, ~ in_ellipsoid 1 1 1 (- (1)) 1 (on_line p d t)) /\ map h_entering (ellipsoid_hits sort 1 1 1 (- (1)) 1 p d) = [true].
Proof.
  exists isort, (mkv (2 / 10 ^ 5 - 1) 0 (1 + 1 / 10 ^ 5)), (mkv 1 0 (- (1 / 10 ^ 5))). split; [apply isort_ok|]. split; [intros E; injection E; lra|]. split.
  - intros t (A & _). rewrite quadric_one in A. cbn [vx vy vz on_line vadd vscale] in A. assert (E : exists s, t = s + 1) by (exists (t - 1); ring). destruct E as [s ->].
    pose proof (Rle_0_sqr (s + 1 / 10 ^ 5)) as Q1. pose proof (Rle_0_sqr s) as Q2. unfold Rsqr in *. lra.
  - unfold ellipsoid_hits, level. cbn [vx vy vz]. cbn zeta. unfold point_at, vadd, vscale. cbn [vx vy vz].
    undo (1 * 1) 1. match goal with |- context [Rle_dec 0 ?x] => destruct (Rle_dec 0 x) as [L|_]; [exfalso; lra|] end.
    unfold ellipsoid_cut. cbn [vx vy vz]. assert (Rabs (- (1 / 10 ^ 5)) = 1 / 10 ^ 5) as -> by (rewrite Rabs_Ropp; apply Rabs_right; lra). branch.
    match goal with |- context [snap ?x] => replace x with (2 * 10 ^ 5 + 1) by field end.
    match goal with |- context [snap ?x] => lazymatch x with 2 * 10 ^ 5 + 1 => fail | _ => replace x with 1 by field end end.
    unfold snap, level, point_at, vadd, vscale. cbn [vx vy vz]. branch. reflexivity.
Qed.
Print Assumptions C118_pole_refuted.

Example C118_case : clear_ellipsoid 2 1 1 (- (1 / 2)) (1 / 2) (mkv 0 0 (- (5))) (mkv 0 0 1) /\
  in_ellipsoid 2 1 1 (- (1 / 2)) (1 / 2) (on_line (mkv 0 0 (- (5))) (mkv 0 0 1) (19 / 4)) /\ make_ellipsoid 2 1 1 (- (1 / 2)) (1 / 2) = Some (2, 1, 1, - (1 / 2), 1 / 2).
Proof.
  assert (Q : forall t, quadric 2 1 1 (on_line (mkv 0 0 (- (5))) (mkv 0 0 1) t) = (t - 5) * (t - 5)) by (intros t; unfold quadric; cbn; field).
  assert (W : forall t, (t - 5) * (t - 5) = 1 -> t = 4 \/ t = 6) by (intros t H; destruct (sq_roots (t - 5) 1); lra).
  assert (V : forall t, on_cut (- (1 / 2)) (1 / 2) (on_line (mkv 0 0 (- (5))) (mkv 0 0 1) t) -> t = 9 / 2 \/ t = 11 / 2) by (intros t [H|H]; cbn in H; lra).
  split; [|split].
  - split.
    + right. cbn [vz]. rewrite Rabs_R1. unfold precision. lra.
    + intros t H. rewrite Q in H. apply W in H as [->| ->]; [exists 6|exists 4]; rewrite Q; lra.
    + cbv beta zeta. intros t u A B N. rewrite Q in A, B.
      assert (A' : t = 4 \/ t = 6 \/ t = 9 / 2 \/ t = 11 / 2) by (destruct A as [A|A]; [apply W in A|apply V in A]; tauto).
      assert (B' : u = 4 \/ u = 6 \/ u = 9 / 2 \/ u = 11 / 2) by (destruct B as [B|B]; [apply W in B|apply V in B]; tauto).
      clear A B. destruct A' as [->|[->|[->| ->]]], B' as [->|[->|[->| ->]]]; try lra; apart_abs.
    + intros t A. rewrite Q in A. assert (A' : t = 4 \/ t = 6 \/ t = 9 / 2 \/ t = 11 / 2) by (destruct A as [A|A]; [apply W in A|apply V in A]; tauto). unfold precision. lra.
    + intros t A. rewrite Q in A. apply W in A. cbn. unfold precision. lra.
    + intros t A. rewrite Q. apply V in A. unfold precision. destruct A as [->| ->]; lra.
  - unfold in_ellipsoid. rewrite Q. cbn. lra.
  - unfold make_ellipsoid. branch. reflexivity.
Qed.

(** ** C119: elliptical tubes *)

(** C119: the crossings found for an elliptical tube are those of the line with it. *)
Theorem C119_crossings sort a b h p d : sorts sort -> 0 < a -> 0 < b -> 0 < h -> d <> mkv 0 0 0 -> clear_tube a b h p d ->
  traces (fun t => in_tube a b h (on_line p d t)) (tube_hits sort a b h p d) /\ positioned p d (tube_hits sort a b h p d).
Proof. intros. apply tube_ok; auto. Qed.
Print Assumptions C119_crossings.

(** C119: the box around an elliptical tube holds all of it. *)
Theorem C119_bounds a b h q : 0 < a -> 0 < b -> in_tube a b h q -> in_aabb (tube_bounds a b h) q.
Proof.
  intros A B (E & Z). apply abs_le in Z. unfold ellipse in E. pose proof (pow2_ge_0 (vx q / a)). pose proof (pow2_ge_0 (vy q / b)).
  pose proof (part_le a 1 ltac:(lra) A (vx q)) as X. pose proof (part_le b 1 ltac:(lra) B (vy q)) as Y. rewrite sqrt_1 in *. unfold in_aabb, tube_bounds. cbn. lra.
Qed.
Print Assumptions C119_bounds.

(** Finding (C119): a line that passes the rim of a lid within the precision, outside of the tube, leaves it before entering it. *)
Theorem C119_rim_refuted : exists sort p d, sorts sort /\ vx d * vx d + vy d * vy d + vz d * vz d = 1 /\
  (forall t, ~ in_tube 1 1 1 (on_line p d t)) /\ map h_entering (tube_hits sort 1 1 1 p d) = [false; true].
Proof.
  exists isort, (mkv (- (2) + 1 / 10 ^ 10) 0 5), (mkv (3 / 5) 0 (- (4 / 5))). split; [apply isort_ok|]. split; [cbn; lra|]. split.
  - intros t (A & B). apply abs_le in B. rewrite ellipse_one in A. cbn [vx vy vz on_line vadd vscale] in *. assert (5 <= t) by lra. nra.
  - unfold tube_hits. cbn [vx vy vz]. cbn zeta.
    undo (- (4 / 5)) (- (5 / 4)). undo (1 * 1) 1. undo (3 / 5 * (3 / 5) * (1 * 1) + 0 * 0 * (1 * 1)) (25 / 9).
    match goal with |- context [sqrt ?x] => replace (sqrt x) with (3 / 5) by (symmetry; apply sqrt_lem_1; lra) end.
    assert (Rabs (- (4 / 5)) = 4 / 5) as -> by (rewrite Rabs_Ropp; apply Rabs_right; lra). branch.
    unfold tube_root, tube_cap, point_at, vadd, vscale. cbn [vx vy vz]. cbn zeta. undo (- (4 / 5)) (- (5 / 4)). unfold Rabs. repeat (destruct (Rcase_abs _); try (exfalso; lra)). branch.
    repeat progress (cbn [app isort fold_right insert h_distance vx vy vz]; branch). reflexivity.
Qed.
Print Assumptions C119_rim_refuted.

Example C119_case : clear_tube 2 1 1 (mkv (- (3)) 0 (- (4))) (mkv (3 / 5) 0 (4 / 5)) /\ in_tube 2 1 1 (on_line (mkv (- (3)) 0 (- (4))) (mkv (3 / 5) 0 (4 / 5)) 5).
Proof.
  assert (Q : forall t, ellipse 2 1 (on_line (mkv (- (3)) 0 (- (4))) (mkv (3 / 5) 0 (4 / 5)) t) = (3 / 10 * (t - 5)) * (3 / 10 * (t - 5))) by (intros t; unfold ellipse; cbn; field).
  split.
  - split.
    + right. unfold ellipse, precision. cbn [vx vy vz]. lra.
    + right. cbn [vz]. rewrite Rabs_right by lra. unfold precision. lra.
    + intros t H. rewrite Q in H. assert (t = 5 + 10 / 3 \/ t = 5 - 10 / 3) by (destruct (sq_roots (3 / 10 * (t - 5)) 1); lra). cbn. unfold Rabs. destruct (Rcase_abs _); unfold precision; lra.
    + intros t H. rewrite Q. unfold on_lid in H. cbn in H. assert (t = 5 + 5 / 4 \/ t = 5 - 5 / 4) as [-> | ->] by (unfold Rabs in H; destruct (Rcase_abs _); lra); unfold precision; lra.
  - unfold in_tube. rewrite Q. cbn. rewrite abs_le. lra.
Qed.

(** ** C120: trapezoids *)

(** C120: the crossings found for a trapezoid are those of the line with it. *)
Theorem C120_crossings sort x1 x2 y1 y2 h p d : sorts sort -> 0 <= x1 -> 0 <= x2 -> 0 <= y1 -> 0 <= y2 -> 0 < h -> d <> mkv 0 0 0 -> clear_trd x1 x2 y1 y2 h p d ->
  traces (fun t => in_trd x1 x2 y1 y2 h (on_line p d t)) (trd_hits sort x1 x2 y1 y2 h p d) /\ positioned p d (trd_hits sort x1 x2 y1 y2 h p d).
Proof. intros. apply trd_ok; auto. Qed.
Print Assumptions C120_crossings.

(** C120: the box around a trapezoid holds all of it. *)
Theorem C120_bounds x1 x2 y1 y2 h q : 0 <= x1 -> 0 <= x2 -> 0 <= y1 -> 0 <= y2 -> 0 < h -> in_trd x1 x2 y1 y2 h q -> in_aabb (trd_bounds x1 x2 y1 y2 h) q.
Proof.
  intros A B C D H (Z & X & Y). pose proof (width_pos h H x1 x2 q A B Z). pose proof (width_pos h H y1 y2 q C D Z). rewrite abs_le in *. unfold in_aabb, trd_bounds. cbn. lra.
Qed.
Print Assumptions C120_bounds.

Ltac pieces t := unfold trd_cap, trd_side; cbn [vx vy vz]; cbn zeta;
  match goal with |- context [Rlt_dec precision (Rabs ?x)] => first [replace (Rabs x) with 0 by (rewrite Rabs_pos_eq; lra) | replace (Rabs x) with x by (symmetry; apply Rabs_pos_eq; lra) | replace (Rabs x) with (- x) by (symmetry; apply Rabs_left; lra)] end;
  branch; try reflexivity;
  match goal with |- context [snap ?x] => replace x with t by field; rewrite (snap_same t) by (unfold precision; lra) end;
  unfold point_at, vadd, vscale; cbn [vx vy vz]; branch; reflexivity.

(** Finding (C120): a line that goes in through an edge enters twice. *)
Theorem C120_edge_refuted : exists sort p d, sorts sort /\ vx d * vx d + vy d * vy d + vz d * vz d = 1 /\
  map h_entering (trd_hits sort 1 1 1 1 1 p d) = [true; true; false].
Proof.
  exists isort, (mkv (- (4)) 0 5), (mkv (3 / 5) 0 (- (4 / 5))). split; [apply isort_ok|]. split; [cbn; lra|].
  unfold trd_hits. cbn [vx vy vz]. destruct (Rlt_dec 0 1) as [_|?]; [|lra]. destruct (Rlt_dec (- (4 / 5)) 0) as [_|?]; [|lra]. destruct (Rlt_dec 0 (- (4 / 5))) as [?|_]; [lra|]. cbn zeta.
  assert (A : Rabs (- (4 / 5)) = 4 / 5) by (rewrite Rabs_Ropp; apply Rabs_right; lra).
  assert (E1 : map (fun h => (h_distance h, h_entering h)) (trd_cap 1 1 1 (mkv (- (4)) 0 5) (mkv (3 / 5) 0 (- (4 / 5))) true) = [(5, true)]) by (pieces 5).
  assert (E2 : map (fun h => (h_distance h, h_entering h)) (trd_cap (- (1)) 1 1 (mkv (- (4)) 0 5) (mkv (3 / 5) 0 (- (4 / 5))) false) = [(15 / 2, false)]) by (pieces (15 / 2)).
  assert (E3 : map (fun h => (h_distance h, h_entering h)) (trd_side 1 (1 / (2 * 1)) vx vy (2 * 1) (1 - 1) 1 1 1 (mkv (- (4)) 0 5) (mkv (3 / 5) 0 (- (4 / 5)))) = []) by (pieces (25 / 3)).
  assert (E4 : map (fun h => (h_distance h, h_entering h)) (trd_side 1 (1 / (2 * 1)) vx vy (- (2) * 1) (1 - 1) (- (1)) 1 1 (mkv (- (4)) 0 5) (mkv (3 / 5) 0 (- (4 / 5)))) = [(5, true)]) by (pieces 5).
  assert (E5 : map (fun h => (h_distance h, h_entering h)) (trd_side 1 (1 / (2 * 1)) vy vx (2 * 1) (1 - 1) 1 1 1 (mkv (- (4)) 0 5) (mkv (3 / 5) 0 (- (4 / 5)))) = []) by (pieces 0).
  assert (E6 : map (fun h => (h_distance h, h_entering h)) (trd_side 1 (1 / (2 * 1)) vy vx (- (2) * 1) (1 - 1) (- (1)) 1 1 (mkv (- (4)) 0 5) (mkv (3 / 5) 0 (- (4 / 5)))) = []) by (pieces 0).
  revert E1 E2 E3 E4 E5 E6. generalize (trd_cap 1 1 1 (mkv (- (4)) 0 5) (mkv (3 / 5) 0 (- (4 / 5))) true) (trd_cap (- (1)) 1 1 (mkv (- (4)) 0 5) (mkv (3 / 5) 0 (- (4 / 5))) false)
    (trd_side 1 (1 / (2 * 1)) vx vy (2 * 1) (1 - 1) 1 1 1 (mkv (- (4)) 0 5) (mkv (3 / 5) 0 (- (4 / 5)))) (trd_side 1 (1 / (2 * 1)) vx vy (- (2) * 1) (1 - 1) (- (1)) 1 1 (mkv (- (4)) 0 5) (mkv (3 / 5) 0 (- (4 / 5))))
    (trd_side 1 (1 / (2 * 1)) vy vx (2 * 1) (1 - 1) 1 1 1 (mkv (- (4)) 0 5) (mkv (3 / 5) 0 (- (4 / 5)))) (trd_side 1 (1 / (2 * 1)) vy vx (- (2) * 1) (1 - 1) (- (1)) 1 1 (mkv (- (4)) 0 5) (mkv (3 / 5) 0 (- (4 / 5)))).
  intros l1 l2 l3 l4 l5 l6 E1 E2 E3 E4 E5 E6. apply map_eq_nil in E3. apply map_eq_nil in E5. apply map_eq_nil in E6. subst.
  destruct l1 as [|h1 [|]]; try discriminate. destruct l2 as [|h2 [|]]; try discriminate. destruct l4 as [|h4 [|]]; try discriminate.
  injection E1 as D1 B1. injection E2 as D2 B2. injection E4 as D4 B4. cbn [app isort fold_right insert]. rewrite D2, D4.
  destruct (Rle_dec (15 / 2) 5); [lra|]. cbn [insert]. rewrite D1, D4. destruct (Rle_dec 5 5); [|lra]. cbn [map]. rewrite B1, B2, B4. reflexivity.
Qed.
Print Assumptions C120_edge_refuted.

(** Finding (C120): the sides of a thin trapezoid are not found, as the normals compared with the precision are as long as it is thick. *)
Theorem C120_thin_refuted : exists p d h, 0 < h /\ vx d * vx d + vy d * vy d + vz d * vz d = 1 /\
  (forall t, 1 <= t <= 3 -> in_trd 1 1 1 1 h (on_line p d t)) /\ forall sort, sorts sort -> trd_hits sort 1 1 1 1 h p d = [].
Proof.
  exists (mkv (- (2)) 0 0), (mkv 1 0 0), (1 / 10 ^ 10). split; [lra|]. split; [cbn; lra|]. split.
  - intros t T. unfold in_trd, width. cbn [vx vy vz on_line vadd vscale]. rewrite !abs_le. lra.
  - intros sort S. unfold trd_hits, trd_cap, trd_side. cbn [vx vy vz]. cbn zeta. unfold Rabs. repeat (destruct (Rcase_abs _); try (exfalso; lra)). branch.
    cbn [app]. destruct (S hit h_distance []) as [P _]. apply Permutation_sym, Permutation_nil in P. exact P.
Qed.
Print Assumptions C120_thin_refuted.

Example C120_case : clear_trd 1 2 1 2 3 (mkv (- (3)) 0 (- (4))) (mkv (3 / 5) 0 (4 / 5)) /\ in_trd 1 2 1 2 3 (on_line (mkv (- (3)) 0 (- (4))) (mkv (3 / 5) 0 (4 / 5)) 5).
Proof.
  split.
  - split.
    + right. cbn [vz]. rewrite Rabs_right by lra. unfold precision. lra.
    + intros s k H. right. cbn in H. unfold precision, Rabs. cbn. destruct H as [[-> ->]|[[-> ->]|[[-> ->]|[-> ->]]]]; destruct (Rcase_abs _); lra.
    + intros t i j (A & B & C) X Y. rewrite !abs_le in *. unfold width in *. cbn [vx vy vz on_line vadd vscale] in *.
      do 6 (destruct i as [|i]; [do 6 (destruct j as [|j]; [try reflexivity; exfalso; cbn [nth trd_faces] in X, Y; unfold width in X, Y; cbn [vx vy vz on_line vadd vscale] in X, Y; lra|]); exfalso; destruct j; cbn in Y; lra|]).
      exfalso. destruct i; cbn in X; lra.
    + intros t i X T. unfold precision in T. do 6 (destruct i as [|i]; [cbn [nth trd_faces] in X; unfold width in X; cbn [vx vy vz on_line vadd vscale] in X; lra|]). destruct i; cbn in X; lra.
  - unfold in_trd, width. cbn [vx vy vz on_line vadd vscale]. rewrite !abs_le. lra.
Qed.
