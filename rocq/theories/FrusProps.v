(** Properties C189 and C190: walls and caps of cones. *)
From Coq Require Import Reals List Bool Lra Lia Psatz.
From Verif Require Import VectorModel GeometryModel GeometrySpec SolidSpec PconeModel PconeSpec PconeProofs FrusModel FrusProofs.
Import ListNotations.
Open Scope R_scope.

(** The radii below and above of the inner or the outer wall. *)
Definition below (c : cone) (inner : bool) : R := if inner then co_min1 c else co_max1 c.
Definition above (c : cone) (inner : bool) : R := if inner then co_min2 c else co_max2 c.

(** How far the line is out of a wall, and the radius of the wall at the height of the line. *)
Definition out_of (c : cone) (inner : bool) (p d : vec) : R -> R :=
  outside_by p d (- co_z c / 2) (co_z c / 2) (below c inner) (above c inner).
Definition wall_radius (c : cone) (inner : bool) (p d : vec) (t : R) : R :=
  radius_at (- co_z c / 2) (co_z c / 2) (below c inner) (above c inner) (vz (on_line p d t)).

(** The point at [t] is between the caps up to the precision, and on the half of the double cone that is the wall. *)
Definition on_wall (c : cone) (inner : bool) (p d : vec) (t : R) : Prop :=
  - co_z c / 2 - precision < vz (on_line p d t) < co_z c / 2 + precision /\ 0 <= wall_radius c inner p d t.

(** The hits with a wall. *)
Definition wall_hits (c : cone) (inner : bool) (p d : vec) : list hit := if inner then inner_hits c p d else outer_hits c p d.

Lemma wall_hits_sides c inner p d : 0 < co_z c -> (inner = true -> 0 < co_min1 c \/ 0 < co_min2 c) ->
  wall_hits c inner p d = side_hits p d (- co_z c / 2) (co_z c / 2)
    (below c inner - (above c inner - below c inner) / (co_z c / 2 - - co_z c / 2) * (- co_z c / 2))
    ((above c inner - below c inner) / (co_z c / 2 - - co_z c / 2)) inner.
Proof.
  intros Z H. assert (S : forall r1 r2, slope (co_z c) r1 r2 = (r2 - r1) / (co_z c / 2 - - co_z c / 2)).
  { intros. unfold slope. destruct (Rlt_dec 0 (co_z c)); [|contradiction]. field. lra. }
  assert (M : forall r1 r2, mean_radius r1 r2 = r1 - (r2 - r1) / (co_z c / 2 - - co_z c / 2) * (- co_z c / 2)).
  { intros. unfold mean_radius. field. lra. }
  assert (L : - (1 / 2) * co_z c = - co_z c / 2) by lra. assert (U : 1 / 2 * co_z c = co_z c / 2) by lra.
  unfold wall_hits, inner_hits, outer_hits, below, above. rewrite L, U, !S, !M. destruct inner; auto.
  destruct (Rlt_dec 0 (co_min1 c)); auto. destruct (Rlt_dec 0 (co_min2 c)); auto. destruct (H eq_refl); contradiction.
Qed.

(** ** C189: walls *)

(** C189: the crossings with a wall that the line does not run along are points of the line on that wall between the caps up to the precision, each tells
    which way the line goes, and every point where the line passes through the wall between the caps is among them. *)
Theorem C189_wall c inner p d : let f := out_of c inner p d in
  0 < co_z c -> (inner = true -> 0 < co_min1 c \/ 0 < co_min2 c) -> (forall t, f t = 0 -> ~ 0 < t < precision) ->
  precision < Rabs (bend d (- co_z c / 2) (co_z c / 2) (below c inner) (above c inner)) ->
  (forall h, In h (wall_hits c inner p d) ->
     f (h_distance h) = 0 /\ on_wall c inner p d (h_distance h) /\ h_position h = on_line p d (h_distance h) /\
     (h_entering h = negb inner -> goes_in f (h_distance h)) /\ (h_entering h = inner -> goes_out f (h_distance h))) /\
  (forall t u, f t = 0 -> f u = 0 -> u <> t -> on_wall c inner p d t -> exists h, In h (wall_hits c inner p d) /\ h_distance h = t).
Proof.
  intros f Z N H G. rewrite wall_hits_sides by auto.
  destruct (side_bent p d (- co_z c / 2) (co_z c / 2) (below c inner) (above c inner) ltac:(lra) H inner G) as [K L].
  split; [|exact L].
  intros h I. destruct (K h I) as (A1 & A2 & A3 & A4). split; [exact A1|]. split; [exact A2|]. split; [exact A3|].
  split; intros E; rewrite E in A4; destruct inner; exact A4.
Qed.
Print Assumptions C189_wall.

(** C189: likewise for lines parallel to a side of the wall, which meet it once. *)
Theorem C189_parallel c inner p d s : let f := out_of c inner p d in
  0 < co_z c -> (inner = true -> 0 < co_min1 c \/ 0 < co_min2 c) -> (forall t, f t = 0 -> ~ 0 < t < precision) ->
  precision < Rabs s -> (forall t u, f u - f t = s * (u - t)) ->
  (forall h, In h (wall_hits c inner p d) ->
     f (h_distance h) = 0 /\ on_wall c inner p d (h_distance h) /\ h_position h = on_line p d (h_distance h) /\
     (h_entering h = negb inner -> goes_in f (h_distance h)) /\ (h_entering h = inner -> goes_out f (h_distance h))) /\
  (forall t, f t = 0 -> on_wall c inner p d t -> exists h, In h (wall_hits c inner p d) /\ h_distance h = t).
Proof.
  intros f Z N H G F. rewrite wall_hits_sides by auto.
  destruct (side_straight p d (- co_z c / 2) (co_z c / 2) (below c inner) (above c inner) ltac:(lra) H inner s G F) as [K L].
  split; [|exact L].
  intros h I. destruct (K h I) as (A1 & A2 & A3 & A4). split; [exact A1|]. split; [exact A2|]. split; [exact A3|].
  split; intros E; rewrite E in A4; destruct inner; exact A4.
Qed.
Print Assumptions C189_parallel.

(** A level line through the middle of a cone of height 2 with outer radius 3 below and 1 above, hollow with radius 1. *)
Example C189_case : let c := mkcone 2 1 1 3 1 in let p := mkv (- (5)) 0 0 in let d := mkv 1 0 0 in
  (exists h, In h (wall_hits c false p d) /\ h_distance h = 3) /\ (exists h, In h (wall_hits c true p d) /\ h_distance h = 6).
Proof.
  intros c p d. assert (F : forall t, out_of c false p d t = (t - 3) * (t - 7)).
  { intros t. unfold out_of, outside_by, radius_at, radial, on_line, vadd, vscale, below, above, c, p, d. cbn [vx vy vz co_z co_min1 co_min2 co_max1 co_max2]. field. }
  assert (G : forall t, out_of c true p d t = (t - 4) * (t - 6)).
  { intros t. unfold out_of, outside_by, radius_at, radial, on_line, vadd, vscale, below, above, c, p, d. cbn [vx vy vz co_z co_min1 co_min2 co_max1 co_max2]. field. }
  assert (W : forall i t, on_wall c i p d t).
  { intros i t. unfold on_wall, wall_radius, radius_at, on_line, vadd, vscale, below, above, c, p, d, precision. destruct i; cbn [vx vy vz co_z co_min1 co_min2 co_max1 co_max2]; split; try lra; replace (2 / 2 - - (2) / 2) with 2 by lra; lra. }
  assert (B : forall i, precision < Rabs (bend d (- co_z c / 2) (co_z c / 2) (below c i) (above c i))).
  { intros i. unfold bend, precision, d. cbn [vx vy vz]. rewrite Rabs_pos_eq; lra. }
  split.
  - destruct (C189_wall c false p d) as [_ L]; auto; [cbn; lra|discriminate| |].
    + intros t H. rewrite F in H. apply Rmult_integral in H. unfold precision. lra.
    + apply (L 3 7); auto; try lra; rewrite F; ring.
  - destruct (C189_wall c true p d) as [_ L]; auto; [cbn; lra|cbn; intros; lra| |].
    + intros t H. rewrite G in H. apply Rmult_integral in H. unfold precision. lra.
    + apply (L 6 4); auto; try lra; rewrite G; ring.
Qed.

(** ** C190: caps *)

(** The cap above or below: its height and radii, and whether the line runs into the cone there. *)
Definition cap_height (c : cone) (top : bool) : R := if top then co_z c / 2 else - co_z c / 2.
Definition cap_min (c : cone) (top : bool) : R := if top then co_min2 c else co_min1 c.
Definition cap_max (c : cone) (top : bool) : R := if top then co_max2 c else co_max1 c.
Definition runs_in (top : bool) (d : vec) : Prop := if top then vz d < 0 else 0 < vz d.
Definition cap_hits (c : cone) (top : bool) (p d : vec) : list hit := if top then top_hits c p d else bottom_hits c p d.

Lemma cap_hits_eq c top p d : 0 < cap_max c top -> exists e, (e = true <-> runs_in top d) /\
  cap_hits c top p d = cap_hit p d (cap_height c top) (cap_min c top) (cap_max c top) e.
Proof.
  intros H. assert (L : - (1 / 2) * co_z c = - co_z c / 2) by lra. assert (U : 1 / 2 * co_z c = co_z c / 2) by lra.
  unfold cap_hits, top_hits, bottom_hits, tip, cap_height, cap_min, cap_max, runs_in in *. rewrite L, U. destruct top.
  - destruct (Rle_dec (co_max2 c) 0); [lra|]. eexists. split; [|reflexivity]. destruct (Rlt_dec (vz d) 0); split; auto; try discriminate; contradiction.
  - destruct (Rle_dec (co_max1 c) 0); [lra|]. eexists. split; [|reflexivity]. destruct (Rlt_dec 0 (vz d)); split; auto; try discriminate; contradiction.
Qed.

(** C190: a crossing with a cap is the point of the line at the height of the cap, within the squares of the radii up to the precision, and is an entry exactly
    if the line runs into the cone; every point of the cap that a line not level passes through is found. *)
Theorem C190_cap c top p d : 0 < cap_max c top -> (forall t, vz (on_line p d t) = cap_height c top -> ~ 0 < t < precision) ->
  (forall h, In h (cap_hits c top p d) ->
     h_position h = on_line p d (h_distance h) /\ vz (h_position h) = cap_height c top /\
     cap_min c top * cap_min c top - precision <= radial (h_position h) <= cap_max c top * cap_max c top + precision /\
     (h_entering h = true <-> runs_in top d)) /\
  (forall t, vz (on_line p d t) = cap_height c top -> precision < Rabs (vz d) ->
     cap_min c top * cap_min c top <= radial (on_line p d t) <= cap_max c top * cap_max c top ->
     exists h, In h (cap_hits c top p d) /\ h_distance h = t) /\
  (length (cap_hits c top p d) <= 1)%nat.
Proof.
  intros M H. destruct (cap_hits_eq c top p d M) as (e & E & ->). unfold cap_hit.
  destruct (Rlt_dec precision (Rabs (vz d))) as [S|S].
  2:{ split; [intros h []|]. split; [intros t _ T; contradiction|cbn; lia]. }
  assert (D : vz d <> 0). { intros D. rewrite D, Rabs_R0 in S. unfold precision in S. lra. }
  set (z := cap_height c top) in *. set (t0 := (z - vz p) / vz d) in *.
  assert (Z : vz (on_line p d t0) = z). { unfold on_line, vadd, vscale, t0. cbn [vx vy vz]. field. auto. }
  rewrite (snap_clear t0) by now apply H. cbv zeta. change (point_at p d t0) with (on_line p d t0).
  change (vx (on_line p d t0) * vx (on_line p d t0) + vy (on_line p d t0) * vy (on_line p d t0)) with (radial (on_line p d t0)).
  assert (Q : 0 < precision) by (unfold precision; lra).
  assert (U : forall t, vz (on_line p d t) = z -> t = t0).
  { intros t T. unfold on_line, vadd, vscale in T. cbn [vx vy vz] in T. unfold t0. rewrite <- T. field. auto. }
  destruct (Rle_dec (radial (on_line p d t0)) (cap_max c top * cap_max c top + precision)) as [A|A].
  2:{ split; [intros h []|]. split; [intros t T _ R; rewrite (U t T) in R; lra|cbn; lia]. }
  destruct (Rle_dec (cap_min c top * cap_min c top - precision) (radial (on_line p d t0))) as [B|B].
  2:{ split; [intros h []|]. split; [intros t T _ R; rewrite (U t T) in R; lra|cbn; lia]. }
  split; [|split; [|cbn; lia]].
  - intros h [<-|[]]. cbn [h_position h_distance h_entering]. split; [reflexivity|]. split; [exact Z|]. split; [lra|exact E].
  - intros t T _ _. eexists. split; [left; reflexivity|]. cbn [h_distance]. symmetry. auto.
Qed.
Print Assumptions C190_cap.

(** Finding (C190): the precision is added to the square of the radius, so the caps of a thin cone reach out much further than the precision: a line that misses the cone by twice its radius has crossings. *)
Theorem C190_reach_refuted : exists c top p d h, 0 < cap_max c top /\ In h (cap_hits c top p d) /\
  (cap_max c top + 10 ^ 4 * precision) * (cap_max c top + 10 ^ 4 * precision) < radial (h_position h).
Proof.
  exists (mkcone 1 0 0 (1 / 10 ^ 5) (1 / 10 ^ 5)), true, (mkv (3 / 10 ^ 5) 0 (- (5))), (mkv 0 0 1).
  unfold cap_hits, top_hits, tip, cap_hit, cap_max. cbn [co_max2 co_min2 co_z vx vy vz].
  destruct (Rle_dec (1 / 10 ^ 5) 0) as [A|_]; [exfalso; lra|].
  assert (S : precision < Rabs 1) by (rewrite Rabs_pos_eq; unfold precision; lra).
  destruct (Rlt_dec precision (Rabs 1)); [|contradiction]. cbv zeta.
  set (t := snap ((1 / 2 * 1 - - (5)) / 1)).
  assert (X : vx (point_at (mkv (3 / 10 ^ 5) 0 (- (5))) (mkv 0 0 1) t) = 3 / 10 ^ 5) by (unfold point_at; cbn [vx vy vz]; ring).
  assert (Y : vy (point_at (mkv (3 / 10 ^ 5) 0 (- (5))) (mkv 0 0 1) t) = 0) by (unfold point_at; cbn [vx vy vz]; ring).
  rewrite X, Y. match goal with |- context [Rle_dec ?u ?v] => destruct (Rle_dec u v) as [_|N]; [|exfalso; apply N; unfold precision; lra] end.
  match goal with |- context [Rle_dec ?u ?v] => destruct (Rle_dec u v) as [_|N]; [|exfalso; apply N; unfold precision; lra] end.
  eexists. split; [lra|]. split; [left; reflexivity|]. cbn [h_position]. unfold radial. rewrite X, Y. unfold precision. lra.
Qed.
Print Assumptions C190_reach_refuted.

(** A line falling through both caps of a cone of height 2. *)
Example C190_case : let c := mkcone 2 0 0 3 1 in let p := mkv (1 / 2) 0 5 in let d := mkv 0 0 (- (1)) in
  exists h k, In h (cap_hits c true p d) /\ h_distance h = 4 /\ h_entering h = true /\ In k (cap_hits c false p d) /\ h_distance k = 6 /\ h_entering k = false.
Proof.
  intros c p d. assert (S : precision < Rabs (vz d)). { unfold d, precision. cbn [vz]. rewrite Rabs_left; lra. }
  assert (H : forall top t, vz (on_line p d t) = cap_height c top -> ~ 0 < t < precision).
  { intros [|] t; unfold cap_height, on_line, vadd, vscale, c, p, d, precision; cbn [vx vy vz co_z]; lra. }
  assert (M : forall top, 0 < cap_max c top) by (intros [|]; unfold cap_max, c; cbn; lra).
  destruct (C190_cap c true p d (M true) (H true)) as (A1 & A2 & _). destruct (C190_cap c false p d (M false) (H false)) as (B1 & B2 & _).
  destruct (A2 4) as (h & I & E); auto; [unfold cap_height, on_line, vadd, vscale, c, p, d; cbn [vx vy vz co_z]; lra|unfold cap_min, cap_max, radial, on_line, vadd, vscale, c, p, d; cbn [vx vy vz co_min2 co_max2]; lra|].
  destruct (B2 6) as (k & J & F); auto; [unfold cap_height, on_line, vadd, vscale, c, p, d; cbn [vx vy vz co_z]; lra|unfold cap_min, cap_max, radial, on_line, vadd, vscale, c, p, d; cbn [vx vy vz co_min1 co_max1]; lra|].
  exists h, k. split; [exact I|]. split; [exact E|]. split; [apply A1; [exact I|]; unfold runs_in, d; cbn [vz]; lra|].
  split; [exact J|]. split; [exact F|]. destruct (h_entering k) eqn:Q; auto. apply (B1 k J) in Q. unfold runs_in, d in Q. cbn [vz] in Q. lra.
Qed.
