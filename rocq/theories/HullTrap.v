(** General trapezoids: the planes of the faces bound the points between the corners. *)
From Coq Require Import Reals Lra Lia List Bool Arith.
From Verif Require Import VectorModel GeometryModel GeometrySpec HullModel HullSpec HullProofs.
Import ListNotations.
Open Scope R_scope.

(** ** Points between points *)
Lemma weighted_dot n c ws vs : length ws = length vs -> vdot n (weighted ws vs) + c * total ws = fold_right Rplus 0 (map (fun '(w, v) => w * (vdot n v + c)) (combine ws vs)).
Proof.
  revert vs. induction ws as [|w ws IH]; intros [|v vs] L; try discriminate; cbn.
  - unfold vdot. cbn. ring.
  - rewrite <- IH by (cbn in L; lia). unfold vdot, vadd, vscale. cbn. ring.
Qed.
Lemma between_half n c vs q : (forall v, In v vs -> vdot n v + c <= 0) -> between_points vs q -> vdot n q + c <= 0.
Proof.
  intros H (ws & L & P & T & <-). pose proof (weighted_dot n c ws vs L) as E. rewrite T, Rmult_1_r in E. rewrite E. clear E T.
  revert vs H L. induction P as [|w ws W P IH]; intros [|v vs] H L; try discriminate; cbn; [lra|].
  specialize (IH vs (fun u U => H u (or_intror U)) ltac:(cbn in L; lia)). specialize (H v (or_introl eq_refl)). nra.
Qed.

(** Boxes around corners. *)
Lemma expand_keeps b v q : in_aabb b q -> in_aabb (expand_point b v) q.
Proof.
  unfold in_aabb, expand_point. cbn. intros (A & B & C).
  pose proof (Rmin_l (vx (b_min b)) (vx v)). pose proof (Rmin_l (vy (b_min b)) (vy v)). pose proof (Rmin_l (vz (b_min b)) (vz v)).
  pose proof (Rmax_l (vx (b_max b)) (vx v)). pose proof (Rmax_l (vy (b_max b)) (vy v)). pose proof (Rmax_l (vz (b_max b)) (vz v)). lra.
Qed.
Lemma expand_has b v : in_aabb (expand_point b v) v.
Proof.
  unfold in_aabb, expand_point. cbn.
  pose proof (Rmin_r (vx (b_min b)) (vx v)). pose proof (Rmin_r (vy (b_min b)) (vy v)). pose proof (Rmin_r (vz (b_min b)) (vz v)).
  pose proof (Rmax_r (vx (b_max b)) (vx v)). pose proof (Rmax_r (vy (b_max b)) (vy v)). pose proof (Rmax_r (vz (b_max b)) (vz v)). lra.
Qed.
Lemma bounds_keep vs b q : in_aabb b q -> in_aabb (fold_left expand_point vs b) q.
Proof. revert b. induction vs as [|v vs IH]; intros b H; cbn; auto. apply IH, expand_keeps, H. Qed.
Lemma bounds_corner vs b v : In v vs -> in_aabb (fold_left expand_point vs b) v.
Proof. revert b. induction vs as [|u vs IH]; intros b []; cbn; [subst; apply bounds_keep, expand_has|auto]. Qed.
Lemma bounds_between big vs q : between_points vs q -> in_aabb (corner_bounds big vs) q.
Proof.
  intros H. set (b := corner_bounds big vs). assert (C : forall v, In v vs -> in_aabb b v) by (intros v V; apply bounds_corner; auto).
  assert (G : forall n c, (forall v, In v vs -> vdot n v + c <= 0) -> vdot n q + c <= 0) by (intros n c K; apply (between_half n c vs q K H)).
  unfold in_aabb in *.
  assert (X1 := G (mkv (- (1)) 0 0) (vx (b_min b))). assert (X2 := G (mkv 1 0 0) (- vx (b_max b))).
  assert (Y1 := G (mkv 0 (- (1)) 0) (vy (b_min b))). assert (Y2 := G (mkv 0 1 0) (- vy (b_max b))).
  assert (Z1 := G (mkv 0 0 (- (1))) (vz (b_min b))). assert (Z2 := G (mkv 0 0 1) (- vz (b_max b))).
  unfold vdot in *. cbn [vx vy vz] in *.
  assert (U : forall v, In v vs -> vx (b_min b) <= vx v <= vx (b_max b) /\ vy (b_min b) <= vy v <= vy (b_max b) /\ vz (b_min b) <= vz v <= vz (b_max b)) by exact C.
  specialize (X1 ltac:(intros v V; specialize (U v V); lra)). specialize (X2 ltac:(intros v V; specialize (U v V); lra)).
  specialize (Y1 ltac:(intros v V; specialize (U v V); lra)). specialize (Y2 ltac:(intros v V; specialize (U v V); lra)).
  specialize (Z1 ltac:(intros v V; specialize (U v V); lra)). specialize (Z2 ltac:(intros v V; specialize (U v V); lra)). lra.
Qed.

(** ** Faces *)
Definition raw (a b c q : vec) : R := vdot (vcross (vsub b a) (vsub c a)) (vsub q a).
Lemma plane_side m a b c q : raw a b c m <> 0 ->
  (vdot (fst (outward m (compute_plane a b c))) q + snd (outward m (compute_plane a b c)) <= 0 <-> 0 <= raw a b c m * raw a b c q).
Proof.
  intros N. assert (C : vcross (vsub b a) (vsub c a) <> mkv 0 0 0) by (intros E; apply N; unfold raw; rewrite E; apply dot_zero).
  destruct (face_normal_scaled _ _ C) as (k & K & E & _). unfold compute_plane. rewrite E.
  assert (V : forall u, vdot (vscale k (vcross (vsub b a) (vsub c a))) u + - vdot (vscale k (vcross (vsub b a) (vsub c a))) a = k * raw a b c u).
  { intros u. unfold raw. rewrite !dot_scale. unfold vdot, vsub. cbn. ring. }
  unfold outward. cbn [fst snd]. rewrite V. destruct (Rlt_dec 0 (k * raw a b c m)) as [L|L]; cbn [fst snd].
  - assert (P : 0 < raw a b c m) by nra. assert (W : vdot (vneg (vscale k (vcross (vsub b a) (vsub c a)))) q + - - vdot (vscale k (vcross (vsub b a) (vsub c a))) a = - (k * raw a b c q)).
    { rewrite <- V. unfold vdot, vneg. cbn. ring. }
    rewrite W. split; intros H; [assert (0 <= raw a b c q) by nra; nra|]. assert (0 <= raw a b c q) by nra. nra.
  - assert (P : raw a b c m < 0) by nra. rewrite V. split; intros H; [assert (raw a b c q <= 0) by nra; nra|]. assert (raw a b c q <= 0) by nra. nra.
Qed.

Section Hexa.
Context (h y0 y1 y2 y3 x0 x1 x2 x3 x4 x5 x6 x7 : R) (Hh : 0 < h) (Hy : y0 < y1) (Hy' : y2 < y3)
  (H01 : x0 < x1) (H32 : x3 < x2) (H45 : x4 <= x5) (H76 : x7 < x6)
  (Left : (x3 - x0) * (y3 - y2) = (x7 - x4) * (y1 - y0)) (Right : (x2 - x1) * (y3 - y2) = (x6 - x5) * (y1 - y0)).
Let vs := [mkv x0 y0 (- h); mkv x1 y0 (- h); mkv x2 y1 (- h); mkv x3 y1 (- h); mkv x4 y2 h; mkv x5 y2 h; mkv x6 y3 h; mkv x7 y3 h].
Let m := mean vs.
Let v i := nth i vs (mkv 0 0 0).

Let lx := (x3 - x0) * (y3 - y0) - (y1 - y0) * (x7 - x0).
Let rx := (x2 - x1) * (y3 - y0) - (y1 - y0) * (x6 - x1).
Definition left_of (q : vec) : R := 2 * h * (y1 - y0) * (vx q - x0) - 2 * h * (x3 - x0) * (vy q - y0) + lx * (vz q + h).
Definition right_of (q : vec) : R := 2 * h * (y1 - y0) * (vx q - x1) - 2 * h * (x2 - x1) * (vy q - y0) + rx * (vz q + h).

Lemma raw0 q : raw (v 0) (v 1) (v 2) q = (x1 - x0) * (y1 - y0) * (vz q + h).
Proof. unfold raw, vdot, vcross, vsub. cbn. ring. Qed.
Lemma raw1 q : raw (v 7) (v 6) (v 5) q = - ((x6 - x7) * (y3 - y2) * (vz q - h)).
Proof. unfold raw, vdot, vcross, vsub. cbn. ring. Qed.
Lemma raw2 q : raw (v 0) (v 1) (v 5) q = (x1 - x0) * ((y2 - y0) * (vz q + h) - 2 * h * (vy q - y0)).
Proof. unfold raw, vdot, vcross, vsub. cbn. ring. Qed.
Lemma raw3 q : raw (v 3) (v 2) (v 6) q = (x2 - x3) * ((y3 - y1) * (vz q + h) - 2 * h * (vy q - y1)).
Proof. unfold raw, vdot, vcross, vsub. cbn. ring. Qed.
Lemma raw4 q : raw (v 0) (v 3) (v 7) q = left_of q.
Proof. unfold raw, vdot, vcross, vsub, left_of, lx. cbn. ring. Qed.
Lemma raw5 q : raw (v 1) (v 2) (v 6) q = right_of q.
Proof. unfold raw, vdot, vcross, vsub, right_of, rx. cbn. ring. Qed.

Lemma mean_x : vx m = (x0 + x1 + x2 + x3 + x4 + x5 + x6 + x7) / 8.
Proof. unfold m, mean, vdiv. cbn. field. Qed.
Lemma mean_y : vy m = (y0 + y1 + y2 + y3) / 4.
Proof. unfold m, mean, vdiv. cbn. field. Qed.
Lemma mean_z : vz m = 0.
Proof. unfold m, mean, vdiv. cbn. field. Qed.
Lemma left_mean : 0 < left_of m.
Proof.
  unfold left_of. rewrite mean_x, mean_y, mean_z.
  replace (_ + _) with (h * (y1 - y0) * ((x1 - x0) + (x2 - x3) + (x5 - x4) + (x6 - x7)) / 4 + h * ((x3 - x0) * (y3 - y2) - (x7 - x4) * (y1 - y0)) / 2).
  - rewrite Left. assert (0 < h * (y1 - y0)) by nra. assert (0 < h * (y1 - y0) * ((x1 - x0) + (x2 - x3) + (x5 - x4) + (x6 - x7))) by (apply Rmult_lt_0_compat; lra). lra.
  - unfold lx. field.
Qed.
Lemma right_mean : right_of m < 0.
Proof.
  unfold right_of. rewrite mean_x, mean_y, mean_z.
  replace (_ + _) with (- (h * (y1 - y0) * ((x1 - x0) + (x2 - x3) + (x5 - x4) + (x6 - x7)) / 4) + h * ((x2 - x1) * (y3 - y2) - (x6 - x5) * (y1 - y0)) / 2).
  - rewrite Right. assert (0 < h * (y1 - y0)) by nra. assert (0 < h * (y1 - y0) * ((x1 - x0) + (x2 - x3) + (x5 - x4) + (x6 - x7))) by (apply Rmult_lt_0_compat; lra). lra.
  - unfold rx. field.
Qed.

Lemma sign_pos a b : 0 < a -> (0 <= a * b <-> 0 <= b).
Proof. intros A. split; intros H; [nra|nra]. Qed.
Lemma sign_neg a b : a < 0 -> (0 <= a * b <-> b <= 0).
Proof. intros A. split; intros H; [nra|nra]. Qed.

Lemma faces_behind q : behind (trap_planes vs) q <->
  - h <= vz q <= h /\ (y2 - y0) * (vz q + h) <= 2 * h * (vy q - y0) /\ 2 * h * (vy q - y1) <= (y3 - y1) * (vz q + h) /\ 0 <= left_of q /\ right_of q <= 0.
Proof.
  change (trap_planes vs) with [outward m (compute_plane (v 0) (v 1) (v 2)); outward m (compute_plane (v 7) (v 6) (v 5)); outward m (compute_plane (v 0) (v 1) (v 5));
    outward m (compute_plane (v 3) (v 2) (v 6)); outward m (compute_plane (v 0) (v 3) (v 7)); outward m (compute_plane (v 1) (v 2) (v 6))].
  assert (P0 : 0 < (x1 - x0) * (y1 - y0)) by nra. assert (P1 : 0 < (x6 - x7) * (y3 - y2)) by nra.
  assert (R0 : 0 < raw (v 0) (v 1) (v 2) m) by (rewrite raw0, mean_z; nra).
  assert (R1 : 0 < raw (v 7) (v 6) (v 5) m) by (rewrite raw1, mean_z; nra).
  assert (R2 : raw (v 0) (v 1) (v 5) m < 0).
  { rewrite raw2, mean_y, mean_z. replace ((x1 - x0) * _) with (- (h * ((x1 - x0) * ((y1 - y0) + (y3 - y2))) / 2)) by field. assert (0 < (x1 - x0) * ((y1 - y0) + (y3 - y2))) by nra. nra. }
  assert (R3 : 0 < raw (v 3) (v 2) (v 6) m).
  { rewrite raw3, mean_y, mean_z. replace ((x2 - x3) * _) with (h * ((x2 - x3) * ((y1 - y0) + (y3 - y2))) / 2) by field. assert (0 < (x2 - x3) * ((y1 - y0) + (y3 - y2))) by nra. nra. }
  pose proof left_mean as R4. rewrite <- raw4 in R4. pose proof right_mean as R5. rewrite <- raw5 in R5.
  rewrite !behind_cons. rewrite (plane_side m (v 0) (v 1) (v 2)) by lra. rewrite (plane_side m (v 7) (v 6) (v 5)) by lra. rewrite (plane_side m (v 0) (v 1) (v 5)) by lra.
  rewrite (plane_side m (v 3) (v 2) (v 6)) by lra. rewrite (plane_side m (v 0) (v 3) (v 7)) by lra. rewrite (plane_side m (v 1) (v 2) (v 6)) by lra.
  rewrite (sign_pos _ _ R0), (sign_pos _ _ R1), (sign_neg _ _ R2), (sign_pos _ _ R3), (sign_pos _ _ R4), (sign_neg _ _ R5), raw0, raw1, raw2, raw3, raw4, raw5.
  assert (N : behind [] q) by (intros f []). split.
  - intros (A & B & C & D & E & F & _). repeat split; auto; nra.
  - intros ((A & B) & C & D & E & F). repeat split; auto; nra.
Qed.

Lemma corners_behind u : In u vs -> behind (trap_planes vs) u.
Proof.
  intros U. apply faces_behind. unfold left_of, right_of, lx, rx. unfold vs in U. cbn in U.
  assert (Q : 0 < h * (y1 - y0)) by nra. assert (A1 : 0 < h * (y1 - y0) * (x1 - x0)) by (apply Rmult_lt_0_compat; lra). assert (A2 : 0 < h * (y1 - y0) * (x2 - x3)) by (apply Rmult_lt_0_compat; lra).
  assert (A3 : 0 <= h * (y1 - y0) * (x5 - x4)) by (apply Rmult_le_pos; lra). assert (A4 : 0 < h * (y1 - y0) * (x6 - x7)) by (apply Rmult_lt_0_compat; lra).
  assert (B1 : 0 < h * (y1 - y0)) by nra. assert (B2 : 0 < h * (y3 - y2)) by nra.
  assert (HL : h * ((x3 - x0) * (y3 - y2)) = h * ((x7 - x4) * (y1 - y0))) by (rewrite Left; auto). assert (HR : h * ((x2 - x1) * (y3 - y2)) = h * ((x6 - x5) * (y1 - y0))) by (rewrite Right; auto).
  destruct U as [<-|[<-|[<-|[<-|[<-|[<-|[<-|[<-|[]]]]]]]]]; cbn [vx vy vz]; repeat split; lra.
Qed.

Lemma behind_between q : behind (trap_planes vs) q -> between_points vs q.
Proof.
  rewrite faces_behind. intros (Z & Y1 & Y2 & L & R).
  set (l := (vz q + h) / (2 * h)). assert (El : vz q + h = 2 * h * l) by (unfold l; field; lra). assert (Bl : 0 <= l <= 1) by (split; nra).
  set (yl := (1 - l) * y0 + l * y2). set (yh := (1 - l) * y1 + l * y3). 
  assert (YY : yl < yh).
  { unfold yl, yh. destruct (Rlt_dec l 1) as [l1|l1]; [|replace l with 1 by lra; lra].
    assert (0 < (1 - l) * (y1 - y0)) by (apply Rmult_lt_0_compat; lra). assert (0 <= l * (y3 - y2)) by (apply Rmult_le_pos; lra). lra. }
  assert (Yl : yl <= vy q) by (rewrite El in Y1; unfold yl; nra). assert (Yh : vy q <= yh) by (rewrite El in Y2; unfold yh; nra).
  set (k := (vy q - yl) / (yh - yl)). assert (Ek : vy q = yl + k * (yh - yl)) by (unfold k; field; lra). assert (Bk : 0 <= k <= 1) by (split; nra).
  set (xl := (1 - l) * (1 - k) * x0 + (1 - l) * k * x3 + l * (1 - k) * x4 + l * k * x7).
  set (xr := (1 - l) * (1 - k) * x1 + (1 - l) * k * x2 + l * (1 - k) * x5 + l * k * x6).
  assert (W1 : 0 <= (1 - l) * (1 - k)) by (apply Rmult_le_pos; lra). assert (W2 : 0 <= (1 - l) * k) by (apply Rmult_le_pos; lra).
  assert (W3 : 0 <= l * (1 - k)) by (apply Rmult_le_pos; lra). assert (W4 : 0 <= l * k) by (apply Rmult_le_pos; lra).
  assert (LE : left_of q = 2 * h * (y1 - y0) * (vx q - xl)).
  { unfold left_of, lx. rewrite El, Ek. unfold xl, yl, yh.
    apply Rminus_diag_uniq. transitivity (2 * h * (l * (1 - k)) * ((x3 - x0) * (y3 - y2) - (x7 - x4) * (y1 - y0))); [ring|rewrite Left; ring]. }
  assert (RE : right_of q = 2 * h * (y1 - y0) * (vx q - xr)).
  { unfold right_of, rx. rewrite El, Ek. unfold xr, yl, yh.
    apply Rminus_diag_uniq. transitivity (2 * h * (l * (1 - k)) * ((x2 - x1) * (y3 - y2) - (x6 - x5) * (y1 - y0))); [ring|rewrite Right; ring]. }
  assert (Q : 0 < 2 * h * (y1 - y0)) by nra. rewrite LE in L. rewrite RE in R.
  assert (Xl : xl <= vx q) by (apply sign_pos in L; lra). assert (Xr : vx q <= xr) by (destruct (Rle_dec (vx q) xr); auto; nra).
  assert (exists n, 0 <= n <= 1 /\ vx q = xl + n * (xr - xl)) as (n & Bn & En).
  { destruct (Req_EM_T xl xr) as [E|E]; [exists 0; split; [lra|]; lra|]. exists ((vx q - xl) / (xr - xl)).
    assert (E' : (vx q - xl) / (xr - xl) * (xr - xl) = vx q - xl) by (field; lra). set (n := _ / _) in *. split; [split; nra|lra]. }
  exists [(1 - l) * (1 - k) * (1 - n); (1 - l) * (1 - k) * n; (1 - l) * k * n; (1 - l) * k * (1 - n); l * (1 - k) * (1 - n); l * (1 - k) * n; l * k * n; l * k * (1 - n)].
  split; [reflexivity|]. split; [repeat (apply Forall_cons; [apply Rmult_le_pos; lra|]); apply Forall_nil|]. split; [cbn; ring|].
  assert (Ez : vz q = - h + 2 * h * l) by lra. destruct q as [qx qy qz]. cbn [vx vy vz] in *. rewrite Ez, Ek, En. unfold weighted, vs, vadd, vscale, xl, xr, yl, yh. cbn. f_equal; ring.
Qed.

Lemma between_behind q : between_points vs q -> behind (trap_planes vs) q.
Proof. intros H [n c] F. cbn. apply (between_half n c vs); auto. intros u U. apply (corners_behind u U (n, c) F). Qed.
End Hexa.

(** A line leaves a box. *)
Lemma leaves b p d : d <> mkv 0 0 0 -> exists m, forall t, m < Rabs t -> ~ in_aabb b (on_line p d t).
Proof.
  intros N. assert (F : forall s c lo hi, c <> 0 -> exists m, forall t, m < Rabs t -> ~ (lo <= s + t * c <= hi)).
  { intros s c lo hi C. exists ((Rabs s + Rabs lo + Rabs hi) / Rabs c). intros t T [A B]. pose proof (Rabs_pos_lt c C) as P.
    assert (Q : Rabs s + Rabs lo + Rabs hi < Rabs t * Rabs c).
    { assert (E : (Rabs s + Rabs lo + Rabs hi) / Rabs c * Rabs c = Rabs s + Rabs lo + Rabs hi) by (field; lra). set (k := _ / _) in *. nra. }
    rewrite <- Rabs_mult in Q. unfold Rabs in Q. repeat destruct (Rcase_abs _); lra. }
  destruct d as [x y z]. destruct (Req_EM_T x 0) as [->|X]; [destruct (Req_EM_T y 0) as [->|Y]; [destruct (Req_EM_T z 0) as [->|Z]; [congruence|]|]|].
  - destruct (F (vz p) z (vz (b_min b)) (vz (b_max b)) Z) as [m M]. exists m. intros t T (_ & _ & H). apply (M t T). exact H.
  - destruct (F (vy p) y (vy (b_min b)) (vy (b_max b)) Y) as [m M]. exists m. intros t T (_ & H & _). apply (M t T). exact H.
  - destruct (F (vx p) x (vx (b_min b)) (vx (b_max b)) X) as [m M]. exists m. intros t T (H & _ & _). apply (M t T). exact H.
Qed.

Lemma outward_steep c a b e d : oblique (vcross (vsub b a) (vsub e a)) d ->
  let f := outward c (compute_plane a b e) in vdot (fst f) d = 0 \/ precision <= Rabs (vdot (fst f) d).
Proof.
  intros O. cbn zeta. unfold outward, compute_plane. cbn [fst snd]. pose proof (steep_normal _ _ d O) as S.
  destruct (Rlt_dec 0 _); cbn [fst]; auto. assert (E : forall n, vdot (vneg n) d = - vdot n d) by (intros n; unfold vdot, vneg; cbn; ring). rewrite E, Rabs_Ropp. lra.
Qed.
