(** Parity of the crossings with a closed mesh. *)
From Coq Require Import Reals List Bool ZArith Lia Lra Psatz Permutation.
From Verif Require Import TraversalModel VectorModel MeshModel MeshSpec MeshProofs.
Import ListNotations.
Open Scope R_scope.

(** ** In the plane *)
(** Crossings of the half-line of positive first coordinate, upwards counted positive. *)
Definition cross (ax ay bx by_ : R) : R := ax * by_ - ay * bx.
Definition crossing (ax ay bx by_ : R) : Z :=
  if Rle_dec ay 0 then (if Rlt_dec 0 by_ then (if Rlt_dec 0 (cross ax ay bx by_) then 1%Z else 0%Z) else 0%Z)
  else (if Rle_dec by_ 0 then (if Rlt_dec (cross ax ay bx by_) 0 then (-1)%Z else 0%Z) else 0%Z).

(** Which way round the triangle goes about the origin, if it holds it. *)
Definition about (p q r : R) : Z :=
  if Rlt_dec 0 (p + q + r) then (if Rle_dec 0 p then if Rle_dec 0 q then if Rle_dec 0 r then 1%Z else 0%Z else 0%Z else 0%Z)
  else if Rlt_dec (p + q + r) 0 then (if Rle_dec p 0 then if Rle_dec q 0 then if Rle_dec r 0 then (-1)%Z else 0%Z else 0%Z else 0%Z)
  else 0%Z.

Lemma about_rotate p q r : about p q r = about q r p.
Proof.
  unfold about. replace (q + r + p) with (p + q + r) by ring. destruct (Rlt_dec 0 (p + q + r)).
  - destruct (Rle_dec 0 p), (Rle_dec 0 q), (Rle_dec 0 r); auto.
  - destruct (Rlt_dec (p + q + r) 0); auto. destruct (Rle_dec p 0), (Rle_dec q 0), (Rle_dec r 0); auto.
Qed.
Lemma about_pos p q r : 0 <= p -> 0 <= q -> 0 <= r -> 0 < p + q + r -> about p q r = 1%Z.
Proof. intros. unfold about. destruct (Rlt_dec 0 (p + q + r)); [|lra]. destruct (Rle_dec 0 p); [|lra]. destruct (Rle_dec 0 q); [|lra]. destruct (Rle_dec 0 r); [auto|lra]. Qed.
Lemma about_neg p q r : p <= 0 -> q <= 0 -> r <= 0 -> p + q + r < 0 -> about p q r = (-1)%Z.
Proof. intros. unfold about. destruct (Rlt_dec 0 (p + q + r)); [lra|]. destruct (Rlt_dec (p + q + r) 0); [|lra]. destruct (Rle_dec p 0); [|lra]. destruct (Rle_dec q 0); [|lra]. destruct (Rle_dec r 0); [auto|lra]. Qed.
Lemma about_none p q r : (p < 0 /\ 0 < r) \/ (0 < p /\ r < 0) -> about p q r = 0%Z.
Proof.
  intros H. unfold about. destruct (Rlt_dec 0 (p + q + r)).
  - destruct (Rle_dec 0 p), (Rle_dec 0 q), (Rle_dec 0 r); auto; lra.
  - destruct (Rlt_dec (p + q + r) 0); auto. destruct (Rle_dec p 0), (Rle_dec q 0), (Rle_dec r 0); auto; lra.
Qed.

Definition clear_of (ax ay bx by_ : R) : Prop := forall u, 0 <= u <= 1 -> u * ax + (1 - u) * bx = 0 -> u * ay + (1 - u) * by_ = 0 -> False.
Lemma clear_sym ax ay bx by_ : clear_of ax ay bx by_ -> clear_of bx by_ ax ay.
Proof. intros C u U X Y. apply (C (1 - u)); lra. Qed.

(** An edge from one side to the other does not have the origin in line. *)
Lemma straddle ax ay bx by_ : clear_of ax ay bx by_ -> 0 < ay -> by_ <= 0 -> cross ax ay bx by_ <> 0.
Proof.
  intros C A B E. unfold cross in E. set (u := - by_ / (ay - by_)).
  assert (U : u * (ay - by_) = - by_) by (unfold u; field; lra).
  assert (U2 : 0 <= u <= 1). { assert (0 < / (ay - by_)) by (apply Rinv_0_lt_compat; lra). unfold u, Rdiv. split; [apply Rmult_le_pos; lra|]. apply (Rmult_le_reg_r (ay - by_)); [lra|]. rewrite Rmult_assoc, Rinv_l by lra. lra. }
  clearbody u. apply (C u U2); [|lra].
  assert (Z : (ay - by_) * (u * ax + (1 - u) * bx) = 0).
  { replace ((ay - by_) * (u * ax + (1 - u) * bx)) with (u * (ay - by_) * ax + ((ay - by_) - u * (ay - by_)) * bx) by ring. rewrite U. lra. }
  apply Rmult_integral in Z. destruct Z; lra.
Qed.

Lemma cross_swap ax ay bx by_ : cross bx by_ ax ay = - cross ax ay bx by_.
Proof. unfold cross. ring. Qed.

Section Plane.
Variables ax ay bx by_ cx cy : R.
Let p := cross ax ay bx by_.
Let q := cross bx by_ cx cy.
Let r := cross cx cy ax ay.
Lemma plane_y : q * ay + r * by_ + p * cy = 0.
Proof. unfold p, q, r, cross. ring. Qed.
Lemma plane_x : q * ax + r * bx + p * cx = 0.
Proof. unfold p, q, r, cross. ring. Qed.

Hypothesis cab : clear_of ax ay bx by_.
Hypothesis cbc : clear_of bx by_ cx cy.
Hypothesis cca : clear_of cx cy ax ay.

Lemma one_above : 0 < ay -> by_ <= 0 -> cy <= 0 -> (crossing ax ay bx by_ + crossing bx by_ cx cy + crossing cx cy ax ay)%Z = about p q r.
Proof.
  intros A B C. pose proof plane_y as Y.
  assert (P : p <> 0) by (apply straddle; auto).
  assert (Rn : r <> 0). { assert (H : cross ax ay cx cy <> 0) by (apply straddle; auto; apply clear_sym; auto). intro E. apply H. rewrite cross_swap. fold r. rewrite E. ring. }
  unfold crossing. fold p q r. destruct (Rle_dec ay 0); [lra|]. destruct (Rle_dec by_ 0); [|lra]. destruct (Rlt_dec 0 cy); [lra|]. destruct (Rle_dec cy 0); [|lra]. destruct (Rlt_dec 0 ay); [|lra].
  destruct (Rlt_dec p 0) as [Pn|Pp]; destruct (Rlt_dec 0 r) as [Rp|Rm].
  - symmetry. apply about_none. left. lra.
  - symmetry. apply about_neg; try lra; assert (q <= 0) by nra; lra.
  - symmetry. apply about_pos; try lra; assert (0 <= q) by nra; lra.
  - symmetry. apply about_none. right. lra.
Qed.
Lemma one_below : ay <= 0 -> 0 < by_ -> 0 < cy -> (crossing ax ay bx by_ + crossing bx by_ cx cy + crossing cx cy ax ay)%Z = about p q r.
Proof.
  intros A B C. pose proof plane_y as Y.
  assert (Rn : r <> 0) by (apply straddle; auto).
  assert (P : p <> 0). { assert (H : cross bx by_ ax ay <> 0) by (apply straddle; auto; apply clear_sym; auto). intro E. apply H. rewrite cross_swap. fold p. rewrite E. ring. }
  unfold crossing. fold p q r. destruct (Rle_dec ay 0); [|lra]. destruct (Rle_dec by_ 0); [lra|]. destruct (Rlt_dec 0 by_); [|lra]. destruct (Rle_dec cy 0); [lra|].
  destruct (Rlt_dec 0 p) as [Pn|Pp]; destruct (Rlt_dec r 0) as [Rp|Rm].
  - symmetry. apply about_none. right. lra.
  - symmetry. apply about_pos; try lra; assert (0 <= q) by nra; lra.
  - symmetry. apply about_neg; try lra; assert (q <= 0) by nra; lra.
  - symmetry. apply about_none. left. lra.
Qed.
End Plane.

Lemma about_cases p q r : about p q r = 0%Z \/ (exists u v w, 0 <= u /\ 0 <= v /\ 0 <= w /\ u + v + w = 1 /\ p = w * (p + q + r) /\ q = u * (p + q + r) /\ r = v * (p + q + r) /\ p + q + r <> 0).
Proof.
  unfold about. destruct (Rlt_dec 0 (p + q + r)) as [S|S].
  - destruct (Rle_dec 0 p), (Rle_dec 0 q), (Rle_dec 0 r); auto. right.
    assert (0 < / (p + q + r)) by (apply Rinv_0_lt_compat; auto).
    exists (q / (p + q + r)), (r / (p + q + r)), (p / (p + q + r)). unfold Rdiv. repeat split; try (apply Rmult_le_pos; lra); try (field; lra). lra.
  - destruct (Rlt_dec (p + q + r) 0); auto. destruct (Rle_dec p 0), (Rle_dec q 0), (Rle_dec r 0); auto. right.
    assert (I : 0 < / (- (p + q + r))) by (apply Rinv_0_lt_compat; lra).
    exists ((- q) * / (- (p + q + r))), ((- r) * / (- (p + q + r))), ((- p) * / (- (p + q + r))). repeat split; try (apply Rmult_le_pos; lra); try (field; lra). lra.
Qed.

Lemma same_side ax ay bx by_ cx cy : clear_of ax ay bx by_ -> clear_of bx by_ cx cy -> clear_of cx cy ax ay ->
  (0 < ay /\ 0 < by_ /\ 0 < cy) \/ (ay <= 0 /\ by_ <= 0 /\ cy <= 0) -> about (cross ax ay bx by_) (cross bx by_ cx cy) (cross cx cy ax ay) = 0%Z.
Proof.
  intros cab cbc cca H. pose proof (plane_x ax ay bx by_ cx cy) as X. pose proof (plane_y ax ay bx by_ cx cy) as Y.
  destruct (about_cases (cross ax ay bx by_) (cross bx by_ cx cy) (cross cx cy ax ay)) as [E|(u & v & w & U & V & W & S & P & Q & Rr & N)]; auto. exfalso.
  set (p := cross ax ay bx by_) in *. set (q := cross bx by_ cx cy) in *. set (r := cross cx cy ax ay) in *. set (D := p + q + r) in *.
  assert (Y' : u * ay + v * by_ + w * cy = 0).
  { assert (T : D * (u * ay + v * by_ + w * cy) = 0) by (rewrite <- Y; rewrite Q, Rr, P; ring). apply Rmult_integral in T. tauto. }
  assert (X' : u * ax + v * bx + w * cx = 0).
  { assert (T : D * (u * ax + v * bx + w * cx) = 0) by (rewrite <- X; rewrite Q, Rr, P; ring). apply Rmult_integral in T. tauto. }
  destruct H as [(A & B & C)|(A & B & C)].
  - assert (0 <= u * ay) by (apply Rmult_le_pos; lra). assert (0 <= v * by_) by (apply Rmult_le_pos; lra). assert (0 <= w * cy) by (apply Rmult_le_pos; lra).
    assert (u = 0) by (assert (Z : u * ay = 0) by lra; apply Rmult_integral in Z; destruct Z; lra).
    assert (v = 0) by (assert (Z : v * by_ = 0) by lra; apply Rmult_integral in Z; destruct Z; lra).
    assert (w = 0) by (assert (Z : w * cy = 0) by lra; apply Rmult_integral in Z; destruct Z; lra). lra.
  - assert (u * ay <= 0) by nra. assert (v * by_ <= 0) by nra. assert (w * cy <= 0) by nra.
    destruct (Req_dec u 0) as [Zu|Zu]; [subst u; apply (cbc v); [lra| |]; replace (1 - v) with w by lra; lra|].
    destruct (Req_dec v 0) as [Zv|Zv]; [subst v; apply (cca w); [lra| |]; replace (1 - w) with u by lra; lra|].
    destruct (Req_dec w 0) as [Zw|Zw]; [subst w; apply (cab u); [lra| |]; replace (1 - u) with v by lra; lra|].
    assert (ay = 0) by (assert (Z : u * ay = 0) by lra; apply Rmult_integral in Z; destruct Z; lra).
    assert (by_ = 0) by (assert (Z : v * by_ = 0) by lra; apply Rmult_integral in Z; destruct Z; lra).
    assert (cy = 0) by (assert (Z : w * cy = 0) by lra; apply Rmult_integral in Z; destruct Z; lra).
    apply N. unfold D, p, q, r, cross. rewrite H2, H3, H4. ring.
Qed.

Lemma crossing_same ax ay bx by_ : (0 < ay /\ 0 < by_) \/ (ay <= 0 /\ by_ <= 0) -> crossing ax ay bx by_ = 0%Z.
Proof. intros H. unfold crossing. destruct (Rle_dec ay 0), (Rlt_dec 0 by_), (Rle_dec by_ 0); auto; lra. Qed.

Lemma plane_about ax ay bx by_ cx cy : clear_of ax ay bx by_ -> clear_of bx by_ cx cy -> clear_of cx cy ax ay ->
  (crossing ax ay bx by_ + crossing bx by_ cx cy + crossing cx cy ax ay)%Z = about (cross ax ay bx by_) (cross bx by_ cx cy) (cross cx cy ax ay).
Proof.
  intros cab cbc cca. destruct (Rle_dec ay 0) as [A|A], (Rle_dec by_ 0) as [B|B], (Rle_dec cy 0) as [C|C].
  - rewrite same_side, !crossing_same; auto; right; auto.
  - pose proof (one_above cx cy ax ay bx by_ cca cbc ltac:(lra) ltac:(lra) ltac:(lra)) as H. rewrite about_rotate in H. lia.
  - pose proof (one_above bx by_ cx cy ax ay cbc cab ltac:(lra) ltac:(lra) ltac:(lra)) as H. rewrite <- about_rotate in H. lia.
  - apply one_below; auto; lra.
  - apply one_above; auto; lra.
  - pose proof (one_below bx by_ cx cy ax ay cbc cab ltac:(lra) ltac:(lra) ltac:(lra)) as H. rewrite <- about_rotate in H. lia.
  - pose proof (one_below cx cy ax ay bx by_ cca cbc ltac:(lra) ltac:(lra) ltac:(lra)) as H. rewrite about_rotate in H. lia.
  - rewrite same_side, !crossing_same; auto; left; lra.
Qed.

Lemma crossing_swap ax ay bx by_ : crossing bx by_ ax ay = (- crossing ax ay bx by_)%Z.
Proof.
  unfold crossing. rewrite cross_swap. destruct (Rle_dec by_ 0), (Rle_dec ay 0), (Rlt_dec 0 ay), (Rlt_dec 0 by_); try lra; auto.
  - destruct (Rlt_dec 0 (- cross ax ay bx by_)), (Rlt_dec (cross ax ay bx by_) 0); auto; lra.
  - destruct (Rlt_dec (- cross ax ay bx by_) 0), (Rlt_dec 0 (cross ax ay bx by_)); auto; lra.
Qed.

(** ** Along a ray *)
(** What is left of a point when looking along the ray. *)
Definition across (o d v : vec) (k : axis) : R :=
  let r := prepare_ray o d in coord k (vsub v o) - coord k d / coord (w_kz r) d * coord (w_kz r) (vsub v o).
Definition side_x (o d v : vec) : R := across o d v (w_kx (prepare_ray o d)).
Definition side_y (o d v : vec) : R := across o d v (w_ky (prepare_ray o d)).
Definition ray_crossing (o d : vec) (e : vec * vec) : Z := crossing (side_x o d (fst e)) (side_y o d (fst e)) (side_x o d (snd e)) (side_y o d (snd e)).

(** The line has no point in common with a side. *)
Definition misses (o d : vec) (e : vec * vec) : Prop := forall s u, 0 <= u <= 1 -> point o d s <> vadd (vscale u (fst e)) (vscale (1 - u) (snd e)).

Lemma ray_crossing_turned o d e : ray_crossing o d (turned e) = (- ray_crossing o d e)%Z.
Proof. apply crossing_swap. Qed.

Lemma misses_clear o d e : d <> mkv 0 0 0 -> misses o d e -> clear_of (side_x o d (fst e)) (side_y o d (fst e)) (side_x o d (snd e)) (side_y o d (snd e)).
Proof.
  intros N M u U X Y. unfold side_x, side_y, across in X, Y. destruct (prepared o d N) as (kx & ky & kz & E & O). rewrite E in X, Y. cbn [w_kx w_ky w_kz] in X, Y.
  fold (ordered kx ky kz d) in O. pose proof (ordered_nonzero _ _ _ _ O) as Z.
  set (p := vadd (vscale u (fst e)) (vscale (1 - u) (snd e))).
  set (s := coord kz (vsub p o) / coord kz d). apply (M s u U). fold p. apply coord_eq.
  assert (K : forall k, coord k (vsub p o) = coord k d / coord kz d * coord kz (vsub p o)).
  { apply (by_axes _ _ _ _ _ O).
    - unfold p. rewrite !coord_vsub, !coord_vadd, !coord_vscale. rewrite !coord_vsub in X. lra.
    - unfold p. rewrite !coord_vsub, !coord_vadd, !coord_vscale. rewrite !coord_vsub in Y. lra.
    - field. auto. }
  intros k. unfold point. rewrite coord_vadd, coord_vscale. specialize (K k). unfold s.
  replace (coord kz (vsub p o) / coord kz d * coord k d) with (coord k d / coord kz d * coord kz (vsub p o)) by (field; auto).
  rewrite <- K, coord_vsub. ring.
Qed.

Definition sign_of (w : option hit) : Z := match w with None => 0%Z | Some h => if h_front h then (-1)%Z else 1%Z end.

Lemma woop_about o d t : d <> mkv 0 0 0 ->
  sign_of (woop (prepare_ray o d) t) =
  about (cross (side_x o d (ta t)) (side_y o d (ta t)) (side_x o d (tb t)) (side_y o d (tb t)))
        (cross (side_x o d (tb t)) (side_y o d (tb t)) (side_x o d (tc t)) (side_y o d (tc t)))
        (cross (side_x o d (tc t)) (side_y o d (tc t)) (side_x o d (ta t)) (side_y o d (ta t))).
Proof.
  intros N. unfold side_x, side_y, across. destruct (prepared o d N) as (kx & ky & kz & E & O). rewrite E. cbn [w_kx w_ky w_kz].
  rewrite woop_value. cbv zeta.
  set (Ax := coord kx (vsub (ta t) o) - coord kx d / coord kz d * coord kz (vsub (ta t) o)).
  set (Ay := coord ky (vsub (ta t) o) - coord ky d / coord kz d * coord kz (vsub (ta t) o)).
  set (Bx := coord kx (vsub (tb t) o) - coord kx d / coord kz d * coord kz (vsub (tb t) o)).
  set (By := coord ky (vsub (tb t) o) - coord ky d / coord kz d * coord kz (vsub (tb t) o)).
  set (Cx := coord kx (vsub (tc t) o) - coord kx d / coord kz d * coord kz (vsub (tc t) o)).
  set (Cy := coord ky (vsub (tc t) o) - coord ky d / coord kz d * coord kz (vsub (tc t) o)).
  assert (EU : edges kx ky kz o d t Uf = - cross Bx By Cx Cy) by (unfold edges, Uf, cross; fold Ax Ay Bx By Cx Cy; unfold sh; fold Ax Ay Bx By Cx Cy; ring).
  assert (EV : edges kx ky kz o d t Vf = - cross Cx Cy Ax Ay) by (unfold edges, Vf, cross; unfold sh; fold Ax Ay Bx By Cx Cy; ring).
  assert (EW : edges kx ky kz o d t Wf = - cross Ax Ay Bx By) by (unfold edges, Wf, cross; unfold sh; fold Ax Ay Bx By Cx Cy; ring).
  rewrite EU, EV, EW. set (p := cross Ax Ay Bx By). set (q := cross Bx By Cx Cy). set (r := cross Cx Cy Ax Ay).
  generalize (edges kx ky kz o d t Tf). intros T. clearbody p q r. clear.
  unfold any_negative, about. rewrite !Ropp_involutive.
  destruct (Rlt_dec (- q) 0), (Rlt_dec (- r) 0), (Rlt_dec (- p) 0), (Rlt_dec q 0), (Rlt_dec r 0), (Rlt_dec p 0); cbn [orb andb]; try lra;
    destruct (Req_EM_T (- q + - r + - p) 0), (Rlt_dec 0 (p + q + r)); cbn [sign_of h_front]; try lra;
    try (destruct (Rlt_dec (p + q + r) 0); try lra); 
    repeat match goal with |- context [Rle_dec ?a ?b] => destruct (Rle_dec a b); try lra end; 
    try (destruct (Rlt_dec 0 (- q + - r + - p)); try lra); reflexivity.
Qed.

Lemma triangle_crossings o d t : d <> mkv 0 0 0 -> (forall e, In e (sides (ta t) (tb t) (tc t)) -> misses o d e) ->
  (ray_crossing o d (ta t, tb t) + ray_crossing o d (tb t, tc t) + ray_crossing o d (tc t, ta t))%Z = sign_of (woop (prepare_ray o d) t).
Proof.
  intros N M. rewrite woop_about by auto. apply plane_about.
  - apply (misses_clear o d (ta t, tb t) N). apply M. cbn; auto.
  - apply (misses_clear o d (tb t, tc t) N). apply M. cbn; auto.
  - apply (misses_clear o d (tc t, ta t) N). apply M. cbn; auto.
Qed.
