(** Lemmas about vertices drawn uniformly in a volume. *)
From Coq Require Import Reals List Sorted Permutation Lia Lra Psatz Arith.
From Verif Require Import TraversalModel VectorModel QuatModel QuatSpec QuatProofs QuatPlace GeometryModel GeometrySpec GeometryProofs SolidModel SolidSpec RandomModel FillModel FillSpec.
Import ListNotations.
Open Scope R_scope.

Lemma uniform_up a b g : a <= b -> uniform a b g = (b - a) * g + a.
Proof. intro H. unfold uniform. destruct (Rlt_dec b a); [lra|reflexivity]. Qed.

Lemma share_uniform a b g : a <= b -> share a b (uniform a b g) g.
Proof. intro H. rewrite uniform_up by auto. unfold share. ring. Qed.

Lemma share_le a b x y f g : a < b -> share a b x f -> share a b y g -> (x <= y <-> f <= g).
Proof. unfold share. intros. split; nra. Qed.

Lemma uniform_in a b g : a <= b -> 0 <= g <= 1 -> a <= uniform a b g <= b.
Proof. intros H G. rewrite uniform_up by auto. nra. Qed.
Lemma uniform_inside a b g : a < b -> 0 < g < 1 -> a < uniform a b g < b.
Proof. intros H G. rewrite uniform_up by lra. nra. Qed.

Lemma cbrt_cube x : 0 <= x -> 0 <= cbrt x /\ cbrt x * cbrt x * cbrt x = x.
Proof.
  intro H. unfold cbrt. destruct (Rlt_dec 0 x) as [L|L].
  - split; [left; apply exp_pos|]. rewrite <- !Rpower_plus. replace (1/3 + 1/3 + 1/3) with 1 by field. now apply Rpower_1.
  - destruct (Rlt_dec x 0); [lra|]. assert (x = 0) by lra. subst. split; [lra|ring].
Qed.

Lemma cube_lt a b : 0 <= a -> 0 <= b -> a * a * a < b * b * b -> a < b.
Proof. intros A B H. destruct (Rlt_le_dec a b); [auto|]. assert (b * b <= a * a) by nra. assert (b * b * b <= a * a * a) by nra. lra. Qed.
Lemma cube_le a b : 0 <= a -> a <= b -> a * a * a <= b * b * b.
Proof. intros A B. assert (a * a <= b * b) by nra. nra. Qed.
Lemma cube_mono a b : 0 <= a -> a < b -> a * a * a < b * b * b.
Proof. intros A B. assert (a * a <= b * b) by nra. assert (0 < b * b) by nra. nra. Qed.

(** ** The local points *)

Lemma cylinder_point_ok c g1 g2 g3 : 0 <= c_inner c < c_radius c -> 0 < c_height c -> 0 <= g2 <= 1 ->
  exists r t z, cylindrical (cylinder_point c g1 g2 g3) r t z /\ r * r = uniform (c_inner c * c_inner c) (c_radius c * c_radius c) g2 /\
    t = uniform 0 (2 * PI) g1 /\ z = uniform (- c_height c / 2) (c_height c / 2) g3.
Proof.
  intros I H G. unfold cylinder_point. cbv zeta.
  set (u := uniform (c_inner c * c_inner c) (c_radius c * c_radius c) g2).
  assert (U : 0 <= u). { pose proof (uniform_in (c_inner c * c_inner c) (c_radius c * c_radius c) g2 ltac:(nra) G). fold u in H0. nra. }
  exists (sqrt u), (uniform 0 (2 * PI) g1), (uniform (- c_height c / 2) (c_height c / 2) g3).
  split; [repeat split; apply sqrt_pos|]. split; [now apply sqrt_sqrt|auto].
Qed.

Lemma sphere_point_ok r i g1 g2 g3 : 0 <= i < r -> 0 <= g1 <= 1 -> 0 <= g3 <= 1 ->
  exists s t c, spherical (sphere_point r i g1 g2 g3) s t c /\ s * s * s = uniform (i * i * i) (r * r * r) g1 /\
    t = uniform 0 (2 * PI) g2 /\ c = uniform (- (1)) 1 g3.
Proof.
  intros I G1 G3. unfold sphere_point. cbv zeta.
  set (u := uniform (i * i * i) (r * r * r) g1). set (c := uniform (- (1)) 1 g3).
  assert (Q : i * i * i <= r * r * r) by (apply cube_le; lra).
  assert (U : 0 <= u). { pose proof (uniform_in (i * i * i) (r * r * r) g1 Q G1) as H0. fold u in H0. assert (0 <= i * i * i) by (apply Rmult_le_pos; nra). lra. }
  assert (C : -1 <= c <= 1). { pose proof (uniform_in (- (1)) 1 g3 ltac:(lra) G3) as H0. fold c in H0. lra. }
  destruct (cbrt_cube u U) as [P1 P2].
  exists (cbrt u), (uniform 0 (2 * PI) g2), c. split; [|auto]. repeat split; auto; try lra.
  exists (sqrt (1 - c * c)). split; [apply sqrt_pos|]. split; [rewrite sqrt_sqrt; nra|]. auto.
Qed.

Lemma spherical_mag q s t c : spherical q s t c -> vmag q = s.
Proof.
  intros (S1 & C1 & Z & w & W1 & W2 & X & Y). unfold vmag. rewrite X, Y, Z.
  replace (s * w * cos t * (s * w * cos t) + s * w * sin t * (s * w * sin t) + s * c * (s * c)) with
    (s * s * (w * w * ((cos t) ^ 2 + (sin t) ^ 2) + c * c)) by ring.
  pose proof (sin2_cos2 t) as T. unfold Rsqr in T. replace ((cos t) ^ 2 + (sin t) ^ 2) with 1 by (rewrite <- T; ring).
  replace (s * s * (w * w * 1 + c * c)) with (s * s) by (rewrite Rmult_1_r, W2; ring). now apply sqrt_square.
Qed.

Lemma cylindrical_radius q r t z : cylindrical q r t z -> vx q * vx q + vy q * vy q = r * r.
Proof.
  intros (R1 & X & Y & _). rewrite X, Y. pose proof (sin2_cos2 t) as T. unfold Rsqr in T.
  replace (r * cos t * (r * cos t) + r * sin t * (r * sin t)) with (r * r * (sin t * sin t + cos t * cos t)) by ring. rewrite T. ring.
Qed.

(** ** Crossings around an interior point *)

Lemma state_before l t : (forall h, In h l -> t <= h_distance h) -> forall s, fold_left (fun s h => if Rlt_dec (h_distance h) t then h_entering h else s) l s = s.
Proof.
  induction l as [|h l IH]; intros H s; cbn; [reflexivity|]. destruct (Rlt_dec (h_distance h) t).
  - pose proof (H h (or_introl eq_refl)). lra.
  - apply IH. intros. apply H. now right.
Qed.

Lemma alternating_last b l h : alternating b l -> l <> [] -> Nat.Even (List.length l) -> h_entering (last l h) = negb b.
Proof.
  revert b. assert (G : forall n b l, (List.length l <= n)%nat -> alternating b l -> l <> [] -> Nat.Even (List.length l) -> h_entering (last l h) = negb b).
  { induction n as [|n IH]; intros b l' Hn A N E; [destruct l'; cbn in *; [easy|lia]|].
    destruct l' as [|x [|y l']]; [easy|destruct E as [k E]; cbn in E; lia|].
    cbn in A. destruct A as (A1 & A2 & A3). destruct l' as [|z l']; [cbn; auto|].
    change (last (x :: y :: z :: l') h) with (last (z :: l') h). rewrite Bool.negb_involutive in A3.
    apply IH; [cbn in *; lia|exact A3|discriminate|]. destruct E as [k E]. exists (k - 1)%nat. cbn in *. lia. }
  intros b. eapply G. reflexivity.
Qed.

Lemma state_after l t : l <> [] -> forall h, strict l -> (forall x, In x l -> h_distance x < t) -> forall s,
  fold_left (fun s h => if Rlt_dec (h_distance h) t then h_entering h else s) l s = h_entering (last l h).
Proof.
  induction l as [|x l IH]; intros N h S H s; [easy|]. cbn [fold_left].
  destruct (Rlt_dec (h_distance x) t) as [_|n]; [|exfalso; apply n, H; now left].
  destruct l as [|y l]; [reflexivity|]. rewrite IH with (h := h); [reflexivity|discriminate|now apply StronglySorted_inv in S as [S _]|]. intros; apply H; now right.
Qed.

Lemma last_in {A} (l : list A) d : l <> [] -> In (last l d) l.
Proof.
  induction l as [|a l IH]; [easy|]. intros _. destruct l as [|b l]; [now left|]. right. apply IH. discriminate.
Qed.

Lemma strict_last l h x : strict l -> In x l -> h_distance x <= h_distance (last l h).
Proof.
  induction l as [|y l IH]; intros S I; [easy|]. apply StronglySorted_inv in S as [S F]. rewrite Forall_forall in F.
  destruct l as [|z l]; [destruct I as [-> |[]]; cbn; lra|]. change (last (y :: z :: l) h) with (last (z :: l) h).
  destruct I as [<- |I]; [|auto]. left. apply F. apply last_in. discriminate.
Qed.

(** A traced list around a point inside begins before it and ends after it. *)
Lemma around inside l : traces inside l -> inside 0 -> (forall h, In h l -> h_distance h <> 0) ->
  exists h0 rest, l = h0 :: rest /\ rest <> [] /\ h_distance h0 < 0 < h_distance (last l h0) /\
    forall h, In h l -> h_distance h0 <= h_distance h <= h_distance (last l h0).
Proof.
  intros T I0 D. pose proof (proj1 (tr_state _ _ T 0 D) I0) as St. pose proof (tr_strict _ _ T) as Str.
  destruct l as [|h0 rest]; [discriminate|]. exists h0, rest. split; [reflexivity|].
  assert (N : rest <> []). { intros ->. destruct (tr_closed _ _ T) as [k E]. cbn in E. lia. }
  assert (Fst : forall h, In h (h0 :: rest) -> h_distance h0 <= h_distance h).
  { intros h [<- |I]; [lra|]. apply StronglySorted_inv in Str as [_ F]. rewrite Forall_forall in F. left. now apply F. }
  split; [exact N|]. split; [split|].
  - destruct (Rlt_le_dec (h_distance h0) 0) as [L|L]; [exact L|]. exfalso. unfold state in St.
    rewrite state_before in St; [discriminate|]. intros h I. specialize (Fst h I). lra.
  - pose proof (last_in (h0 :: rest) h0 ltac:(discriminate)) as Il. pose proof (D _ Il) as Dn.
    destruct (Rlt_le_dec 0 (h_distance (last (h0 :: rest) h0))) as [L|L]; [exact L|]. exfalso. unfold state in St.
    rewrite (state_after (h0 :: rest) 0 ltac:(discriminate) h0 Str) in St.
    + rewrite (alternating_last true) in St; [discriminate|exact (tr_alternating _ _ T)|discriminate|exact (tr_closed _ _ T)].
    + intros x Ix. pose proof (strict_last _ h0 x Str Ix). lra.
  - intros h I. split; [auto|]. now apply strict_last.
Qed.

(** Points near an interior point of a cylinder are in it. *)
Lemma interior_near r i h q e : i * i < radial q < r * r -> Rabs (vz q) < h ->
  exists dl, 0 < dl /\ forall u, Rabs u < dl -> in_cylinder r i h (on_line q e u).
Proof.
  intros [A B] Z.
  set (b := Rabs (2 * (vx q * vx e + vy q * vy e)) + (vx e * vx e + vy e * vy e) + Rabs (vz e) + 1).
  set (m := Rmin (Rmin (radial q - i * i) (r * r - radial q)) (Rmin (h - Rabs (vz q)) 1)).
  assert (Q1 : 0 <= Rabs (2 * (vx q * vx e + vy q * vy e))) by apply Rabs_pos.
  assert (Q2 : 0 <= vx e * vx e + vy e * vy e) by nra. assert (Q3 : 0 <= Rabs (vz e)) by apply Rabs_pos.
  assert (Bp : 1 <= b) by (unfold b; lra).
  assert (M : 0 < m) by (unfold m; repeat apply Rmin_pos; lra).
  assert (M1 : m <= radial q - i * i) by (unfold m; eapply Rle_trans; [apply Rmin_l|apply Rmin_l]).
  assert (M2 : m <= r * r - radial q) by (unfold m; eapply Rle_trans; [apply Rmin_l|apply Rmin_r]).
  assert (M3 : m <= h - Rabs (vz q)) by (unfold m; eapply Rle_trans; [apply Rmin_r|apply Rmin_l]).
  assert (M4 : m <= 1) by (unfold m; eapply Rle_trans; [apply Rmin_r|apply Rmin_r]).
  exists (m / b). split; [apply Rdiv_lt_0_compat; lra|]. intros u Hu.
  assert (Hb : Rabs u * b < m). { apply Rmult_lt_compat_r with (r := b) in Hu; [|lra]. unfold Rdiv in Hu. rewrite Rmult_assoc, Rinv_l in Hu by lra. lra. }
  assert (U1 : Rabs u <= 1). { pose proof (Rabs_pos u). nra. }
  assert (Uu : u * u = Rabs u * Rabs u) by (unfold Rabs; destruct (Rcase_abs u); ring).
  assert (E : radial (on_line q e u) = radial q + u * (2 * (vx q * vx e + vy q * vy e)) + u * u * (vx e * vx e + vy e * vy e)).
  { unfold radial, on_line, vadd, vscale. cbn. ring. }
  assert (D : Rabs (u * (2 * (vx q * vx e + vy q * vy e)) + u * u * (vx e * vx e + vy e * vy e)) < m).
  { eapply Rle_lt_trans; [apply Rabs_triang|]. rewrite Rabs_mult. rewrite (Rabs_right (u * u * _)) by (apply Rle_ge, Rmult_le_pos; nra).
    rewrite Uu. unfold b in Hb. pose proof (Rabs_pos u). assert (Rabs u * Rabs u * (vx e * vx e + vy e * vy e) <= Rabs u * (vx e * vx e + vy e * vy e)) by (apply Rmult_le_compat_r; nra). nra. }
  unfold in_cylinder. rewrite E. unfold Rabs in D at 1. destruct (Rcase_abs _) in D; repeat split; intros; try lra.
  - unfold on_line, vadd, vscale. cbn. eapply Rle_trans; [apply Rabs_triang|]. rewrite Rabs_mult. unfold b in Hb. pose proof (Rabs_pos u). nra.
  - unfold on_line, vadd, vscale. cbn. eapply Rle_trans; [apply Rabs_triang|]. rewrite Rabs_mult. unfold b in Hb. pose proof (Rabs_pos u). nra.
Qed.
