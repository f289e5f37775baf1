(** Lemmas for polycones. *)
From Coq Require Import Reals List Bool ZArith Lra Lia Psatz.
From Verif Require Import VectorModel GeometryModel GeometrySpec SolidSpec PconeModel PconeSpec.
Import ListNotations.
Open Scope R_scope.

(** ** Planes *)

Lemma rising_tail u l : rising (u :: l) -> rising l.
Proof. intros H a x b y c ->. apply (H (u :: a) x b y c). reflexivity. Qed.

Lemma falling_tail u l : falling (u :: l) -> falling l.
Proof. intros H a x b y c ->. apply (H (u :: a) x b y c). reflexivity. Qed.

Lemma rising_cons u v l : pl_z u <= pl_z v -> rising (v :: l) -> rising (u :: v :: l).
Proof.
  intros L H [|w a] x b y c E.
  - injection E as -> E. destruct b as [|w b]; injection E as -> E; auto. apply Rle_trans with (pl_z w); auto. apply (H [] w b y c). now rewrite E.
  - injection E as -> E. apply (H a x b y c E).
Qed.

Lemma falling_cons u v l : pl_z v <= pl_z u -> falling (v :: l) -> falling (u :: v :: l).
Proof.
  intros L H [|w a] x b y c E.
  - injection E as -> E. destruct b as [|w b]; injection E as -> E; auto. apply Rle_trans with (pl_z w); auto. apply (H [] w b y c). now rewrite E.
  - injection E as -> E. apply (H a x b y c E).
Qed.

Lemma single_rising u : rising [u].
Proof. intros [|x a] y b z c E; [|destruct a; discriminate]. injection E as <- E. destruct b; discriminate. Qed.

Lemma single_falling u : falling [u].
Proof. intros [|x a] y b z c E; [|destruct a; discriminate]. injection E as <- E. destruct b; discriminate. Qed.

Lemma flags_spec l : forall a d, flags (map pl_z l) a d = (fst (flags (map pl_z l) a d), snd (flags (map pl_z l) a d)) /\
  (fst (flags (map pl_z l) a d) = true <-> a = true /\ rising l) /\ (snd (flags (map pl_z l) a d) = true <-> d = true /\ falling l).
Proof.
  induction l as [|u l IH]; intros a d; [|destruct l as [|v l]].
  - cbn. split; auto. split; split; try tauto; intros H; split; auto; intros [|x a'] y b z c E; discriminate.
  - cbn. split; auto. split; split; try tauto; intros H; split; auto using single_rising, single_falling.
  - change (flags (map pl_z (u :: v :: l)) a d) with
      (flags (map pl_z (v :: l)) (if Rlt_dec (pl_z v) (pl_z u) then false else a) (if Rlt_dec (pl_z u) (pl_z v) then false else d)).
    destruct (IH (if Rlt_dec (pl_z v) (pl_z u) then false else a) (if Rlt_dec (pl_z u) (pl_z v) then false else d)) as (E & X & Y).
    split; [exact E|]. rewrite X, Y. clear. split.
    + destruct (Rlt_dec (pl_z v) (pl_z u)) as [L|L]; split.
      * intros [H _]; discriminate.
      * intros [_ H]. specialize (H [] u [] v l eq_refl). lra.
      * intros [H H']. split; auto. apply rising_cons; auto. lra.
      * intros [H H']. split; auto. eapply rising_tail; eauto.
    + destruct (Rlt_dec (pl_z u) (pl_z v)) as [L|L]; split.
      * intros [H _]; discriminate.
      * intros [_ H]. specialize (H [] u [] v l eq_refl). lra.
      * intros [H H']. split; auto. apply falling_cons; auto. lra.
      * intros [H H']. split; auto. eapply falling_tail; eauto.
Qed.

Lemma falling_rev l : falling l -> rising (rev l).
Proof.
  intros H a u b v c E. apply (H (rev c) v (rev b) u (rev a)). rewrite <- (rev_involutive l), E.
  repeat (rewrite ?rev_app_distr; cbn [rev app]; rewrite <- ?app_assoc). reflexivity.
Qed.

Lemma radii_spec l : radii_ok l = true <-> Forall proper l.
Proof.
  unfold radii_ok. rewrite forallb_forall, Forall_forall. unfold proper. split; intros H u I; specialize (H u I);
    destruct (Rlt_dec (pl_min u) 0), (Rlt_dec (pl_max u) 0), (Rlt_dec (pl_max u) (pl_min u)); try discriminate; auto; lra.
Qed.

Lemma zip_map l : zip (map pl_z l) (map pl_min l) (map pl_max l) = l.
Proof. induction l as [|[z a b] l IH]; cbn; congruence. Qed.

Lemma validate_spec l r : validate (map pl_z l) (map pl_min l) (map pl_max l) = Some r <->
  (2 <= length l)%nat /\ Forall proper l /\ ((rising l /\ r = l) \/ (falling l /\ ~ rising l /\ r = rev l)).
Proof.
  unfold validate. rewrite !map_length, !Nat.eqb_refl. cbn [negb orb].
  destruct (Nat.ltb_spec (length l) 2) as [L|L]; [split; [discriminate|lia]|].
  destruct (flags_spec l true true) as (E & X & Y). rewrite E. clear E.
  destruct (fst (flags (map pl_z l) true true)), (snd (flags (map pl_z l) true true)); cbn [negb andb].
  - rewrite zip_map. destruct X as [X _]. destruct (X eq_refl) as [_ X']. destruct (radii_ok l) eqn:Q.
    + apply radii_spec in Q. split; [intros [= <-]; auto|]. intros (_ & _ & [[_ ->]|[_ [C _]]]); auto. contradiction.
    + split; [discriminate|]. intros (_ & P & _). apply radii_spec in P. congruence.
  - rewrite zip_map. destruct X as [X _]. destruct (X eq_refl) as [_ X']. destruct (radii_ok l) eqn:Q.
    + apply radii_spec in Q. split; [intros [= <-]; auto|]. intros (_ & _ & [[_ ->]|[_ [C _]]]); auto. contradiction.
    + split; [discriminate|]. intros (_ & P & _). apply radii_spec in P. congruence.
  - rewrite <- !map_rev, zip_map. destruct Y as [Y _]. destruct (Y eq_refl) as [_ Y'].
    assert (N : ~ rising l) by (intros H; destruct X as [_ X]; specialize (X (conj eq_refl H)); discriminate).
    destruct (radii_ok (rev l)) eqn:Q.
    + apply radii_spec in Q. assert (Forall proper l) by (rewrite <- (rev_involutive l); now apply Forall_rev).
      split; [intros [= <-]; split; [|split]; auto 10|]. intros (_ & _ & [[C _]|[_ [_ ->]]]); [contradiction|auto].
    + split; [discriminate|]. intros (_ & P & _). apply Forall_rev in P. apply radii_spec in P. congruence.
  - split; [discriminate|]. intros (_ & _ & [[H _]|[H _]]); [destruct X as [_ X]; specialize (X (conj eq_refl H))|destruct Y as [_ Y]; specialize (Y (conj eq_refl H))]; discriminate.
Qed.

(** ** Walls *)

Section Wall.
Variables (p d : vec) (lo hi rlo rhi : R).
Hypothesis height : lo < hi.
Let shift := - (vx p * vx d + vy p * vy d + vz p * vz d).
Let b := (rhi - rlo) / (hi - lo).
Let a := rlo - b * lo.
Let qx := vx p + shift * vx d.
Let qy := vy p + shift * vy d.
Let qz := vz p + shift * vz d.
Let A := vx d * vx d + vy d * vy d - b * b * vz d * vz d.
Let B := 2 * (qx * vx d + qy * vy d - b * vz d * (a + b * qz)).
Let C := qx * qx + qy * qy - (a + b * qz) * (a + b * qz).
Notation f := (outside_by p d lo hi rlo rhi).

Lemma radius_line z : radius_at lo hi rlo rhi z = a + b * z.
Proof. unfold radius_at, a, b. field. lra. Qed.

Lemma wall_form t : f t = A * (t - shift) * (t - shift) + B * (t - shift) + C.
Proof. unfold outside_by. rewrite radius_line. unfold A, B, C, qx, qy, qz, radial, on_line, vadd, vscale. cbn [vx vy vz]. ring. Qed.

Lemma wall_expand t u : f u = f t + (2 * A * (t - shift) + B) * (u - t) + A * (u - t) * (u - t).
Proof. rewrite !wall_form. ring. Qed.

Lemma wall_slope t : 2 * (vx (point_at p d t) * vx d + vy (point_at p d t) * vy d - b * (a + b * vz (point_at p d t)) * vz d) = 2 * A * (t - shift) + B.
Proof. unfold A, B, qx, qy, qz, point_at. cbn [vx vy vz]. ring. Qed.

Lemma wall_bend : bend d lo hi rlo rhi = A.
Proof. unfold bend, A, b. ring. Qed.

Lemma falls_at (g : R -> R) t s k : (forall u, g u = s * (u - t) + k * (u - t) * (u - t)) -> s < 0 -> goes_in g t.
Proof.
  intros H N. exists (- s / (Rabs k + 1)). pose proof (Rabs_pos k) as P. assert (E : 0 < - s / (Rabs k + 1)) by (apply Rdiv_lt_0_compat; lra).
  set (e := - s / (Rabs k + 1)) in *. assert (Q : e * (Rabs k + 1) = - s) by (unfold e; field; lra).
  assert (K : - Rabs k <= k <= Rabs k) by (split; [pose proof (Rle_abs (- k)) as X; rewrite Rabs_Ropp in X; lra|apply Rle_abs]).
  split; auto. assert (W : forall x, 0 < x < e -> Rabs k * x < - s). { intros x X. rewrite <- Q. nra. }
  split; intros u U; rewrite H.
  - specialize (W (t - u) ltac:(lra)). assert (Z : s + k * (u - t) < 0) by nra. nra.
  - specialize (W (u - t) ltac:(lra)). assert (Z : s + k * (u - t) < 0) by nra. nra.
Qed.

Lemma slope_in t : f t = 0 -> 2 * A * (t - shift) + B < 0 -> goes_in f t.
Proof. intros Z N. apply (falls_at _ t (2 * A * (t - shift) + B) A); auto. intros u. rewrite (wall_expand t u), Z. ring. Qed.

Lemma slope_out t : f t = 0 -> 0 < 2 * A * (t - shift) + B -> goes_out f t.
Proof. intros Z N. apply (falls_at _ t (- (2 * A * (t - shift) + B)) (- A)); [|lra]. intros u. rewrite (wall_expand t u), Z. ring. Qed.
End Wall.

Lemma snap_clear t : ~ 0 < t < precision -> snap t = t.
Proof. unfold snap. destruct (Rlt_dec 0 t), (Rlt_dec t precision); auto. intros H. exfalso. apply H. auto. Qed.

Lemma radius_pos lo hi rlo rhi z : lo < hi -> 0 <= rlo -> 0 <= rhi -> lo <= z <= hi -> 0 <= radius_at lo hi rlo rhi z.
Proof.
  intros L P Q H. unfold radius_at.
  replace (rlo + (rhi - rlo) * (z - lo) / (hi - lo)) with ((rlo * (hi - z) + rhi * (z - lo)) / (hi - lo)) by (field; lra).
  apply Rmult_le_pos; [nra|]. left. apply Rinv_0_lt_compat. lra.
Qed.

Section Hits.
Variables (p d : vec) (lo hi rlo rhi : R).
Hypothesis height : lo < hi.
Hypothesis low : 0 <= rlo.
Hypothesis high : 0 <= rhi.
Notation f := (outside_by p d lo hi rlo rhi).
Hypothesis ahead : forall t, f t = 0 -> ~ 0 < t < precision.

(** A hit of the list is on the wall between the planes, and says which way the line goes. *)
Definition wall_hit (invert : bool) (h : hit) : Prop :=
  f (h_distance h) = 0 /\ lo <= vz (on_line p d (h_distance h)) < hi /\ h_position h = on_line p d (h_distance h) /\
  (if xorb (h_entering h) invert then goes_in f (h_distance h) else goes_out f (h_distance h)).

Lemma cone_hit_ok invert t : let b := (rhi - rlo) / (hi - lo) in let a := rlo - b * lo in
  f t = 0 -> vx (point_at p d t) * vx d + vy (point_at p d t) * vy d - b * (a + b * vz (point_at p d t)) * vz d <> 0 ->
  (forall h, In h (cone_hit p d lo hi a b invert t) -> wall_hit invert h) /\
  (lo <= vz (on_line p d t) < hi -> exists h, In h (cone_hit p d lo hi a b invert t) /\ h_distance h = t).
Proof.
  intros b a Z N. unfold cone_hit. rewrite (snap_clear t) by now apply ahead. cbv zeta.
  change (point_at p d t) with (on_line p d t) in *. set (q := on_line p d t) in *.
  assert (R0 : lo <= vz q <= hi -> 0 <= a + b * vz q).
  { intros H. rewrite <- (radius_line lo hi rlo rhi height). now apply radius_pos. }
  destruct (Rle_dec lo (vz q)) as [L|L]; [|split; [intros h []|intros H; lra]].
  destruct (Rlt_dec (vz q) hi) as [L'|L']; [|split; [intros h []|intros H; lra]].
  destruct (Rle_dec 0 (a + b * vz q)) as [L2|L2]; [|exfalso; apply L2, R0; lra].
  split; [|intros _; eexists; split; [now left|reflexivity]].
  intros h [<-|[]]. unfold wall_hit. cbn [h_distance h_entering h_position]. fold q. split; [exact Z|]. split; [lra|]. split; [reflexivity|].
  pose proof (wall_slope p d lo hi rlo rhi t) as S1. cbv zeta in S1.
  unfold entering_cone. destruct (Rlt_dec (vx q * vx d + vy q * vy d - b * (a + b * vz q) * vz d) 0) as [E|E].
  - replace (xorb (if invert then negb true else true) invert) with true by (destruct invert; reflexivity).
    apply slope_in; auto. rewrite <- S1. change (point_at p d t) with q. fold b. fold a. lra.
  - replace (xorb (if invert then negb false else false) invert) with false by (destruct invert; reflexivity).
    apply slope_out; auto. rewrite <- S1. change (point_at p d t) with q. fold b. fold a. lra.
Qed.

Lemma cone_bent invert : precision < Rabs (bend d lo hi rlo rhi) ->
  (forall h, In h (cone_hits p d lo hi rlo rhi invert) -> wall_hit invert h) /\
  (forall t u, f t = 0 -> f u = 0 -> u <> t -> lo <= vz (on_line p d t) < hi -> exists h, In h (cone_hits p d lo hi rlo rhi invert) /\ h_distance h = t).
Proof.
  intros G. unfold cone_hits. cbv zeta. rewrite wall_bend in G by auto.
  pose proof (wall_form p d lo hi rlo rhi height) as W. pose proof (wall_slope p d lo hi rlo rhi) as S1. pose proof cone_hit_ok as K. cbv zeta in W, S1, K, G.
  set (shift := - (vx p * vx d + vy p * vy d + vz p * vz d)) in *. set (b := (rhi - rlo) / (hi - lo)) in *. set (a := rlo - b * lo) in *.
  set (A := vx d * vx d + vy d * vy d - b * b * vz d * vz d) in *.
  set (B := 2 * ((vx p + shift * vx d) * vx d + (vy p + shift * vy d) * vy d - b * vz d * (a + b * (vz p + shift * vz d)))) in *.
  set (C := (vx p + shift * vx d) * (vx p + shift * vx d) + (vy p + shift * vy d) * (vy p + shift * vy d) - (a + b * (vz p + shift * vz d)) * (a + b * (vz p + shift * vz d))) in *.
  assert (A0 : A <> 0). { intros E. rewrite E, Rabs_R0 in G. unfold precision in G. lra. }
  replace (if Req_EM_T (vx d) 0 then if Req_EM_T (vy d) 0 then if Req_EM_T b 0 then true else false else false else false) with false.
  2:{ destruct (Req_EM_T (vx d) 0) as [E1|]; auto. destruct (Req_EM_T (vy d) 0) as [E2|]; auto. destruct (Req_EM_T b 0) as [E3|]; auto. exfalso. apply A0. unfold A. rewrite E1, E2, E3. ring. }
  destruct (Rlt_dec precision (Rabs A)) as [_|N]; [|contradiction].
  destruct (Rlt_dec 0 (B * B - 4 * A * C)) as [D|D].
  - set (r := sqrt (B * B - 4 * A * C)) in *. assert (R0 : 0 < r) by (apply sqrt_lt_R0; auto).
    assert (RR : r * r = B * B - 4 * A * C) by (apply sqrt_sqrt; lra).
    set (t1 := (- B + r) / (2 * A) + shift). set (t2 := (- B - r) / (2 * A) + shift).
    assert (Z1 : f t1 = 0). { rewrite W. unfold t1. replace C with ((B * B - r * r) / (4 * A)) by (rewrite RR; field; auto). field. auto. }
    assert (Z2 : f t2 = 0). { rewrite W. unfold t2. replace C with ((B * B - r * r) / (4 * A)) by (rewrite RR; field; auto). field. auto. }
    assert (Y1 : 2 * A * (t1 - shift) + B = r) by (unfold t1; field; auto).
    assert (Y2 : 2 * A * (t2 - shift) + B = - r) by (unfold t2; field; auto).
    destruct (K invert t1 Z1) as [P1 Q1]; [specialize (S1 t1); rewrite Y1 in S1; lra|].
    destruct (K invert t2 Z2) as [P2 Q2]; [specialize (S1 t2); rewrite Y2 in S1; lra|].
    split.
    + intros h I. apply in_app_or in I as [I|I]; auto.
    + intros t u Zt _ _ H. assert (O : t = t1 \/ t = t2).
      { rewrite W in Zt. assert (E : (t - t1) * (t - t2) = 0).
        { apply Rmult_eq_reg_l with A; auto. rewrite Rmult_0_r, <- Zt. unfold t1, t2. replace C with ((B * B - r * r) / (4 * A)) by (rewrite RR; field; auto). field. auto. }
        apply Rmult_integral in E as [E|E]; [left|right]; lra. }
      destruct O as [-> | ->]; [destruct (Q1 H) as (h & I & E)|destruct (Q2 H) as (h & I & E)]; exists h; split; auto; apply in_or_app; auto.
  - split; [intros h []|]. intros t u Zt Zu N _. exfalso. apply D. rewrite W in Zt, Zu.
    assert (E : A * (t + u - 2 * shift) + B = 0). { apply Rmult_eq_reg_r with (t - u); [|lra]. rewrite Rmult_0_l, <- (Rminus_0_r 0). rewrite <- Zt at 1. rewrite <- Zu. ring. }
    replace (B * B - 4 * A * C) with ((A * (t - u)) * (A * (t - u))).
    + assert (A * (t - u) <> 0) by (apply Rmult_integral_contrapositive_currified; lra). nra.
    + replace C with (- (A * (t - shift) * (t - shift) + B * (t - shift))) by lra. replace B with (- (A * (t + u - 2 * shift))) by lra. ring.
Qed.

Lemma cone_straight invert s : precision < Rabs s -> (forall t u, f u - f t = s * (u - t)) ->
  (forall h, In h (cone_hits p d lo hi rlo rhi invert) -> wall_hit invert h) /\
  (forall t, f t = 0 -> lo <= vz (on_line p d t) < hi -> exists h, In h (cone_hits p d lo hi rlo rhi invert) /\ h_distance h = t).
Proof.
  intros G F. unfold cone_hits. cbv zeta.
  pose proof (wall_form p d lo hi rlo rhi height) as W. pose proof (wall_slope p d lo hi rlo rhi) as S1. pose proof cone_hit_ok as K. cbv zeta in W, S1, K.
  set (shift := - (vx p * vx d + vy p * vy d + vz p * vz d)) in *. set (b := (rhi - rlo) / (hi - lo)) in *. set (a := rlo - b * lo) in *.
  set (A := vx d * vx d + vy d * vy d - b * b * vz d * vz d) in *.
  set (B := 2 * ((vx p + shift * vx d) * vx d + (vy p + shift * vy d) * vy d - b * vz d * (a + b * (vz p + shift * vz d)))) in *.
  set (C := (vx p + shift * vx d) * (vx p + shift * vx d) + (vy p + shift * vy d) * (vy p + shift * vy d) - (a + b * (vz p + shift * vz d)) * (a + b * (vz p + shift * vz d))) in *.
  assert (E : A = 0 /\ B = s).
  { pose proof (F shift (shift + 1)) as F1. pose proof (F shift (shift - 1)) as F2. rewrite !W in F1, F2.
    replace (shift + 1 - shift) with 1 in F1 by ring. replace (shift - 1 - shift) with (- (1)) in F2 by ring. replace (shift - shift) with 0 in F1, F2 by ring. clearbody A B C. split; lra. }
  destruct E as [A0 B0]. assert (S0 : s <> 0). { intros E. rewrite E, Rabs_R0 in G. unfold precision in G. lra. }
  replace (if Req_EM_T (vx d) 0 then if Req_EM_T (vy d) 0 then if Req_EM_T b 0 then true else false else false else false) with false.
  2:{ destruct (Req_EM_T (vx d) 0) as [E1|]; auto. destruct (Req_EM_T (vy d) 0) as [E2|]; auto. destruct (Req_EM_T b 0) as [E3|]; auto. exfalso. apply S0. rewrite <- B0. unfold B. rewrite E1, E2, E3. ring. }
  destruct (Rlt_dec precision (Rabs A)) as [N|_]; [exfalso; rewrite A0, Rabs_R0 in N; unfold precision in N; lra|].
  rewrite B0. destruct (Rlt_dec precision (Rabs s)) as [_|N]; [|contradiction].
  assert (Z1 : f (- C / s + shift) = 0). { rewrite W, A0, B0. field. auto. }
  destruct (K invert (- C / s + shift) Z1) as [P1 Q1].
  { specialize (S1 (- C / s + shift)). rewrite A0, B0 in S1. lra. }
  split; [exact P1|]. intros t Zt H. assert (E : t = - C / s + shift).
  { specialize (F t (- C / s + shift)). rewrite Z1, Zt in F. assert (E : s * (- C / s + shift - t) = 0) by lra. apply Rmult_integral in E as [E|E]; lra. }
  rewrite E in H |- *. apply Q1, H.
Qed.
End Hits.

(** ** Steps *)

Definition unit_of (x : bool) : Z := if x then 1%Z else 0%Z.
Definition sign_of (x : bool) : Z := if x then 1%Z else (-1)%Z.
Definition below_of (r2 r : R) : bool := if Rlt_dec r2 (r * r) then true else false.

Lemma net_app a b : net (a ++ b) = (net a + net b)%Z.
Proof. induction a as [|h a IH]; cbn [app net fold_right]; auto. fold (net (a ++ b)). rewrite IH. unfold net. lia. Qed.

Lemma ring_net p d z below above grows : vz d <> 0 -> 0 <= below -> 0 <= above ->
  let r2 := plane_radius2 p d z in r2 <> below * below -> r2 <> above * above ->
  net (ring_hits p d z below above grows) =
    (sign_of (if Rlt_dec 0 (vz d) then true else false) * sign_of grows * (unit_of (below_of r2 above) - unit_of (below_of r2 below)))%Z.
Proof.
  intros N P Q r2 H1 H2. unfold ring_hits. fold r2. destruct (Req_EM_T below above) as [->|E]; [cbn; lia|]. cbv zeta. unfold below_of.
  destruct (Rlt_dec below above) as [L|L].
  - rewrite Rmin_left, Rmax_right by lra. assert (below * below < above * above) by nra.
    destruct (Rle_dec (below * below) r2), (Rle_dec r2 (above * above)), (Rlt_dec r2 (above * above)), (Rlt_dec r2 (below * below)); try (exfalso; lra);
      destruct (Rlt_dec 0 (vz d)), (Rlt_dec (vz d) 0), grows; try (exfalso; lra); reflexivity.
  - rewrite Rmin_right, Rmax_left by lra. assert (above * above < below * below) by nra.
    destruct (Rle_dec (above * above) r2), (Rle_dec r2 (below * below)), (Rlt_dec r2 (above * above)), (Rlt_dec r2 (below * below)); try (exfalso; lra);
      destruct (Rlt_dec 0 (vz d)), (Rlt_dec (vz d) 0), grows; try (exfalso; lra); reflexivity.
Qed.

Lemma between_net u r2 : proper u -> unit_of (between_radii u r2) = (unit_of (below_of r2 (pl_max u)) - unit_of (below_of r2 (pl_min u)))%Z.
Proof.
  intros [P Q]. unfold between_radii, below_of. assert (pl_min u * pl_min u <= pl_max u * pl_max u) by nra.
  destruct (Rle_dec (pl_min u * pl_min u) r2), (Rlt_dec r2 (pl_max u * pl_max u)), (Rlt_dec r2 (pl_min u * pl_min u)); try (exfalso; lra); reflexivity.
Qed.

Lemma step_net p d u v : vz d <> 0 -> proper u -> proper v -> pl_z u = pl_z v ->
  let r2 := plane_radius2 p d (pl_z u) in
  (forall w, w = u \/ w = v -> r2 <> pl_min w * pl_min w /\ r2 <> pl_max w * pl_max w) ->
  net (step_hits p d u v) = (sign_of (if Rlt_dec 0 (vz d) then true else false) * (unit_of (between_radii v r2) - unit_of (between_radii u r2)))%Z.
Proof.
  intros N Pu Pv E r2 H. unfold step_hits. destruct (H u) as [A1 A2]; auto. destruct (H v) as [B1 B2]; auto.
  rewrite net_app, !ring_net; try (unfold proper in *; lra); auto. fold r2. rewrite !between_net by auto. cbn [sign_of]. nia.
Qed.

Lemma ring_time p d z below above grows h : In h (ring_hits p d z below above grows) -> h_distance h = plane_time p d z.
Proof.
  unfold ring_hits. destruct (Req_EM_T below above); [intros []|]. cbv zeta. destruct (Rle_dec _ _); [|intros []]. destruct (Rle_dec _ _); [|intros []]. now intros [<-|[]].
Qed.

Lemma step_time p d u v h : In h (step_hits p d u v) -> h_distance h = plane_time p d (pl_z u).
Proof. unfold step_hits. intros I. apply in_app_or in I as [I|I]; eapply ring_time; eauto. Qed.

Lemma group_time p d l : forall u v h, In h (group_hits p d u v l) -> exists w, In w (u :: l) /\ h_distance h = plane_time p d (pl_z w).
Proof.
  induction l as [|w l IH]; intros u v h; [intros []|]. destruct l as [|x l].
  - cbn [group_hits]. intros I. exists u. split; [now left|]. eapply step_time; eauto.
  - change (group_hits p d u v (w :: x :: l)) with (if Req_EM_T (pl_z w) (pl_z u) then group_hits p d u w (x :: l) else step_hits p d u v ++ group_hits p d w w (x :: l)).
    destruct (Req_EM_T (pl_z w) (pl_z u)).
    + intros I. destruct (IH _ _ _ I) as (y & [->|Y] & E); [exists y; split; [now left|auto]|exists y; split; [right; now right|auto]].
    + intros I. apply in_app_or in I as [I|I].
      * exists u. split; [now left|]. eapply step_time; eauto.
      * destruct (IH _ _ _ I) as (y & Y & E). exists y. split; [now right|auto].
Qed.

Lemma group_prefix p d u l k : l <> [] -> forall x y, (forall w, In w (x :: k) -> pl_z w <> pl_z u) ->
  exists pre, group_hits p d x y (k ++ u :: l) = pre ++ group_hits p d u u l /\
    forall h, In h pre -> exists w, In w (x :: k) /\ h_distance h = plane_time p d (pl_z w).
Proof.
  intros N. induction k as [|w k IH]; intros x y H.
  - destruct l as [|v l]; [contradiction|]. cbn [app]. exists (step_hits p d x y). split.
    + cbn [group_hits]. destruct (Req_EM_T (pl_z u) (pl_z x)) as [E|_]; auto. exfalso. apply (H x); [now left|auto].
    + intros h I. exists x. split; [now left|]. eapply step_time; eauto.
  - assert (Q : group_hits p d x y ((w :: k) ++ u :: l) =
      if Req_EM_T (pl_z w) (pl_z x) then group_hits p d x w (k ++ u :: l) else step_hits p d x y ++ group_hits p d w w (k ++ u :: l)).
    { cbn [app]. destruct k; reflexivity. }
    rewrite Q. destruct (Req_EM_T (pl_z w) (pl_z x)).
    + destruct (IH x w) as (pre & E & F). { intros z [->|Z]; apply H; [now left|right; now right]. }
      exists pre. split; auto. intros h I. destruct (F h I) as (z & [->|Z] & G); [exists z; split; [now left|auto]|exists z; split; [right; now right|auto]].
    + destruct (IH w w) as (pre & E & F). { intros z Z; apply H. now right. }
      exists (step_hits p d x y ++ pre). rewrite E, app_assoc. split; auto. intros h I. apply in_app_or in I as [I|I].
      * exists x. split; [now left|]. eapply step_time; eauto.
      * destruct (F h I) as (z & Z & G). exists z. split; [now right|auto].
Qed.

Lemma group_suffix p d u l m : l <> [] -> (forall w, In w l -> pl_z w <> pl_z u) -> (forall w, In w m -> pl_z w = pl_z u) ->
  forall v, exists post, group_hits p d u v (m ++ l) = step_hits p d u (last m v) ++ post /\
    forall h, In h post -> exists w, In w l /\ h_distance h = plane_time p d (pl_z w).
Proof.
  intros N L. induction m as [|w m IH]; intros M v.
  - cbn [app last]. destruct l as [|w l]; [contradiction|]. destruct l as [|x l].
    + exists []. rewrite app_nil_r. split; [reflexivity|intros h []].
    + exists (group_hits p d w w (x :: l)). split.
      * cbn [group_hits]. destruct (Req_EM_T (pl_z w) (pl_z u)) as [E|_]; auto. exfalso. apply (L w); [now left|auto].
      * intros h I. apply group_time in I. exact I.
  - destruct (IH (fun w H => M w (or_intror H)) w) as (post & E & F). exists post. split; auto.
    replace (last (w :: m) v) with (last m w).
    + rewrite <- E. assert (Q : forall k, k <> [] -> group_hits p d u v (w :: k) = if Req_EM_T (pl_z w) (pl_z u) then group_hits p d u w k else step_hits p d u v ++ group_hits p d w w k) by (intros [|? ?] X; [contradiction|reflexivity]).
      cbn [app]. rewrite Q by (intros X; apply app_eq_nil in X; tauto). destruct (Req_EM_T (pl_z w) (pl_z u)) as [_|X]; auto. exfalso. apply X, M. now left.
    + clear. revert w. induction m as [|x m IH]; intros w; auto. destruct m as [|y m]; auto. change (last (x :: y :: m) w) with (last (y :: m) w). rewrite (IH w). destruct m; reflexivity.
Qed.

Lemma at_time_app t a b : at_time t (a ++ b) = at_time t a ++ at_time t b.
Proof. apply filter_app. Qed.

Lemma at_time_all t l : (forall h, In h l -> h_distance h = t) -> at_time t l = l.
Proof.
  induction l as [|h l IH]; intros H; auto. unfold at_time. cbn [filter]. destruct (Req_EM_T (h_distance h) t) as [_|X].
  - f_equal. apply IH. intros g I. apply H. now right.
  - exfalso. apply X, H. now left.
Qed.

Lemma at_time_none t l : (forall h, In h l -> h_distance h <> t) -> at_time t l = [].
Proof.
  induction l as [|h l IH]; intros H; auto. unfold at_time. cbn [filter]. destruct (Req_EM_T (h_distance h) t) as [X|_].
  - exfalso. apply (H h); [now left|auto].
  - apply IH. intros g I. apply H. now right.
Qed.

Lemma steps_at p d x k u m l : l <> [] -> (forall w, In w (x :: k) \/ In w l -> plane_time p d (pl_z w) <> plane_time p d (pl_z u)) ->
  (forall w, In w m -> pl_z w = pl_z u) ->
  at_time (plane_time p d (pl_z u)) (steps p d (x :: k ++ u :: m ++ l)) = step_hits p d u (last m u).
Proof.
  intros N H M. assert (Z : forall w, In w (x :: k) \/ In w l -> pl_z w <> pl_z u) by (intros w I E; apply (H w I); now rewrite E).
  assert (Q : exists pre, steps p d (x :: k ++ u :: m ++ l) = pre ++ group_hits p d u u (m ++ l) /\ forall h, In h pre -> h_distance h <> plane_time p d (pl_z u)).
  { destruct k as [|y k]; [exists []; split; [reflexivity|intros h []]|]. cbn [app steps].
    destruct (group_prefix p d u (m ++ l) k) with (x := y) (y := y) as (pre & E & F).
    - intros X. apply app_eq_nil in X. tauto.
    - intros w I. apply Z. left. now right.
    - exists pre. split; auto. intros h I. destruct (F h I) as (w & W & ->). apply H. left. now right. }
  destruct Q as (pre & -> & F). destruct (group_suffix p d u l m N (fun w I => Z w (or_intror I)) M u) as (post & -> & G).
  rewrite !at_time_app, (at_time_none _ pre), (at_time_none _ post), (at_time_all _ (step_hits p d u (last m u))), app_nil_r by
    (auto; intros h I; try (destruct (G h I) as (w & W & ->); apply H; now right); eapply step_time; eauto).
  reflexivity.
Qed.

(** Stacks of tubes and lines along the axis. *)
Lemma stack_sections p d l : vx d = 0 -> vy d = 0 ->
  (forall a u v b, l = a ++ u :: v :: b -> pl_z u < pl_z v -> pl_min u = pl_min v /\ pl_max u = pl_max v) -> section_hits p d l = [].
Proof.
  intros X Y. induction l as [|u l IH]; intros H; auto. destruct l as [|v l]; auto.
  change (section_hits p d (u :: v :: l)) with ((if skip_section p d u v then []
       else cone_hits p d (pl_z u) (pl_z v) (pl_max u) (pl_max v) false ++
            (if Rlt_dec 0 (pl_min u) then cone_hits p d (pl_z u) (pl_z v) (pl_min u) (pl_min v) true
             else if Rlt_dec 0 (pl_min v) then cone_hits p d (pl_z u) (pl_z v) (pl_min u) (pl_min v) true else [])) ++ section_hits p d (v :: l)).
  rewrite IH.
  2:{ intros a x y b E. apply (H (u :: a) x y b). now rewrite E. }
  rewrite app_nil_r. unfold skip_section. destruct (Rle_dec (pl_z v) (pl_z u)) as [L|L]; auto.
  destruct (H [] u v l eq_refl ltac:(lra)) as [E1 E2].
  assert (Q : forall lo hi r invert, lo < hi -> cone_hits p d lo hi r r invert = []).
  { intros lo hi r invert I. unfold cone_hits. cbv zeta. replace ((r - r) / (hi - lo)) with 0 by (field; lra).
    destruct (Req_EM_T (vx d) 0); [|contradiction]. destruct (Req_EM_T (vy d) 0); [|contradiction]. destruct (Req_EM_T 0 0); [reflexivity|contradiction]. }
  rewrite E1, E2, !Q by lra. destruct (Rlt_dec (Rabs (vz d)) precision) as [G|G]; [destruct (Rlt_dec (vz p) (pl_z u)); [|destruct (Rle_dec (pl_z v) (vz p))]|]; destruct (Rlt_dec 0 (pl_min v)); reflexivity.
Qed.
