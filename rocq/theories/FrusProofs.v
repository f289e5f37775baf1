(** Lemmas for cones. *)
From Coq Require Import Reals List Bool Lra Lia Psatz.
From Verif Require Import VectorModel GeometryModel GeometrySpec SolidSpec PconeModel PconeSpec PconeProofs FrusModel.
Import ListNotations.
Open Scope R_scope.

Section Sides.
Variables (p d : vec) (lo hi rlo rhi : R).
Hypothesis height : lo < hi.
Notation f := (outside_by p d lo hi rlo rhi).
Hypothesis ahead : forall t, f t = 0 -> ~ 0 < t < precision.

(** Between the caps up to the precision, and not on the other half of the double cone. *)
Definition on_side (z : R) : Prop := lo - precision < z < hi + precision /\ 0 <= radius_at lo hi rlo rhi z.

(** A hit of the list is on the wall between the planes, and says which way the line goes. *)
Definition wall_hit (invert : bool) (h : hit) : Prop :=
  f (h_distance h) = 0 /\ on_side (vz (on_line p d (h_distance h))) /\ h_position h = on_line p d (h_distance h) /\
  (if xorb (h_entering h) invert then goes_in f (h_distance h) else goes_out f (h_distance h)).

Lemma side_hit_ok invert t : let b := (rhi - rlo) / (hi - lo) in let a := rlo - b * lo in
  f t = 0 -> vx (point_at p d t) * vx d + vy (point_at p d t) * vy d - b * (a + b * vz (point_at p d t)) * vz d <> 0 ->
  (forall h, In h (side_hit p d lo hi a b invert t) -> wall_hit invert h) /\
  (on_side (vz (on_line p d t)) -> exists h, In h (side_hit p d lo hi a b invert t) /\ h_distance h = t).
Proof.
  intros b a Z N. unfold side_hit. rewrite (snap_clear t) by now apply ahead. cbv zeta.
  change (point_at p d t) with (on_line p d t) in *. set (q := on_line p d t) in *.
  assert (E0 : radius_at lo hi rlo rhi (vz q) = a + b * vz q) by apply (radius_line lo hi rlo rhi height). unfold on_side. rewrite E0.
  destruct (Rlt_dec (lo - precision) (vz q)) as [L|L]; [|split; [intros h []|intros H; lra]].
  destruct (Rlt_dec (vz q) (hi + precision)) as [L'|L']; [|split; [intros h []|intros H; lra]].
  destruct (Rle_dec 0 (a + b * vz q)) as [L2|L2]; [|split; [intros h []|intros H; lra]].
  split; [|intros _; eexists; split; [now left|reflexivity]].
  intros h [<-|[]]. unfold wall_hit. cbn [h_distance h_entering h_position]. fold q. split; [exact Z|]. split; [unfold on_side; rewrite E0; lra|]. split; [reflexivity|].
  pose proof (wall_slope p d lo hi rlo rhi t) as S1. cbv zeta in S1.
  unfold entering_cone. destruct (Rlt_dec (vx q * vx d + vy q * vy d - b * (a + b * vz q) * vz d) 0) as [E|E].
  - replace (xorb (if invert then negb true else true) invert) with true by (destruct invert; reflexivity).
    apply slope_in; auto. rewrite <- S1. change (point_at p d t) with q. fold b. fold a. lra.
  - replace (xorb (if invert then negb false else false) invert) with false by (destruct invert; reflexivity).
    apply slope_out; auto. rewrite <- S1. change (point_at p d t) with q. fold b. fold a. lra.
Qed.

Lemma side_bent invert : precision < Rabs (bend d lo hi rlo rhi) ->
  (forall h, In h (side_hits p d lo hi (rlo - (rhi - rlo) / (hi - lo) * lo) ((rhi - rlo) / (hi - lo)) invert) -> wall_hit invert h) /\
  (forall t u, f t = 0 -> f u = 0 -> u <> t -> on_side (vz (on_line p d t)) -> exists h, In h (side_hits p d lo hi (rlo - (rhi - rlo) / (hi - lo) * lo) ((rhi - rlo) / (hi - lo)) invert) /\ h_distance h = t).
Proof.
  intros G. unfold side_hits. cbv zeta. rewrite wall_bend in G by auto.
  pose proof (wall_form p d lo hi rlo rhi height) as W. pose proof (wall_slope p d lo hi rlo rhi) as S1. pose proof side_hit_ok as K. cbv zeta in W, S1, K, G.
  set (shift := - (vx p * vx d + vy p * vy d + vz p * vz d)) in *. set (b := (rhi - rlo) / (hi - lo)) in *. set (a := rlo - b * lo) in *.
  set (A := vx d * vx d + vy d * vy d - b * b * vz d * vz d) in *.
  set (B := 2 * ((vx p + shift * vx d) * vx d + (vy p + shift * vy d) * vy d - b * vz d * (a + b * (vz p + shift * vz d)))) in *.
  set (C := (vx p + shift * vx d) * (vx p + shift * vx d) + (vy p + shift * vy d) * (vy p + shift * vy d) - (a + b * (vz p + shift * vz d)) * (a + b * (vz p + shift * vz d))) in *.
  assert (A0 : A <> 0). { intros E. rewrite E, Rabs_R0 in G. unfold precision in G. lra. }
  replace (if Req_EM_T (vx d) 0 then if Req_EM_T (vy d) 0 then if Req_EM_T b 0 then true else false else false else false) with false.
  2:{ destruct (Req_EM_T (vx d) 0) as [E1|]; auto. destruct (Req_EM_T (vy d) 0) as [E2|]; auto. destruct (Req_EM_T b 0) as [E3|]; auto. exfalso. apply A0. unfold A. rewrite E1, E2, E3. ring. }
  destruct (Rlt_dec precision (Rabs A)) as [_|N]; [|contradiction].
  destruct (Rlt_dec 0 (B * B - 4 * A * C)) as [D|D].
  - set (r := sqrt (B * B - 4 * A * C)) in *. assert (R0 : 0 < r) by (apply sqrt_lt_R0; auto).
    assert (RR : r * r = B * B - 4 * A * C) by (apply sqrt_sqrt; lra).
    set (t1 := (- B + r) / (2 * A) + shift). set (t2 := (- B - r) / (2 * A) + shift).
    assert (Z1 : f t1 = 0). { rewrite W. unfold t1. replace C with ((B * B - r * r) / (4 * A)) by (rewrite RR; field; auto). field. auto. }
    assert (Z2 : f t2 = 0). { rewrite W. unfold t2. replace C with ((B * B - r * r) / (4 * A)) by (rewrite RR; field; auto). field. auto. }
    assert (Y1 : 2 * A * (t1 - shift) + B = r) by (unfold t1; field; auto).
    assert (Y2 : 2 * A * (t2 - shift) + B = - r) by (unfold t2; field; auto).
    destruct (K invert t1 Z1) as [P1 Q1]; [specialize (S1 t1); rewrite Y1 in S1; lra|].
    destruct (K invert t2 Z2) as [P2 Q2]; [specialize (S1 t2); rewrite Y2 in S1; lra|].
    split.
    + intros h I. apply in_app_or in I as [I|I]; auto.
    + intros t u Zt _ _ H. assert (O : t = t1 \/ t = t2).
      { rewrite W in Zt. assert (E : (t - t1) * (t - t2) = 0).
        { apply Rmult_eq_reg_l with A; auto. rewrite Rmult_0_r, <- Zt. unfold t1, t2. replace C with ((B * B - r * r) / (4 * A)) by (rewrite RR; field; auto). field. auto. }
        apply Rmult_integral in E as [E|E]; [left|right]; lra. }
      destruct O as [-> | ->]; [destruct (Q1 H) as (h & I & E)|destruct (Q2 H) as (h & I & E)]; exists h; split; auto; apply in_or_app; auto.
  - split; [intros h []|]. intros t u Zt Zu N _. exfalso. apply D. rewrite W in Zt, Zu.
    assert (E : A * (t + u - 2 * shift) + B = 0). { apply Rmult_eq_reg_r with (t - u); [|lra]. rewrite Rmult_0_l, <- (Rminus_0_r 0). rewrite <- Zt at 1. rewrite <- Zu. ring. }
    replace (B * B - 4 * A * C) with ((A * (t - u)) * (A * (t - u))).
    + assert (A * (t - u) <> 0) by (apply Rmult_integral_contrapositive_currified; lra). nra.
    + replace C with (- (A * (t - shift) * (t - shift) + B * (t - shift))) by lra. replace B with (- (A * (t + u - 2 * shift))) by lra. ring.
Qed.

Lemma side_straight invert s : precision < Rabs s -> (forall t u, f u - f t = s * (u - t)) ->
  (forall h, In h (side_hits p d lo hi (rlo - (rhi - rlo) / (hi - lo) * lo) ((rhi - rlo) / (hi - lo)) invert) -> wall_hit invert h) /\
  (forall t, f t = 0 -> on_side (vz (on_line p d t)) -> exists h, In h (side_hits p d lo hi (rlo - (rhi - rlo) / (hi - lo) * lo) ((rhi - rlo) / (hi - lo)) invert) /\ h_distance h = t).
Proof.
  intros G F. unfold side_hits. cbv zeta.
  pose proof (wall_form p d lo hi rlo rhi height) as W. pose proof (wall_slope p d lo hi rlo rhi) as S1. pose proof side_hit_ok as K. cbv zeta in W, S1, K.
  set (shift := - (vx p * vx d + vy p * vy d + vz p * vz d)) in *. set (b := (rhi - rlo) / (hi - lo)) in *. set (a := rlo - b * lo) in *.
  set (A := vx d * vx d + vy d * vy d - b * b * vz d * vz d) in *.
  set (B := 2 * ((vx p + shift * vx d) * vx d + (vy p + shift * vy d) * vy d - b * vz d * (a + b * (vz p + shift * vz d)))) in *.
  set (C := (vx p + shift * vx d) * (vx p + shift * vx d) + (vy p + shift * vy d) * (vy p + shift * vy d) - (a + b * (vz p + shift * vz d)) * (a + b * (vz p + shift * vz d))) in *.
  assert (E : A = 0 /\ B = s).
  { pose proof (F shift (shift + 1)) as F1. pose proof (F shift (shift - 1)) as F2. rewrite !W in F1, F2.
    replace (shift + 1 - shift) with 1 in F1 by ring. replace (shift - 1 - shift) with (- (1)) in F2 by ring. replace (shift - shift) with 0 in F1, F2 by ring. clearbody A B C. split; lra. }
  destruct E as [A0 B0]. assert (S0 : s <> 0). { intros E. rewrite E, Rabs_R0 in G. unfold precision in G. lra. }
  replace (if Req_EM_T (vx d) 0 then if Req_EM_T (vy d) 0 then if Req_EM_T b 0 then true else false else false else false) with false.
  2:{ destruct (Req_EM_T (vx d) 0) as [E1|]; auto. destruct (Req_EM_T (vy d) 0) as [E2|]; auto. destruct (Req_EM_T b 0) as [E3|]; auto. exfalso. apply S0. rewrite <- B0. unfold B. rewrite E1, E2, E3. ring. }
  destruct (Rlt_dec precision (Rabs A)) as [N|_]; [exfalso; rewrite A0, Rabs_R0 in N; unfold precision in N; lra|].
  rewrite B0. destruct (Rlt_dec precision (Rabs s)) as [_|N]; [|contradiction].
  assert (Z1 : f (- C / s + shift) = 0). { rewrite W, A0, B0. field. auto. }
  destruct (K invert (- C / s + shift) Z1) as [P1 Q1].
  { specialize (S1 (- C / s + shift)). rewrite A0, B0 in S1. lra. }
  split; [exact P1|]. intros t Zt H. assert (E : t = - C / s + shift).
  { specialize (F t (- C / s + shift)). rewrite Z1, Zt in F. assert (E : s * (- C / s + shift - t) = 0) by lra. apply Rmult_integral in E as [E|E]; lra. }
  rewrite E in H |- *. apply Q1, H.
Qed.
End Sides.
