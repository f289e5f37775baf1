(** Lemmas for the whole list of crossings of a cone. *)
From Coq Require Import Reals List Bool Lra Lia Psatz Permutation Sorted.
From Verif Require Import VectorModel GeometryModel GeometrySpec SolidModel SolidSpec SolidProofs SolidShapes SolidRound PconeModel PconeSpec PconeProofs FrusModel FrusProofs FrusProps FrustumModel.
Import ListNotations.
Open Scope R_scope.

(** ** Zeros of a parabola *)

Definition turns (f : R -> R) (t : R) (e : bool) : Prop := f t = 0 /\ if e then goes_in f t else goes_out f t.

Lemma turns_one f t : goes_in f t -> goes_out f t -> False.
Proof.
  intros (a & A & A1 & _) (b & B & B1 & _). pose proof (Rmin_l a b). pose proof (Rmin_r a b). assert (0 < Rmin a b) by now apply Rmin_glb_lt.
  specialize (A1 (t - Rmin a b / 2)). specialize (B1 (t - Rmin a b / 2)). cbv beta in B1. lra.
Qed.

Lemma quad_turns f A B C : A <> 0 -> (forall t, f t = A * t * t + 2 * B * t + C) -> (forall t, f t = 0 -> exists u, u <> t /\ f u = 0) ->
  switched (fun t => f t < 0) (turns f).
Proof.
  intros A0 F T. split.
  - intros t [|] [Z (e & E & G1 & G2)]; exists e; split; auto; split; intros u U; cbn [negb]; specialize (G1 u); specialize (G2 u); cbv beta in *; (split; [intros X; try reflexivity; exfalso; lra|intros X; try discriminate; lra]).
  - intros t N. destruct (Req_EM_T (f t) 0) as [Z|Z].
    + exfalso. destruct (T t Z) as (u & U & Zu). assert (S : A * (u + t) + 2 * B = 0).
      { apply Rmult_eq_reg_r with (u - t); [|lra]. rewrite F in Z, Zu. lra. }
      assert (X : forall v, f v = A * (t - u) * (v - t) + A * (v - t) * (v - t)).
      { intros v. rewrite <- (Rminus_0_r (f v)), <- Z, !F. replace (2 * B) with (- (A * (u + t))) by lra. ring. }
      assert (S0 : A * (t - u) <> 0) by (apply Rmult_integral_contrapositive_currified; lra).
      destruct (Rlt_le_dec (A * (t - u)) 0) as [L|L].
      * apply (N true). split; auto. apply (falls_at f t (A * (t - u)) A); auto.
      * apply (N false). split; auto. apply (falls_at _ t (- (A * (t - u))) (- A)); [|lra]. intros v. rewrite X. ring.
    + set (k := Rabs (2 * A * t + 2 * B) + Rabs A + 1). pose proof (Rabs_pos (2 * A * t + 2 * B)) as K1. pose proof (Rabs_pos A) as K2.
      pose proof (Rabs_pos_lt _ Z) as K3. set (e := Rabs (f t) / (Rabs (f t) + k)).
      assert (E0 : e * (Rabs (f t) + k) = Rabs (f t)) by (unfold e; field; unfold k; lra).
      assert (E1 : 0 < e) by (apply Rdiv_lt_0_compat; unfold k; lra). assert (k0 : 1 <= k) by (unfold k; lra).
      assert (E2 : e < 1) by nra. assert (E3 : e * k < Rabs (f t)) by nra.
      assert (G : forall u, t - e < u < t + e -> Rabs (f u - f t) < Rabs (f t)).
      { intros u U. replace (f u - f t) with ((u - t) * ((2 * A * t + 2 * B) + A * (u - t))) by (rewrite !F; ring). rewrite Rabs_mult.
        assert (D : Rabs (u - t) < e) by (apply Rabs_def1; lra). pose proof (Rabs_pos (u - t)) as D0.
        assert (Q : Rabs (2 * A * t + 2 * B + A * (u - t)) <= k).
        { eapply Rle_trans; [apply Rabs_triang|]. rewrite Rabs_mult. unfold k. nra. }
        pose proof (Rabs_pos (2 * A * t + 2 * B + A * (u - t))). nra. }
      exists (if Rlt_dec (f t) 0 then true else false). exists e. split; auto. intros u U. specialize (G u U). revert G.
      destruct (Rlt_dec (f t) 0) as [L|L].
      * rewrite (Rabs_left (f t)) by auto. intros G. apply Rabs_def2 in G. split; auto. intros _. lra.
      * rewrite (Rabs_pos_eq (f t)) by lra. intros G. apply Rabs_def2 in G. split; [lra|discriminate].
Qed.

(** ** Walls *)

Lemma out_of_quad c i p d : 0 < co_z c -> exists B C, forall t, out_of c i p d t = bend d (- co_z c / 2) (co_z c / 2) (below c i) (above c i) * t * t + 2 * B * t + C.
Proof.
  intros Z. set (lo := - co_z c / 2). set (hi := co_z c / 2). set (r0 := radius_at lo hi (below c i) (above c i) (vz p)). set (b := (above c i - below c i) / (hi - lo)).
  exists (vx p * vx d + vy p * vy d - b * vz d * r0), (radial p - r0 * r0). intros t.
  assert (N : hi - lo <> 0) by (unfold hi, lo; lra). unfold out_of. fold lo hi. unfold outside_by, bend. fold b.
  assert (E : radius_at lo hi (below c i) (above c i) (vz (on_line p d t)) = r0 + b * (t * vz d)).
  { unfold r0, b, radius_at, on_line, vadd, vscale. cbn [vx vy vz]. field. auto. }
  rewrite E. unfold radial, on_line, vadd, vscale. cbn [vx vy vz]. ring.
Qed.

Lemma side_hit_short p d lo hi a b i t : side_hit p d lo hi a b i t = [] \/ map h_distance (side_hit p d lo hi a b i t) = [snap t].
Proof. unfold side_hit. cbv zeta. repeat destruct (Rlt_dec _ _); repeat destruct (Rle_dec _ _); auto. Qed.

Lemma side_nodup p d lo hi rlo rhi invert : lo < hi -> (forall t, outside_by p d lo hi rlo rhi t = 0 -> ~ 0 < t < precision) ->
  NoDup (map h_distance (side_hits p d lo hi (rlo - (rhi - rlo) / (hi - lo) * lo) ((rhi - rlo) / (hi - lo)) invert)).
Proof.
  intros height ahead. unfold side_hits. cbv zeta.
  pose proof (wall_form p d lo hi rlo rhi height) as W. cbv zeta in W.
  set (shift := - (vx p * vx d + vy p * vy d + vz p * vz d)) in *. set (b := (rhi - rlo) / (hi - lo)) in *. set (a := rlo - b * lo) in *.
  set (A := vx d * vx d + vy d * vy d - b * b * vz d * vz d) in *.
  set (B := 2 * ((vx p + shift * vx d) * vx d + (vy p + shift * vy d) * vy d - b * vz d * (a + b * (vz p + shift * vz d)))) in *.
  set (C := (vx p + shift * vx d) * (vx p + shift * vx d) + (vy p + shift * vy d) * (vy p + shift * vy d) - (a + b * (vz p + shift * vz d)) * (a + b * (vz p + shift * vz d))) in *.
  assert (S1 : forall t, NoDup (map h_distance (side_hit p d lo hi a b invert t))).
  { intros t. destruct (side_hit_short p d lo hi a b invert t) as [-> | ->]; repeat constructor. intros []. }
  match goal with |- context [if ?x then [] else _] => destruct x; [constructor|] end.
  destruct (Rlt_dec precision (Rabs A)) as [G|_]; [|destruct (Rlt_dec precision (Rabs B)); [apply S1|constructor]].
  destruct (Rlt_dec 0 (B * B - 4 * A * C)) as [D|D]; [|constructor].
  assert (A0 : A <> 0). { intros E. rewrite E, Rabs_R0 in G. unfold precision in G. lra. }
  set (r := sqrt (B * B - 4 * A * C)) in *. assert (R0 : 0 < r) by (apply sqrt_lt_R0; auto).
  assert (RR : r * r = B * B - 4 * A * C) by (apply sqrt_sqrt; lra).
  set (t1 := (- B + r) / (2 * A) + shift). set (t2 := (- B - r) / (2 * A) + shift).
  assert (Z1 : outside_by p d lo hi rlo rhi t1 = 0). { rewrite W. unfold t1. replace C with ((B * B - r * r) / (4 * A)) by (rewrite RR; field; auto). field. auto. }
  assert (Z2 : outside_by p d lo hi rlo rhi t2 = 0). { rewrite W. unfold t2. replace C with ((B * B - r * r) / (4 * A)) by (rewrite RR; field; auto). field. auto. }
  assert (Y1 : 2 * A * (t1 - shift) + B = r) by (unfold t1; field; auto).
  assert (Y2 : 2 * A * (t2 - shift) + B = - r) by (unfold t2; field; auto).
  rewrite map_app. apply nodup_app; [apply S1|apply S1|]. intros x.
  destruct (side_hit_short p d lo hi a b invert t1) as [-> | ->]; [intros []|]. intros [<-|[]].
  destruct (side_hit_short p d lo hi a b invert t2) as [-> | ->]; [intros []|]. intros [E|[]].
  rewrite !snap_clear in E by auto. rewrite <- E in Y1. lra.
Qed.
