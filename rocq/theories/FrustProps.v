(** Property C191: making cones, and their boxes. *)
From Coq Require Import Reals List Bool Lra Lia Psatz.
From Verif Require Import VectorModel GeometryModel GeometrySpec SolidSpec PconeModel PconeSpec FrusModel FrustModel.
Open Scope R_scope.

(** The body between the two walls and the two caps. *)
Definition in_body (c : cone) (q : vec) : Prop :=
  let at_z r1 r2 := radius_at (- co_z c / 2) (co_z c / 2) r1 r2 (vz q) in
  - co_z c / 2 <= vz q <= co_z c / 2 /\
  exists r, 0 <= r /\ r * r = radial q /\ at_z (co_min1 c) (co_min2 c) <= r <= at_z (co_max1 c) (co_max2 c).

(** A box, by its corners, holds a point. *)
Definition holds (b : vec * vec) (q : vec) : Prop :=
  vx (fst b) <= vx q <= vx (snd b) /\ vy (fst b) <= vy q <= vy (snd b) /\ vz (fst b) <= vz q <= vz (snd b).

(** C191: a cone is made exactly of a positive height with some positive radius; at each end its inner radius is the smaller and its outer the larger of the two given. *)
Theorem C191_make a1 b1 a2 b2 z c : make_cone a1 b1 a2 b2 z = Some c <->
  0 < z /\ (0 < a1 \/ 0 < b1 \/ 0 < a2 \/ 0 < b2) /\
  co_z c = z /\ co_min1 c = Rmin a1 b1 /\ co_max1 c = Rmax a1 b1 /\ co_min2 c = Rmin a2 b2 /\ co_max2 c = Rmax a2 b2.
Proof.
  assert (O : forall a b, in_order a b = (Rmin a b, Rmax a b)).
  { intros a b. unfold in_order. destruct (Rlt_dec b a); [rewrite Rmin_right, Rmax_left by lra|rewrite Rmin_left, Rmax_right by lra]; auto. }
  assert (M : forall a b, Rmax a b <= 0 <-> a <= 0 /\ b <= 0).
  { intros a b. pose proof (Rmax_l a b). pose proof (Rmax_r a b). split; [lra|]. intros []. apply Rmax_lub; auto. }
  unfold make_cone. destruct (Rle_dec z 0) as [Z|Z]; [split; [discriminate|lra]|]. rewrite !O.
  pose proof (M a1 b1) as M1. pose proof (M a2 b2) as M2.
  destruct (Rle_dec (Rmax a1 b1) 0) as [A|A], (Rle_dec (Rmax a2 b2) 0) as [B|B].
  1:{ split; [discriminate|]. lra. }
  all: split; [intros E; assert (c = mkcone z (Rmin a1 b1) (Rmin a2 b2) (Rmax a1 b1) (Rmax a2 b2)) as -> by congruence; cbn [co_z co_min1 co_min2 co_max1 co_max2];
                 split; [lra|]; split; [|auto]; destruct (Rlt_dec 0 a1), (Rlt_dec 0 b1), (Rlt_dec 0 a2), (Rlt_dec 0 b2); auto; exfalso; lra
              |intros (_ & _ & E1 & E2 & E3 & E4 & E5); rewrite <- E1, <- E2, <- E3, <- E4, <- E5; destruct c; reflexivity].
Qed.
Print Assumptions C191_make.

(** C191: the box of a cone holds its body, and no smaller box does if no outer radius is negative. *)
Theorem C191_box a1 b1 a2 b2 z c : make_cone a1 b1 a2 b2 z = Some c ->
  (forall q, in_body c q -> holds (cone_box c) q) /\
  (0 <= co_max1 c -> 0 <= co_max2 c -> forall b, (forall q, in_body c q -> holds b q) ->
     holds b (fst (cone_box c)) /\ holds b (snd (cone_box c))).
Proof.
  intros H. apply C191_make in H. destruct H as (Z & P & Ez & E1 & F1 & E2 & F2).
  assert (O1 : co_min1 c <= co_max1 c). { rewrite E1, F1. pose proof (Rmin_l a1 b1). pose proof (Rmax_l a1 b1). lra. }
  assert (O2 : co_min2 c <= co_max2 c). { rewrite E2, F2. pose proof (Rmin_l a2 b2). pose proof (Rmax_l a2 b2). lra. }
  set (m := Rmax (co_max1 c) (co_max2 c)). rewrite <- Ez in Z.
  assert (L : co_max1 c <= m) by apply Rmax_l. assert (U : co_max2 c <= m) by apply Rmax_r. split.
  - intros q (A & r & R0 & RR & _ & R2).
    assert (R1 : r <= m).
    { eapply Rle_trans; [exact R2|]. unfold radius_at.
      replace (co_max1 c + (co_max2 c - co_max1 c) * (vz q - - co_z c / 2) / (co_z c / 2 - - co_z c / 2))
        with ((co_max1 c * (co_z c / 2 - vz q) + co_max2 c * (vz q + co_z c / 2)) / co_z c) by (field; lra).
      apply Rmult_le_reg_r with (co_z c); auto. unfold Rdiv. rewrite Rmult_assoc, Rinv_l, Rmult_1_r by lra. nra. }
    unfold radial in RR. unfold holds, cone_box. fold m. cbn [fst snd vx vy vz]. repeat split; try lra; nra.
  - intros P1 P2 b B.
    assert (Q : forall s x y, (s = -1 \/ s = 1) -> x * x + y * y = (if Rlt_dec s 0 then co_max1 c * co_max1 c else co_max2 c * co_max2 c) -> holds b (mkv x y (s * (co_z c / 2)))).
    { intros s x y S E. apply B. split; [cbn [vz]; destruct S as [-> | ->]; lra|].
      exists (if Rlt_dec s 0 then co_max1 c else co_max2 c). unfold radial, radius_at. cbn [vx vy vz].
      destruct S as [-> | ->]; destruct (Rlt_dec _ 0) as [N|N]; try (exfalso; lra); (split; [auto|]); (split; [lra|]).
      - replace (-1 * (co_z c / 2) - - co_z c / 2) with 0 by lra. unfold Rdiv. rewrite !Rmult_0_r, !Rmult_0_l. lra.
      - replace (1 * (co_z c / 2) - - co_z c / 2) with (co_z c / 2 - - co_z c / 2) by lra.
        assert (T : forall u v, u + (v - u) * (co_z c / 2 - - co_z c / 2) / (co_z c / 2 - - co_z c / 2) = v) by (intros; field; lra).
        rewrite !T. lra. }
    assert (X : exists s, (s = -1 \/ s = 1) /\ m * m = (if Rlt_dec s 0 then co_max1 c * co_max1 c else co_max2 c * co_max2 c)).
    { unfold m, Rmax. destruct (Rle_dec (co_max1 c) (co_max2 c)).
      - exists 1. split; auto. destruct (Rlt_dec 1 0); lra.
      - exists (-1). split; auto. destruct (Rlt_dec (-1) 0); lra. }
    destruct X as (s & S & M).
    pose proof (Q s m 0 S ltac:(lra)) as A1. pose proof (Q s (- m) 0 S ltac:(lra)) as A2.
    pose proof (Q s 0 m S ltac:(lra)) as A3. pose proof (Q s 0 (- m) S ltac:(lra)) as A4.
    pose proof (Q (-1) (co_max1 c) 0 (or_introl eq_refl) ltac:(destruct (Rlt_dec (-1) 0); lra)) as A5.
    pose proof (Q 1 (co_max2 c) 0 (or_intror eq_refl) ltac:(destruct (Rlt_dec 1 0); lra)) as A6.
    unfold holds, cone_box in *. fold m. cbn [fst snd vx vy vz] in *. repeat split; lra.
Qed.
Print Assumptions C191_box.

(** Finding (C191): only one outer radius has to be positive, so cones with a negative radius at the other end are made. *)
Theorem C191_negative_refuted : exists a1 b1 a2 b2 z c, make_cone a1 b1 a2 b2 z = Some c /\ co_max1 c < 0.
Proof.
  exists (- (3)), (- (2)), 0, 1, 2, (mkcone 2 (- (3)) 0 (- (2)) 1). split; [|cbn; lra]. apply C191_make. cbn [co_z co_min1 co_min2 co_max1 co_max2].
  rewrite !Rmin_left, !Rmax_right by lra. repeat split; try lra.
Qed.
Print Assumptions C191_negative_refuted.

(** Radii given in the wrong order below; a point of the body, and the box. *)
Example C191_case : exists c, make_cone 3 1 0 2 4 = Some c /\ co_min1 c = 1 /\ co_max1 c = 3 /\ in_body c (mkv 2 0 0) /\ holds (cone_box c) (mkv 2 0 0).
Proof.
  exists (mkcone 4 1 0 3 2). assert (H : make_cone 3 1 0 2 4 = Some (mkcone 4 1 0 3 2)).
  { apply C191_make. cbn [co_z co_min1 co_min2 co_max1 co_max2]. rewrite (Rmin_right 3 1), (Rmax_left 3 1), (Rmin_left 0 2), (Rmax_right 0 2) by lra. repeat split; lra. }
  assert (B : in_body (mkcone 4 1 0 3 2) (mkv 2 0 0)).
  { split; [cbn; lra|]. exists 2. unfold radial, radius_at. cbn [co_z co_min1 co_min2 co_max1 co_max2 vx vy vz]. replace (4 / 2 - - (4) / 2) with 4 by lra. split; [lra|]. split; [ring|]. split; lra. }
  split; [exact H|]. split; [reflexivity|]. split; [reflexivity|]. split; [exact B|]. exact (proj1 (C191_box _ _ _ _ _ _ H) _ B).
Qed.
