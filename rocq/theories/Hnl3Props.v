(** Properties C96 to C98. *)
From Coquelicot Require Import Coquelicot.
From Coq Require Import Reals Bool List Lra Lia Psatz.
From Verif Require Import VectorModel RkModel RkSpec RkProofs RandomModel DipoleModel DipoleSpec DipoleProofs HnlModel MhModel MhProps Hnl3Model Hnl3Spec Hnl3Proofs.
Import ListNotations.
Open Scope R_scope.

(** ** C96 *)

Theorem C96_kept : forall d p ma mb u1 u2 u3 u4 u5, 0 < t_mass d -> 0 < ma -> 0 <= mb -> ma + mb < t_mass d ->
  0 <= u1 < 1 -> 0 <= u2 < 1 -> 0 <= u3 <= 1 ->
  exists z k2 k3 k4, propose3 d ma mb u1 u2 u3 u4 u5 = Some z /\ final3 d p (t_mass d) ma mb z = Some (k2, k3, k4) /\
  decay3 (t_mass d) p ma mb k2 k3 k4 /\ pm k3 = ma /\ pm k4 = mb /\
  pair_mass2 k2 k3 = ph_s1 z * t_mass d ^ 2 /\ pair_mass2 k2 k4 = ph_s2 z * t_mass d ^ 2.
Proof.
  intros d p ma mb u1 u2 u3 u4 u5 HM HA HB HS U1 U2 U3.
  destruct (propose_eq d ma mb u1 u2 u3 u4 u5 HM HA HB HS ltac:(lra)) as [X [Y [XY [XX [S [D [LH E]]]]]]].
  set (x := ma / t_mass d) in *. set (y := mb / t_mass d) in *. set (s1 := x * x + ((1 - y) * (1 - y) - x * x) * u1) in *.
  assert (S1 : s1 < (1 - y) * (1 - y)) by (unfold s1; nra).
  destruct (proposed_below x y s1 u2 X Y XY (proj1 S) S1 D U2) as [GN H2]. cbv zeta in GN, H2.
  set (z := mkph _ _ _ _ _) in E. exists z.
  destruct (convert_inside d p ma mb z HM HA HB HS) as [k2 [k3 [k4 K]]]; [apply S|exact S1|exact GN|exact H2|cbn; lra|].
  exists k2, k3, k4. split; [exact E|exact K].
Qed.
Print Assumptions C96_kept.

(** Whatever the width, what the Metropolis-Hastings chain returns is such a decay. *)
Theorem C96_sampled : forall d p ma mb llh (us : nat -> R * R * R * R * R) (zs : nat -> phase3) vs burnin,
  0 < t_mass d -> 0 < ma -> 0 <= mb -> ma + mb < t_mass d ->
  (forall j, let '(u1, u2, u3, u4, u5) := us j in 0 <= u1 < 1 /\ 0 <= u2 < 1 /\ 0 <= u3 <= 1 /\ propose3 d ma mb u1 u2 u3 u4 u5 = Some (zs j)) ->
  let z := mh_sample llh (zs 0%nat, 1) (fun j => ((zs (S j), 1), vs j)) burnin in
  exists k2 k3 k4, final3 d p (t_mass d) ma mb z = Some (k2, k3, k4) /\ decay3 (t_mass d) p ma mb k2 k3 k4 /\
  pair_mass2 k2 k3 = ph_s1 z * t_mass d ^ 2 /\ pair_mass2 k2 k4 = ph_s2 z * t_mass d ^ 2.
Proof.
  intros d p ma mb llh us zs vs burnin HM HA HB HS H z.
  assert (K : forall j, exists k2 k3 k4, final3 d p (t_mass d) ma mb (zs j) = Some (k2, k3, k4) /\ decay3 (t_mass d) p ma mb k2 k3 k4 /\
     pair_mass2 k2 k3 = ph_s1 (zs j) * t_mass d ^ 2 /\ pair_mass2 k2 k4 = ph_s2 (zs j) * t_mass d ^ 2).
  { intros j. specialize (H j). destruct (us j) as [[[[u1 u2] u3] u4] u5]. destruct H as [U1 [U2 [U3 E]]].
    destruct (C96_kept d p ma mb u1 u2 u3 u4 u5 HM HA HB HS U1 U2 U3) as [z' [k2 [k3 [k4 [E' [F [D [_ [_ [P1 P2]]]]]]]]]].
    rewrite E in E'. assert (z' = zs j) by congruence. subst z'. exists k2, k3, k4. auto. }
  destruct (C89_member llh (zs 0%nat, 1) (fun j => ((zs (S j), 1), vs j)) burnin) as [E|[j [_ E]]]; cbv zeta in E; fold z in E; rewrite E; apply K.
Qed.
Print Assumptions C96_sampled.

(** At the upper end of the first variable the conversion divides zero by zero. *)
Theorem C96_end_refuted : exists d ma mb z, 0 < ma /\ 0 < mb /\ ma + mb < t_mass d /\
  propose3 d ma mb 1 (1 / 2) (1 / 2) 0 0 = Some z /\ final3 d (mkv 0 0 0) (t_mass d) ma mb z = None.
Proof.
  set (d := mkhnl3 1 Dirac (fun _ => 1)). exists d, (1 / 4), (1 / 2).
  destruct (propose_eq d (1 / 4) (1 / 2) 1 (1 / 2) (1 / 2) 0 0) as [X [Y [XY [XX [S [D [LH E]]]]]]]; try (cbn; lra). cbv zeta in E.
  eexists. split; [lra|]. split; [lra|]. split; [cbn; lra|]. split; [exact E|].
  replace (1 / 4 / t_mass d * (1 / 4 / t_mass d) + _) with (1 / 4) in E, D |- * by (cbn; field).
  replace (1 / 4 / t_mass d) with (1 / 4) in * by (cbn; field). replace (1 / 2 / t_mass d) with (1 / 2) in * by (cbn; field).
  assert (Z : ub (1 / 4) (1 / 2) (1 / 4) * ub (1 / 4) (1 / 2) (1 / 4) - 4 * (1 / 4) * uc (1 / 4) (1 / 2) (1 / 4) = 0) by (unfold ub, uc; field).
  unfold final3, convert3, lo_of, hi_of. rewrite Z, sqrt_0. cbn [ph_s1 ph_s2 t_mass d].
  replace ((1 * 1 * (1 - 1 / 4) + 1 / 2 * (1 / 2)) / (2 * 1)) with (1 / 2) by field.
  set (s2 := _ + _ * (1 / 2)). assert (E2 : s2 = 7 / 16) by (unfold s2, ub; field).
  replace ((1 * 1 * (1 - s2) + 1 / 4 * (1 / 4)) / (2 * 1)) with (5 / 16) by (rewrite E2; field).
  destruct (Rlt_dec _ 0); [exfalso; lra|]. destruct (Rlt_dec _ 0); [exfalso; lra|].
  replace (1 / 2 * (1 / 2) - 1 / 2 * (1 / 2)) with 0 by ring. rewrite sqrt_0, Rmult_0_r. unfold cos34.
  destruct (Req_EM_T 0 0) as [_|]; [|lra]. destruct (Req_EM_T _ 0) as [_|N]; [reflexivity|]. exfalso. apply N. rewrite E2. field.
Qed.
Print Assumptions C96_end_refuted.

(** A particle of mass 4 moving along y, decaying to masses 1 and 2. *)
Example C96_case : let d := mkhnl3 4 Dirac (fun _ => 1) in
  exists z k2 k3 k4, propose3 d 1 2 (1 / 2) (1 / 2) (3 / 4) 0 0 = Some z /\ final3 d (mkv 0 3 0) 4 1 2 z = Some (k2, k3, k4) /\
  pe k2 + pe k3 + pe k4 = 5 /\ ph_s1 z = 5 / 32 /\ 0 < pair_mass2 k2 k4.
Proof.
  intros d. destruct (C96_kept d (mkv 0 3 0) 1 2 (1 / 2) (1 / 2) (3 / 4) 0 0) as [z [k2 [k3 [k4 [E [F [D [_ [_ [P1 P2]]]]]]]]]]; try lra; try (cbn; lra).
  exists z, k2, k3, k4. split; [exact E|]. split; [exact F|]. destruct D as [_ [_ [_ [K _]]]].
  split. { rewrite K. unfold energy, vdot. cbn. replace (_ + _) with (Rsqr 5) by (unfold Rsqr; ring). apply sqrt_Rsqr; lra. }
  destruct (propose_eq d 1 2 (1 / 2) (1 / 2) (3 / 4) 0 0) as [X [Y [XY [XX [S [DD [LH E']]]]]]]; try (cbn; lra). rewrite E in E'.
  assert (EZ : forall a b, Some a = Some b -> a = b :> phase3) by (intros; congruence). apply EZ in E'. clear EZ.
  assert (E1 : ph_s1 z = 5 / 32) by (rewrite E'; cbn; field). split; [exact E1|]. rewrite P2.
  assert (E2 : ph_s2 z = - ub (1 / 4) (1 / 2) (5 / 32) / (2 * (5 / 32))).
  { rewrite E'. cbn [ph_s2 t_mass d]. replace (1 / 4 * (1 / 4) + _) with (5 / 32) by field. replace (2 / 4) with (1 / 2) by field. unfold lo_of, hi_of. field. }
  rewrite E2. unfold ub. cbn [t_mass d]. lra.
Qed.

(** ** C97 *)

(** Every decay of a particle at rest has pair masses the code proposes for some draws. *)
Theorem C97_complete : forall d ma mb k2 k3 k4 u3 u4 u5, 0 < t_mass d -> 0 < ma -> 0 <= mb -> ma + mb < t_mass d ->
  decay3 (t_mass d) (mkv 0 0 0) ma mb k2 k3 k4 ->
  exists u1 u2 z, 0 <= u1 <= 1 /\ 0 <= u2 <= 1 /\ propose3 d ma mb u1 u2 u3 u4 u5 = Some z /\
  ph_s1 z * t_mass d ^ 2 = pair_mass2 k2 k3 /\ ph_s2 z * t_mass d ^ 2 = pair_mass2 k2 k4.
Proof.
  intros d ma mb k2 k3 k4 u3 u4 u5 HM HA HB HS K. destruct (region ma mb (t_mass d) k2 k3 k4 HM HA HB HS K) as [S GN].
  set (s1 := pair_mass2 k2 k3 / t_mass d ^ 2) in *. set (s2 := pair_mass2 k2 k4 / t_mass d ^ 2) in *.
  set (x := ma / t_mass d) in *. set (y := mb / t_mass d) in *.
  assert (X0 : 0 < x) by (apply Rdiv_lt_0_compat; auto). assert (Y0 : 0 <= y) by (apply Rdiv_le_0_compat; auto).
  assert (XX : x * x < (1 - y) * (1 - y)).
  { assert (x + y < 1); [|nra]. unfold x, y. apply Rmult_lt_reg_r with (t_mass d); auto. replace ((ma / t_mass d + mb / t_mass d) * t_mass d) with (ma + mb) by (field; lra). lra. }
  set (w := (1 - y) * (1 - y) - x * x). assert (W : 0 < w) by (unfold w; lra).
  set (u1 := (s1 - x * x) / w). assert (U1 : 0 <= u1 <= 1).
  { unfold u1. split; [apply Rdiv_le_0_compat; lra|]. apply Rmult_le_reg_r with w; auto. replace ((s1 - x * x) / w * w) with (s1 - x * x) by (field; lra). unfold w. lra. }
  assert (E1 : x * x + w * u1 = s1) by (unfold u1; field; lra).
  set (u2 := if Req_EM_T (lo_of x y s1) (hi_of x y s1) then 0 else (s2 - lo_of x y s1) / (hi_of x y s1 - lo_of x y s1)).
  destruct (propose_eq d ma mb u1 u2 u3 u4 u5 HM HA HB HS U1) as [_ [_ [_ [_ [_ [D [LH E]]]]]]]. fold x y in D, LH, E. fold w in D, LH, E. rewrite E1 in D, LH, E.
  assert (S0 : 0 < s1) by nra. apply (between x y s1 s2 S0 D LH) in GN.
  assert (U2 : 0 <= u2 <= 1 /\ lo_of x y s1 + (hi_of x y s1 - lo_of x y s1) * u2 = s2).
  { unfold u2. destruct (Req_EM_T _ _) as [Q|Q]; [split; [lra|rewrite Q in *; lra]|]. set (l := lo_of x y s1) in *. set (h := hi_of x y s1) in *.
    assert (P : 0 < h - l) by lra. split; [split|field; lra].
    - apply Rdiv_le_0_compat; lra.
    - apply Rmult_le_reg_r with (h - l); auto. replace ((s2 - l) / (h - l) * (h - l)) with (s2 - l) by (field; lra). lra. }
  destruct U2 as [U2 E2]. rewrite E2 in E. eexists u1, u2, _. split; [exact U1|]. split; [exact U2|]. split; [exact E|]. cbn [ph_s1 ph_s2].
  unfold s1, s2. split; field; lra.
Qed.
Print Assumptions C97_complete.

(** The limits of the second variable are the ones of the standard formula. *)
Theorem C97_limits : forall d ma mb u1 u3 u4 u5, 0 < t_mass d -> 0 < ma -> 0 <= mb -> ma + mb < t_mass d -> 0 <= u1 <= 1 ->
  exists z0 z1 s, propose3 d ma mb u1 0 u3 u4 u5 = Some z0 /\ propose3 d ma mb u1 1 u3 u4 u5 = Some z1 /\
  ph_s1 z0 = s /\ ph_s1 z1 = s /\
  let a2 := (ma / t_mass d) ^ 2 in let b2 := (mb / t_mass d) ^ 2 in
  0 <= kallen 1 s b2 /\
  ph_s2 z0 = b2 + ((s - a2) * (1 - s - b2) - (s - a2) * sqrt (kallen 1 s b2)) / (2 * s) /\
  ph_s2 z1 = b2 + ((s - a2) * (1 - s - b2) + (s - a2) * sqrt (kallen 1 s b2)) / (2 * s).
Proof.
  intros d ma mb u1 u3 u4 u5 HM HA HB HS U1.
  destruct (propose_eq d ma mb u1 0 u3 u4 u5 HM HA HB HS U1) as [X [Y [XY [XX [S [D [LH E]]]]]]].
  destruct (propose_eq d ma mb u1 1 u3 u4 u5 HM HA HB HS U1) as [_ [_ [_ [_ [_ [_ [_ E']]]]]]].
  set (x := ma / t_mass d) in *. set (y := mb / t_mass d) in *. set (s1 := x * x + _) in *.
  assert (S0 : 0 < s1) by nra. assert (EK : kallen 1 s1 (y ^ 2) = lam y s1) by (unfold kallen, lam; ring).
  assert (L0 : 0 <= lam y s1) by (apply lam_nonneg; lra).
  eexists _, _, s1. split; [exact E|]. split; [exact E'|]. split; [reflexivity|]. split; [reflexivity|]. cbv zeta. rewrite EK. split; [exact L0|]. cbn [ph_s2].
  unfold lo_of, hi_of. rewrite disc_lam, sqrt_mult by nra. rewrite sqrt_square by nra. pose proof (vertex_low x y s1 S0) as V.
  replace (- ub x y s1) with (2 * s1 * (y * y) + (s1 - x * x) * (1 - s1 - y * y)) by lra. split; field; lra.
Qed.
Print Assumptions C97_limits.

(** The first two variables of HNLDecay.cxx:1268-1295 as functions of the first two numbers drawn. *)
Definition prop_s1 d ma mb (u1 : R) : R := match propose3 d ma mb u1 0 0 0 0 with Some z => ph_s1 z | None => 0 end.
Definition prop_s2 d ma mb (u1 u2 : R) : R := match propose3 d ma mb u1 u2 0 0 0 with Some z => ph_s2 z | None => 0 end.

Lemma jacobian d ma mb u1 u2 : 0 < t_mass d -> 0 < ma -> 0 <= mb -> ma + mb < t_mass d -> 0 < u1 < 1 ->
  let x := ma / t_mass d in let y := mb / t_mass d in let s1 := x * x + ((1 - y) * (1 - y) - x * x) * u1 in
  Derive (prop_s1 d ma mb) u1 * Derive (prop_s2 d ma mb u1) u2 = ((1 - y) * (1 - y) - x * x) * (hi_of x y s1 - lo_of x y s1).
Proof.
  intros HM HA HB HS U x y s1.
  assert (D1 : Derive (prop_s1 d ma mb) u1 = (1 - y) * (1 - y) - x * x).
  { rewrite (Derive_ext_loc _ (fun u => x * x + ((1 - y) * (1 - y) - x * x) * u)).
    - apply is_derive_unique. auto_derive; auto. ring.
    - assert (EP : 0 < Rmin u1 (1 - u1)) by (apply Rmin_glb_lt; lra). exists (mkposreal _ EP). intros v B. unfold ball in B. cbn in B. unfold AbsRing_ball, abs, minus, plus, opp in B. cbn in B.
      pose proof (Rmin_l u1 (1 - u1)). pose proof (Rmin_r u1 (1 - u1)). apply Rabs_lt_between in B.
      unfold prop_s1. destruct (propose_eq d ma mb v 0 0 0 0 HM HA HB HS ltac:(lra)) as [_ [_ [_ [_ [_ [_ [_ E]]]]]]]. rewrite E. reflexivity. }
  assert (D2 : Derive (prop_s2 d ma mb u1) u2 = hi_of x y s1 - lo_of x y s1).
  { rewrite (Derive_ext _ (fun u => lo_of x y s1 + (hi_of x y s1 - lo_of x y s1) * u)).
    - apply is_derive_unique. auto_derive; auto. ring.
    - intros v. unfold prop_s2. destruct (propose_eq d ma mb u1 v 0 0 0 HM HA HB HS ltac:(lra)) as [_ [_ [_ [_ [_ [_ [_ E]]]]]]]. rewrite E. reflexivity. }
  rewrite D1, D2. reflexivity.
Qed.

(** The proposals are given to the sampler with density 1, but they do not fill the allowed region evenly. *)
Theorem C97_flat_refuted : exists d ma mb, 0 < t_mass d /\ 0 < ma /\ 0 < mb /\ ma + mb < t_mass d /\
  ~ flat_density (prop_s1 d ma mb) (prop_s2 d ma mb).
Proof.
  set (d := mkhnl3 1 Dirac (fun _ => 1)). exists d, (1 / 4), (1 / 4). split; [cbn; lra|]. split; [lra|]. split; [lra|]. split; [cbn; lra|].
  intros [k H]. pose proof (H (1 / 2) (1 / 2) ltac:(lra) ltac:(lra)) as A. pose proof (H (1 / 4) (1 / 2) ltac:(lra) ltac:(lra)) as B.
  rewrite jacobian in A by (cbn; lra). rewrite jacobian in B by (cbn; lra). cbn [t_mass d] in A, B.
  replace (1 / 4 / 1) with (1 / 4) in * by field.
  replace (1 / 4 * (1 / 4) + ((1 - 1 / 4) * (1 - 1 / 4) - 1 / 4 * (1 / 4)) * (1 / 2)) with (5 / 16) in A by field.
  replace (1 / 4 * (1 / 4) + ((1 - 1 / 4) * (1 - 1 / 4) - 1 / 4 * (1 / 4)) * (1 / 4)) with (3 / 16) in B by field.
  rewrite <- B in A. apply Rmult_eq_reg_l in A; [|lra].
  pose proof (spread (1 / 4) (1 / 4) (5 / 16) ltac:(lra) ltac:(rewrite disc_lam; unfold lam; lra) ltac:(lra)) as P.
  pose proof (spread (1 / 4) (1 / 4) (3 / 16) ltac:(lra) ltac:(rewrite disc_lam; unfold lam; lra) ltac:(lra)) as Q.
  rewrite A in P. rewrite P in Q. unfold lam in Q. lra.
Qed.
Print Assumptions C97_flat_refuted.

(** A neutrino against a pair at rest in a decay of mass 4 to masses 1 and 1. *)
Example C97_case : let d := mkhnl3 4 Dirac (fun _ => 1) in
  let k2 := mkp4 (3 / 2) (mkv (3 / 2) 0 0) 0 in let k3 := mkp4 (5 / 4) (mkv (- 3 / 4) 0 0) 1 in let k4 := k3 in
  decay3 4 (mkv 0 0 0) 1 1 k2 k3 k4 /\
  exists u1 u2 z, propose3 d 1 1 u1 u2 0 0 0 = Some z /\ ph_s1 z = 7 / 16 /\ ph_s2 z = 7 / 16.
Proof.
  intros d k2 k3 k4. assert (D : decay3 4 (mkv 0 0 0) 1 1 k2 k3 k4).
  { unfold decay3, has_mass, energy, vdot. cbn. split; [lra|]. split; [lra|]. split; [lra|]. split.
    - replace (4 * 4 + (0 * 0 + 0 * 0 + 0 * 0)) with (Rsqr 4) by (unfold Rsqr; ring). rewrite sqrt_Rsqr; lra.
    - apply veq; cbn; lra. }
  split; auto. destruct (C97_complete d 1 1 k2 k3 k4 0 0 0) as [u1 [u2 [z [_ [_ [E [P1 P2]]]]]]]; try (cbn; lra); auto.
  exists u1, u2, z. split; auto. unfold pair_mass2, vdot in P1, P2. cbn in P1, P2. split; lra.
Qed.

(** ** C98 *)

Lemma form a b P Q D c : 0 <= a -> 0 <= b -> 0 <= P -> 0 <= Q -> c * c <= a * b -> D * D <= P * Q -> 0 <= a * P + b * Q + 2 * c * D.
Proof.
  intros A B HP HQ C DD. assert (E : (c * D) * (c * D) <= a * P * (b * Q)).
  { replace (c * D * (c * D)) with (c * c * (D * D)) by ring. replace (a * P * (b * Q)) with (a * b * (P * Q)) by ring. apply Rmult_le_compat; auto; apply Rle_0_sqr. }
  assert (F : 0 <= a * P) by (apply Rmult_le_pos; auto). assert (F' : 0 <= b * Q) by (apply Rmult_le_pos; auto).
  destruct (Rle_dec 0 (c * D)) as [?|N]; [lra|]. apply Rnot_le_lt in N.
  set (v := - (c * D)). assert (V : v * v <= a * P * (b * Q)) by (unfold v; lra).
  assert (2 * v <= a * P + b * Q); [|unfold v in *; lra]. apply Rsqr_incr_0_var; [|lra]. unfold Rsqr. set (A' := a * P) in *. set (B' := b * Q) in *.
  assert (0 <= (A' - B') * (A' - B')) by apply Rle_0_sqr. lra.
Qed.
Lemma coeffs_form d pr al : let '(c1, c2, c3, c4, c5, c6) := coeffs3 d pr al al in 0 <= c1 /\ 0 <= c2 /\ c3 * c3 <= c1 * c2.
Proof.
  set (S := t_mixing d FlE ^ 2 + t_mixing d FlMu ^ 2 + t_mixing d FlTau ^ 2). set (V := t_mixing d al ^ 2).
  assert (V0 : 0 <= V) by (unfold V; apply pow2_ge_0). 
  assert (VS : V <= S).
  { unfold V, S. pose proof (pow2_ge_0 (t_mixing d FlE)). pose proof (pow2_ge_0 (t_mixing d FlMu)). pose proof (pow2_ge_0 (t_mixing d FlTau)). destruct al; lra. }
  assert (K1 : over_flavours (fun g => t_mixing d g ^ 2 * (fl_eq al al * g_l ^ 2 + fl_eq g al * (1 + fl_eq al al * g_l))) = g_l * g_l * S + (1 + g_l) * V).
  { unfold over_flavours, S, V. destruct al; cbn [fold_left fl_eq]; ring. }
  assert (K2 : over_flavours (fun g => fl_eq al al * g_r ^ 2 * t_mixing d g ^ 2) = g_r * g_r * S).
  { unfold over_flavours, S. destruct al; cbn [fold_left fl_eq]; ring. }
  assert (K3 : over_flavours (fun g => fl_eq al al * g_r * t_mixing d g ^ 2 * (fl_eq g al + g_l)) = g_r * (g_l * S + V)).
  { unfold over_flavours, S, V. destruct al; cbn [fold_left fl_eq]; ring. }
  assert (GL : g_l < 0) by (unfold g_l, theta_w; lra). assert (GL1 : 0 < 1 + g_l) by (unfold g_l, theta_w; lra). assert (GR : 0 < g_r) by (unfold g_r, theta_w; lra).
  set (c1 := g_l * g_l * S + (1 + g_l) * V). set (c2 := g_r * g_r * S). set (c3 := g_r * (g_l * S + V)).
  assert (P1 : 0 <= c1). { unfold c1. assert (0 <= g_l * g_l * S) by (apply Rmult_le_pos; [apply Rle_0_sqr|lra]). assert (0 <= (1 + g_l) * V) by (apply Rmult_le_pos; lra). lra. }
  assert (P2 : 0 <= c2) by (unfold c2; apply Rmult_le_pos; [apply Rle_0_sqr|lra]).
  assert (P3 : c3 * c3 <= c1 * c2).
  { assert (E : c1 * c2 - c3 * c3 = g_r * g_r * (V * ((1 - g_l) * S - V))) by (unfold c1, c2, c3; ring).
    assert (0 <= g_r * g_r * (V * ((1 - g_l) * S - V))); [|lra]. apply Rmult_le_pos; [apply Rle_0_sqr|]. apply Rmult_le_pos; [auto|]. nra. }
  unfold coeffs3. rewrite K1, K2, K3. fold c1 c2 c3. clearbody c1 c2 c3. destruct (t_nature d); [destruct pr; lra|]. split; [lra|]. split; [lra|].
  assert (0 <= (c1 - c2) * (c1 - c2)) by apply Rle_0_sqr. nra.
Qed.
Lemma G_equal x s1 s2 : let a := s2 - x * x in let b := s1 - x * x in G x x s1 s2 = x * x * ((a + b) * (a + b)) - a * b * (1 - a - b).
Proof. cbv zeta. unfold G, ub, uc. ring. Qed.

(** The average over the helicities is not negative, for leptons of one flavour, at every proposed point. *)
Theorem C98_average : forall d pr al u1 u2 u3 u4 u5 ct3 ct4 h, let m := charged_mass al in
  2 * m < t_mass d -> 0 <= u1 < 1 -> 0 <= u2 <= 1 -> 0 < h ->
  exists z wp wm, propose3 d m m u1 u2 u3 u4 u5 = Some z /\
  width3_lab d pr h al al m m (ph_s1 z) (ph_s2 z) ct3 ct4 = Some wp /\
  width3_lab d pr (- h) al al m m (ph_s1 z) (ph_s2 z) ct3 ct4 = Some wm /\ 0 <= wp + wm.
Proof.
  intros d pr al u1 u2 u3 u4 u5 ct3 ct4 h m H2 U1 U2 HH. assert (M0 : 0 < m) by (unfold m; destruct al; cbn; lra).
  assert (HM : 0 < t_mass d) by lra.
  destruct (propose_eq d m m u1 u2 u3 u4 u5 HM M0 (Rlt_le _ _ M0) ltac:(lra) ltac:(lra)) as [X [_ [XY [XX [S [D [LH E]]]]]]].
  set (x := m / t_mass d) in *. set (s1 := x * x + _) in *. set (s2 := lo_of x x s1 + _) in *.
  assert (S0 : 0 < s1) by nra. assert (S1 : s1 < (1 - x) * (1 - x)) by (unfold s1; nra).
  assert (GN : G x x s1 s2 <= 0) by (apply between; auto; unfold s2; nra).
  pose proof (above x x s1 s2 X (Rlt_le _ _ X) XY (proj1 S) (proj2 S) GN) as L2. pose proof (under x x s1 s2 X (Rlt_le _ _ X) XY (proj1 S) S1 GN) as H3.
  assert (K2 : kallen 1 s2 (x * x) = (1 - s2 + x * x) * (1 - s2 + x * x) - 4 * (x * x)) by (unfold kallen; ring).
  assert (K1 : kallen 1 s1 (x * x) = (1 - s1 + x * x) * (1 - s1 + x * x) - 4 * (x * x)) by (unfold kallen; ring).
  assert (P2 : 0 <= kallen 1 s2 (x * x)) by (rewrite K2; nra). assert (P1 : 0 <= kallen 1 s1 (x * x)) by (rewrite K1; nra).
  eexists. assert (W : exists a1, a1sq d pr al al m m s1 s2 ct3 ct4 = Some a1).
  { unfold a1sq. destruct (coeffs3 d pr al al) as [[[[[c1 c2] c3] c4] c5] c6]. fold x. destruct (Rlt_dec _ 0); [lra|]. destruct (Rlt_dec _ 0); [lra|]. eauto. }
  destruct W as [a1 W]. exists (prefactor3 d * (a0sq d pr al al m m s1 s2 + a1)), (prefactor3 d * (a0sq d pr al al m m s1 s2 - a1)).
  split; [exact E|]. cbn [ph_s1 ph_s2]. unfold width3_lab. rewrite W.
  split; [destruct (Rlt_dec 0 h); [reflexivity|lra]|]. split; [destruct (Rlt_dec 0 (- h)); [lra|]; destruct (Rlt_dec (- h) 0); [reflexivity|lra]|].
  replace (_ + _) with (2 * prefactor3 d * a0sq d pr al al m m s1 s2) by ring. apply Rmult_le_pos.
  - assert (0 < prefactor3 d); [|lra]. unfold prefactor3, fermi, c_pi. pose proof PI_RGT_0. apply Rdiv_lt_0_compat; [apply Rmult_lt_0_compat; apply pow_lt; lra|apply Rmult_lt_0_compat; [lra|apply pow_lt; auto]].
  - unfold a0sq. pose proof (coeffs_form d pr al) as CF. destruct (coeffs3 d pr al al) as [[[[[c1 c2] c3] c4] c5] c6]. destruct CF as [C1 [C2 C3]]. fold x.
    pose proof (G_equal x s1 s2) as GE. cbv zeta in GE. set (a := s2 - x * x) in *. set (b := s1 - x * x) in *.
    assert (A0 : 0 <= a) by (unfold a; lra). assert (B0 : 0 <= b) by (unfold b; lra). assert (X1 : x < 1 / 2) by lra.
    assert (A1 : a <= 1) by (unfold a; nra). assert (B1 : b <= 1) by (unfold b; nra).
    replace (c1 * a * (1 + x * x - s2) + c2 * b * (1 + x * x - s1) + 2 * c3 * x * x * (s1 + s2 - x * x - x * x))
      with (c1 * (a * (1 - a)) + c2 * (b * (1 - b)) + 2 * c3 * (x * x * (a + b))) by (unfold a, b; ring).
    apply form; auto; try (apply Rmult_le_pos; lra).
    replace (a * (1 - a) * (b * (1 - b))) with (a * b * (1 - a - b) + (a * b) * (a * b)) by ring.
    replace (x * x * (a + b) * (x * x * (a + b))) with (x * x * (x * x * ((a + b) * (a + b)))) by ring.
    assert (0 <= x * x * ((a + b) * (a + b))) by (apply Rmult_le_pos; apply Rle_0_sqr). assert (x * x <= 1) by nra. assert (0 <= a * b * (a * b)) by apply Rle_0_sqr. nra.
Qed.
Print Assumptions C98_average.

(** A particle that can decay to a muon and an electron. *)
Definition heavy_mix := mkhnl3 (1 / 5) Dirac (fun _ => 1).
Lemma half_way x y s1 : 0 < s1 -> lo_of x y s1 + (hi_of x y s1 - lo_of x y s1) * (1 / 2) = - ub x y s1 / (2 * s1).
Proof. intros. unfold lo_of, hi_of. field. lra. Qed.

(** For a muon and a positron the masses are paired with the wrong invariants: at allowed points the width is negative for both helicities. *)
Theorem C98_flavours_refuted : exists d z, 0 < t_mass d /\ charged_mass FlMu + charged_mass FlE < t_mass d /\
  propose3 d (charged_mass FlMu) (charged_mass FlE) (1 / 40) (1 / 2) 0 0 0 = Some z /\
  forall h ct3 ct4, h <> 0 -> -1 <= ct4 <= 1 ->
  exists w, width3_lab d HN4 h FlMu FlE (charged_mass FlMu) (charged_mass FlE) (ph_s1 z) (ph_s2 z) ct3 ct4 = Some w /\ w < 0.
Proof.
  set (d := mkhnl3 (9 / 40) Dirac (fun _ => 1)). exists d. destruct (propose_eq d (charged_mass FlMu) (charged_mass FlE) (1 / 40) (1 / 2) 0 0 0) as [X [Y [XY [XX [S [D [LH E]]]]]]]; try (cbn; lra).
  eexists. split; [cbn; lra|]. split; [cbn; lra|]. split; [exact E|]. cbn [ph_s1 ph_s2].
  set (x := charged_mass FlMu / t_mass d) in *. set (y := charged_mass FlE / t_mass d) in *.
  assert (EX : x = 105658374 / 10 ^ 9 * (40 / 9)) by (unfold x; cbn; field). assert (EY : y = 511 / 10 ^ 6 * (40 / 9)) by (unfold y; cbn; field).
  set (s1 := x * x + _) in *. assert (S1 : 23 / 100 < s1 < 25 / 100) by (unfold s1; rewrite EX, EY; lra).
  rewrite half_way by lra. set (s2 := - ub x y s1 / (2 * s1)).
  assert (ES : s2 * (2 * s1) = - ub x y s1) by (unfold s2; field; lra).
  assert (B2 : s2 < 1 / 10). { apply Rmult_lt_reg_r with (2 * s1); [lra|]. rewrite ES. unfold ub. rewrite EX, EY in *. nra. }
  assert (L2 : 0 <= s2). { apply Rmult_le_reg_r with (2 * s1); [lra|]. rewrite ES, Rmult_0_l. unfold ub. rewrite EX, EY in *. nra. }
  assert (SX : s2 - x * x < 0) by (rewrite EX; lra). assert (YB : 0 < y < 1 / 100) by (rewrite EY; lra). assert (XB : 45 / 100 < x < 47 / 100) by (rewrite EX; lra).
  intros h ct3 ct4 H0 C.
  assert (K2 : kallen 1 s2 (y * y) = (1 - s2 + y * y) * (1 - s2 + y * y) - 4 * (y * y)) by (unfold kallen; ring).
  assert (K1 : kallen 1 s1 (x * x) = (1 - s1 + x * x) * (1 - s1 + x * x) - 4 * (x * x)) by (unfold kallen; ring).
  assert (P2 : 0 <= kallen 1 s2 (y * y)) by (rewrite K2; nra).
  assert (P1 : 0 <= kallen 1 s1 (x * x)) by (rewrite K1; nra).
  assert (SQ : sqrt (kallen 1 s2 (y * y)) < 1 - s2 + y * y).
  { apply Rsqr_incrst_0; [unfold Rsqr; rewrite sqrt_sqrt by auto; rewrite K2; nra|apply sqrt_pos|nra]. }
  pose proof (sqrt_pos (kallen 1 s2 (y * y))) as SN. set (q := sqrt (kallen 1 s2 (y * y))) in *.
  assert (PF : 0 < prefactor3 d).
  { unfold prefactor3, fermi, c_pi. pose proof PI_RGT_0. apply Rdiv_lt_0_compat; [apply Rmult_lt_0_compat; apply pow_lt; cbn; lra|apply Rmult_lt_0_compat; [lra|apply pow_lt; auto]]. }
  assert (CO : coeffs3 d HN4 FlMu FlE = (1, 0, 0, 1, 0, 0)).
  { unfold coeffs3. cbn [t_nature d t_mixing fl_eq over_flavours fold_left]. repeat f_equal; ring. }
  unfold width3_lab, a1sq, a0sq. rewrite CO. fold x y. destruct (Rlt_dec _ 0); [lra|]. destruct (Rlt_dec _ 0); [lra|]. fold q.
  eexists. split; [reflexivity|].
  assert (QC : - (1 - s2 + y * y) < q * ct4 < 1 - s2 + y * y) by (split; nra).
  destruct (Rlt_dec 0 h).
  - replace (prefactor3 d * _) with (prefactor3 d * ((s2 - x * x) * (1 - s2 + y * y + q * ct4))) by ring.
    assert (0 < prefactor3 d * ((x * x - s2) * (1 - s2 + y * y + q * ct4))); [|nra]. apply Rmult_lt_0_compat; auto. apply Rmult_lt_0_compat; lra.
  - destruct (Rlt_dec h 0); [|lra]. replace (prefactor3 d * _) with (prefactor3 d * ((s2 - x * x) * (1 - s2 + y * y - q * ct4))) by ring.
    assert (0 < prefactor3 d * ((x * x - s2) * (1 - s2 + y * y - q * ct4))); [|nra]. apply Rmult_lt_0_compat; auto. apply Rmult_lt_0_compat; lra.
Qed.
Print Assumptions C98_flavours_refuted.

(** For an electron and an antimuon the width is the square root of a negative number at allowed points. *)
Theorem C98_nan_refuted : exists d z, 0 < t_mass d /\ charged_mass FlE + charged_mass FlMu < t_mass d /\
  propose3 d (charged_mass FlE) (charged_mass FlMu) (1 / 2) (1 / 2) 0 0 0 = Some z /\
  forall h ct3 ct4, width3_lab d HN4 h FlE FlMu (charged_mass FlE) (charged_mass FlMu) (ph_s1 z) (ph_s2 z) ct3 ct4 = None.
Proof.
  set (d := heavy_mix). exists d. destruct (propose_eq d (charged_mass FlE) (charged_mass FlMu) (1 / 2) (1 / 2) 0 0 0) as [X [Y [XY [XX [S [D [LH E]]]]]]]; try (cbn; lra).
  eexists. split; [cbn; lra|]. split; [cbn; lra|]. split; [exact E|]. cbn [ph_s1 ph_s2].
  set (x := charged_mass FlE / t_mass d) in *. set (y := charged_mass FlMu / t_mass d) in *.
  assert (EY : y = 105658374 / 10 ^ 9 * 5) by (unfold y; cbn; field). assert (EX : x = 511 / 10 ^ 6 * 5) by (unfold x; cbn; field).
  set (s1 := x * x + _) in *. assert (S1 : 11 / 100 < s1 < 12 / 100) by (unfold s1; rewrite EX, EY; lra).
  rewrite half_way by lra. set (s2 := - ub x y s1 / (2 * s1)).
  assert (ES : s2 * (2 * s1) = - ub x y s1) by (unfold s2; field; lra).
  assert (L2 : 1 / 2 < s2). { apply Rmult_lt_reg_r with (2 * s1); [lra|]. rewrite ES. unfold ub. rewrite EX, EY in *. nra. }
  assert (H2 : s2 < 9 / 10). { apply Rmult_lt_reg_r with (2 * s1); [lra|]. rewrite ES. unfold ub. rewrite EX, EY in *. nra. }
  assert (N : kallen 1 s2 (y * y) < 0).
  { replace (kallen 1 s2 (y * y)) with ((1 - s2 + y * y) * (1 - s2 + y * y) - 4 * (y * y)) by (unfold kallen; ring).
    assert (0 < 1 - s2 + y * y < 2 * y) by (rewrite EY; lra). nra. }
  intros h ct3 ct4. unfold width3_lab, a1sq. destruct (coeffs3 d HN4 FlE FlMu) as [[[[[c1 c2] c3] c4] c5] c6]. fold y. destruct (Rlt_dec _ 0); [reflexivity|contradiction].
Qed.
Print Assumptions C98_nan_refuted.

Lemma forward n v : 0 < vdot n v -> 0 < vdot n (direction v).
Proof.
  intros H. rewrite <- (direction_scale v) in H. assert (V : 0 <= vlength v) by apply vlength_nonneg.
  assert (E : vdot n (vscale (vlength v) (direction v)) = vlength v * vdot n (direction v)) by (unfold vdot; cbn; ring). rewrite E in H. apply Rnot_le_lt. intros N.
  assert (0 <= vlength v * (- vdot n (direction v))) by (apply Rmult_le_pos; lra). lra.
Qed.
Lemma head_on d m p : 0 < m -> 2 * m < t_mass d -> vx p = 0 -> p <> mkv 0 0 0 ->
  let x := m / t_mass d in
  exists k3 k4, convert3 d p (t_mass d) m m (mkph (x * x) (x * x) 0 0 0) = Some (k3, k4) /\
  0 < vdot (direction p) (direction (pp k3)) /\ 0 < vdot (direction p) (direction (pp k4)).
Proof.
  intros HA H2 PX PN x. set (M := t_mass d) in *. assert (HM : 0 < M) by lra. assert (EX : x * x = m * m / (M * M)) by (unfold x; field; lra).
  unfold convert3. cbn [ph_s1 ph_s2 ph_cos ph_phi ph_rot]. fold M.
  replace ((M * M * (1 - x * x) + m * m) / (2 * M)) with (M / 2) by (rewrite EX; field; lra).
  assert (Q : 0 < M / 2 * (M / 2) - m * m) by nra. destruct (Rlt_dec _ 0) as [?|_]; [lra|]. destruct (Rlt_dec _ 0) as [?|_]; [lra|].
  set (q := sqrt (M / 2 * (M / 2) - m * m)). assert (QP : 0 < q) by (apply sqrt_lt_R0; auto). assert (QQ : q * q = M / 2 * (M / 2) - m * m) by (apply sqrt_sqrt; lra).
  replace (M / 2 * (M / 2) - 1 / 2 * ((1 + (m * m + m * m) / (M * M) - x * x - x * x) * (M * M) - m * m - m * m)) with (- (q * q)) by (rewrite QQ, EX; field; lra).
  assert (QN : 0 < q * q) by nra. unfold cos34. destruct (Req_EM_T (q * q) 0) as [?|_]; [lra|]. replace (- (q * q) / (q * q)) with (- (1)) by (field; lra).
  cbv zeta. destruct (Rlt_dec 1 (- (1))) as [?|_]; [lra|]. destruct (Rlt_dec (- (1)) (- (1))) as [?|_]; [lra|]. destruct (Rlt_dec (1 - 0 * 0) 0) as [?|_]; [lra|]. replace (M - M) with 0 by ring. rewrite Rabs_R0.
  destruct (Rlt_dec 0 _) as [_|Z]; [|exfalso; apply Z; apply Rinv_0_lt_compat, pow_lt; lra].
  assert (SP : on_shell (p4_of p M)) by (apply p4_of_shell; lra). destruct (lab_is _ SP HM) as [l [EL BL]]. rewrite EL. clear EL. change (pp (p4_of p M)) with p in BL. change (pm (p4_of p M)) with M in BL.
  assert (NX : vx (direction p) = 0). { pose proof (direction_scale p) as DS. apply (f_equal vx) in DS. cbn in DS. rewrite PX in DS. pose proof (vlength_pos p PN). apply Rmult_integral in DS. destruct DS; lra. }
  pose proof (vlength_pos p PN) as LP.
  assert (Z3 : n3_of 0 0 = mkv 1 0 0) by (unfold n3_of; rewrite cos_0, sin_0; replace (1 - 0 * 0) with 1 by ring; rewrite sqrt_1; apply veq; cbn; ring).
  assert (Z4 : n4_of 0 0 0 (- (1)) (sqrt (1 - - (1) * - (1))) = mkv (- (1)) 0 0).
  { replace (1 - - (1) * - (1)) with 0 by ring. rewrite sqrt_0. unfold n4_of. rewrite Z3, cos_0, sin_0. apply veq; cbn; ring. }
  rewrite Z3, Z4. eexists _, _. split; [reflexivity|].
  assert (F : forall c, 0 < vdot (direction p) (pp (p4_boost l (p4_of (vscale q (mkv c 0 0)) m)))).
  { intros c. rewrite (boost_space l _ _ _ _ BL). pose proof (direction_unit p) as U. unfold unit_vec in U. unfold lorentz_space. set (e := pe (p4_of _ m)).
    assert (EP : 0 < e). { unfold e. cbn [pe p4_of]. apply sqrt_lt_R0. rewrite lsq. pose proof (vdot_nonneg (vscale q (mkv c 0 0))). nra. }
    replace (vdot (direction p) (pp (p4_of (vscale q (mkv c 0 0)) m))) with 0 by (unfold vdot; cbn; rewrite NX; ring).
    replace (vdot (direction p) _) with (vlength p / M * e * vdot (direction p) (direction p)); [rewrite U; assert (0 < vlength p / M * e) by (apply Rmult_lt_0_compat; auto; apply Rdiv_lt_0_compat; auto); lra|].
    unfold vdot. cbn. rewrite NX. ring. }
  split; apply forward, F.
Qed.

Lemma two {A B} (a a' : A) (b b' : B) : a = a' -> b = b' -> (a, b) = (a', b').
Proof. intros -> ->. reflexivity. Qed.
(** A particle mixing with the electron neutrino only. *)
Definition electron_mix := mkhnl3 (4 * charged_mass FlE) Dirac (fun f => match f with FlE => 1 | _ => 0 end).

(** Angles of the laboratory are used in a formula for the rest frame: for a moving particle the width can be negative for one helicity. *)
Theorem C98_boosted_refuted : exists d p z w, 0 < t_mass d /\ 2 * charged_mass FlE < t_mass d /\
  propose3 d (charged_mass FlE) (charged_mass FlE) 0 (1 / 2) (1 / 2) 0 0 = Some z /\
  width3 d HN4 1 p (t_mass d) FlE FlE (charged_mass FlE) (charged_mass FlE) z = Some w /\ w < 0.
Proof.
  set (d := electron_mix). set (m := charged_mass FlE). set (p := mkv 0 0 1). assert (M0 : 0 < m) by (unfold m; cbn; lra).
  assert (ED : t_mass d = 4 * m) by reflexivity. assert (HM : 0 < t_mass d) by lra.
  set (x := m / t_mass d). assert (EX : x = 1 / 4) by (unfold x; rewrite ED; field; lra).
  assert (E : propose3 d m m 0 (1 / 2) (1 / 2) 0 0 = Some (mkph (x * x) (x * x) 0 0 0)).
  { destruct (propose_eq d m m 0 (1 / 2) (1 / 2) 0 0 HM M0 (Rlt_le _ _ M0) ltac:(lra) ltac:(lra)) as [_ [_ [_ [_ [_ [_ [_ E]]]]]]]. fold x in E. rewrite E. f_equal.
    replace (x * x + ((1 - x) * (1 - x) - x * x) * 0) with (x * x) by ring. rewrite half_way by (rewrite EX; lra).
    replace (- ub x x (x * x) / (2 * (x * x))) with (x * x) by (unfold ub; rewrite EX; field).
    replace (2 * (1 / 2) - 1) with 0 by field. assert (U0 : uniform 0 (2 * c_pi) 0 = 0).
    { unfold uniform. destruct (Rlt_dec (2 * c_pi) 0) as [N|_]; [exfalso; pose proof PI_RGT_0; unfold c_pi in N; lra|ring]. }
    rewrite U0. reflexivity. }
  destruct (head_on d m p M0 ltac:(lra) eq_refl) as [k3 [k4 [EC [F3 F4]]]]; [intros Q; apply (f_equal vz) in Q; cbn in Q; lra|]. fold x in EC.
  exists d, p, (mkph (x * x) (x * x) 0 0 0).
  assert (CO : coeffs3 d HN4 FlE FlE = (g_l * g_l + (1 + g_l), g_r * g_r, g_r * (1 + g_l), g_l * g_l + (1 + g_l), g_r * g_r, g_r * (1 + g_l))).
  { unfold coeffs3. cbn [t_nature d electron_mix t_mixing fl_eq over_flavours fold_left]. repeat apply two; ring. }
  unfold width3. rewrite EC. change (pp (p4_of p (t_mass d))) with p. set (c3 := vdot _ (direction (pp k3))) in *. set (c4 := vdot _ (direction (pp k4))) in *. clearbody c3 c4.
  unfold width3_lab, a1sq, a0sq. cbn [ph_s1 ph_s2]. fold m. rewrite CO. fold x.
  assert (KA : kallen 1 (x * x) (x * x) = 3 / 4) by (unfold kallen; rewrite EX; field). rewrite KA.
  destruct (Rlt_dec (3 / 4) 0); [lra|]. destruct (Rlt_dec (3 / 4) 0); [lra|]. destruct (Rlt_dec 0 1); [|lra]. eexists.
  split; [exact HM|]. split; [lra|]. split; [exact E|]. split; [reflexivity|].
  assert (PF : 0 < prefactor3 d).
  { unfold prefactor3, fermi, c_pi. pose proof PI_RGT_0. apply Rdiv_lt_0_compat; [apply Rmult_lt_0_compat; apply pow_lt; lra|apply Rmult_lt_0_compat; [lra|apply pow_lt; auto]]. }
  pose proof (sqrt_lt_R0 (3 / 4) ltac:(lra)) as SQ. set (q := sqrt (3 / 4)) in *. clearbody q.
  replace (prefactor3 d * _) with (- (prefactor3 d * (2 * (g_r * (1 + g_l)) * x * x * (q * (c4 + c3))))) by ring.
  assert (0 < g_r * (1 + g_l)) by (unfold g_r, g_l, theta_w; lra).
  assert (0 < prefactor3 d * (2 * (g_r * (1 + g_l)) * x * x * (q * (c4 + c3)))); [|lra].
  apply Rmult_lt_0_compat; auto. apply Rmult_lt_0_compat; [rewrite EX; lra|]. apply Rmult_lt_0_compat; lra.
Qed.
Print Assumptions C98_boosted_refuted.

(** A particle of one GeV to two electrons. *)
Example C98_case : exists z wp wm, let d := mkhnl3 1 Majorana (fun _ => 1 / 100) in let m := charged_mass FlE in
  propose3 d m m (1 / 3) (1 / 2) 0 0 0 = Some z /\ width3_lab d HN4 1 FlE FlE m m (ph_s1 z) (ph_s2 z) (1 / 2) (- 1 / 3) = Some wp /\
  width3_lab d HN4 (- (1)) FlE FlE m m (ph_s1 z) (ph_s2 z) (1 / 2) (- 1 / 3) = Some wm /\ 0 <= wp + wm.
Proof.
  destruct (C98_average (mkhnl3 1 Majorana (fun _ => 1 / 100)) HN4 FlE (1 / 3) (1 / 2) 0 0 0 (1 / 2) (- 1 / 3) 1) as [z [wp [wm H]]]; try (cbn; lra).
  exists z, wp, wm. exact H.
Qed.
