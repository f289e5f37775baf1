(** Lemmas about charm production. *)
From Coq Require Import Reals List Lra Psatz Lia.
From Verif Require Import VectorModel RkModel RkSpec RkProofs RandomModel TurnModel DipoleSpec TurnProofs QkModel QkSpec.
Import ListNotations.
Open Scope R_scope.

Lemma allowed_iff xi y E M m : 0 < E -> (charm_allowed xi y E M m = true <->
  / 10 ^ 9 <= xi <= 1 /\ / 10 ^ 9 <= y /\ m <= E * (1 - y) /\ 0 < slow_q2 xi y E M charm_mass /\ (M + d0_mass) * (M + d0_mass) < slow_w2 xi y E M charm_mass /\
  let Q2 := slow_q2 xi y E M charm_mass in let pqx := (m * m + Q2 + 2 * E * E * y) / (2 * E) in 0 <= Q2 + E * E * y * y - pqx * pqx).
Proof.
  intros HE. unfold charm_allowed. set (Q2 := slow_q2 xi y E M charm_mass). set (W2 := slow_w2 xi y E M charm_mass). cbv zeta.
  replace (m * m + 2 * E * E + Q2 + 2 * E * E * (y - 1)) with (m * m + Q2 + 2 * E * E * y) by ring. set (pqx := (m * m + Q2 + 2 * E * E * y) / (2 * E)).
  replace (E * E + Q2 + E * E * (y * y - 1)) with (Q2 + E * E * y * y) by ring.
  assert (Y : y <= 1 - m / E <-> m <= E * (1 - y)). { assert (X : E * (m / E) = m) by (field; lra). split; intros H; nra. }
  destruct (Rlt_dec xi (/ 10 ^ 9)); [split; [discriminate|intros; exfalso; lra]|]. destruct (Rlt_dec 1 xi); [split; [discriminate|intros; exfalso; lra]|].
  destruct (Rlt_dec y (/ 10 ^ 9)); [split; [discriminate|intros; exfalso; lra]|]. destruct (Rlt_dec (1 - m / E) y); [split; [discriminate|intros (_ & _ & X & _); exfalso; apply Y in X; lra]|].
  destruct (Rle_dec Q2 0); [split; [discriminate|intros; exfalso; lra]|]. destruct (Rle_dec W2 _); [split; [discriminate|intros; exfalso; lra]|].
  destruct (Rlt_dec _ 0); [split; [discriminate|intros; exfalso; lra]|]. split; auto. intros _. repeat split; try lra; apply Y; lra.
Qed.

Lemma massless_energy c : ch_m1 c = 0 -> pe (ch_primary c) = vlength (ch_p c).
Proof. intros H. cbn. rewrite H. unfold vlength. f_equal. ring. Qed.
Lemma vlen_eq p : sqrt (vdot p p) = vlength p.
Proof. unfold vlength. rewrite lsq. reflexivity. Qed.
Lemma length_nonzero p : 0 < vlength p -> p <> mkv 0 0 0.
Proof. intros H Z. subst. unfold vlength, length_squared in H. cbn in H. replace (0 * 0 + 0 * 0 + 0 * 0) with 0 in H by ring. rewrite sqrt_0 in H. lra. Qed.
Lemma rest_energy m : 0 <= m -> pe (p4_of (mkv 0 0 0) m) = m.
Proof. intros H. cbn. unfold length_squared. cbn. replace (m * m + (0 * 0 + 0 * 0 + 0 * 0)) with (m * m) by ring. now apply sqrt_square. Qed.

Section One.
Variables (c : charm) (xi y u : R).
Let E := vlength (ch_p c).
Let M := ch_target c.
Let Q2 := slow_q2 xi y E M charm_mass.
Hypothesis HE : 0 < E.
Hypothesis H1 : ch_m1 c = 0.
Hypothesis H3 : 0 <= ch_m3 c.
Hypothesis HX : clear_of_x (ch_p c).
Hypothesis HA : charm_allowed xi y E M (ch_m3 c) = true.

Lemma exchanged_shape : exists q, exchanged AbsDouble c xi y u = Some q /\ pe q = E * y /\ vdot (pp q) (pp q) = Q2 + E * E * y * y /\
  vdot (ch_p c) (pp q) = (ch_m3 c * ch_m3 c + Q2 + 2 * E * E * y) / 2.
Proof.
  apply allowed_iff in HA; [|exact HE]. destruct HA as (_ & _ & _ & _ & _ & G). cbv zeta in G. fold Q2 in G. unfold exchanged. rewrite massless_energy by auto. fold E M. fold Q2. rewrite H1.
  change (sqrt (vx (ch_p c) * vx (ch_p c) + vy (ch_p c) * vy (ch_p c) + vz (ch_p c) * vz (ch_p c))) with E.
  replace (ch_m3 c * ch_m3 c - 0 * 0 + Q2 + 2 * E * E * y) with (ch_m3 c * ch_m3 c + Q2 + 2 * E * E * y) by ring. set (pqx := (ch_m3 c * ch_m3 c + Q2 + 2 * E * E * y) / (2 * E)) in *.
  destruct (Rlt_dec _ 0); [lra|]. eexists. split; [reflexivity|]. split; [reflexivity|]. split.
  - rewrite turn_square. unfold vdot. cbn. rewrite sqrt_sqrt by lra. ring.
  - rewrite turn_dot; [|apply length_nonzero, HE|exact HX]. cbn [pp vx]. fold E. unfold pqx. field. lra.
Qed.

Lemma lepton_shape q : pe q = E * y -> vdot (pp q) (pp q) = Q2 + E * E * y * y -> vdot (ch_p c) (pp q) = (ch_m3 c * ch_m3 c + Q2 + 2 * E * E * y) / 2 ->
  let l := ch_lepton c q in pp l = vsub (ch_p c) (pp q) /\ pe l = E * (1 - y) /\ pm l = ch_m3 c /\ ch_m3 c * ch_m3 c + vdot (pp l) (pp l) = (E * (1 - y)) * (E * (1 - y)).
Proof.
  intros A B C l. apply allowed_iff in HA; [|exact HE]. destruct HA as (_ & _ & Y & _).
  assert (P : pp l = vsub (ch_p c) (pp q)) by reflexivity. pose proof (dist_sq (ch_p c) (pp q)) as D. unfold distance_squared in D. rewrite <- P, B, C in D. pose proof (vlength_sq (ch_p c)) as L. fold E in L.
  assert (S : ch_m3 c * ch_m3 c + vdot (pp l) (pp l) = (E * (1 - y)) * (E * (1 - y))) by (rewrite D, <- L; nra). split; [exact P|]. split; [|split; [reflexivity|exact S]].
  unfold l, ch_lepton. cbn [p4_of pe]. rewrite lsq. change (pp (p4_sub (ch_primary c) q)) with (pp l). rewrite S. apply sqrt_square. lra.
Qed.

Lemma lepton_charged q : pe q = E * y -> vdot (pp q) (pp q) = Q2 + E * E * y * y -> vdot (ch_p c) (pp q) = (ch_m3 c * ch_m3 c + Q2 + 2 * E * E * y) / 2 ->
  charged (ch_p c) (ch_m3 c) M charm_mass xi y (pp (ch_lepton c q)) /\ hadronic (ch_p c) (ch_m3 c) M (pp (ch_lepton c q)) = slow_w2 xi y E M charm_mass.
Proof.
  intros A B C. destruct (lepton_shape q A B C) as (P & L & _ & S). pose proof (proj1 (allowed_iff xi y E M (ch_m3 c) HE) HA) as (_ & _ & Y & _).
  assert (V : vsub (ch_p c) (pp (ch_lepton c q)) = pp q) by (rewrite P; apply veq; cbn; ring). unfold charged, hadronic. rewrite vlen_eq. fold E. rewrite V, S, B, sqrt_square by lra.
  split; [split|]; unfold Q2, slow_q2, slow_w2; ring.
Qed.
End One.

Lemma charged_allowed p m M xi y k : 0 <= m -> 0 < vlength p -> / 10 ^ 9 <= xi <= 1 -> / 10 ^ 9 <= y -> charged p m M charm_mass xi y k -> 0 < 2 * M * vlength p * y * xi - charm_mass * charm_mass ->
  (M + d0_mass) * (M + d0_mass) < hadronic p m M k -> charm_allowed xi y (vlength p) M m = true.
Proof.
  intros HM HE HX HY [C1 C2] HQ HW. apply allowed_iff; auto. unfold hadronic in HW. rewrite vlen_eq in *. set (E := vlength p) in *. set (e3 := sqrt (m * m + vdot k k)) in *. pose proof (vdot_nonneg k) as VK.
  assert (S3 : e3 * e3 = m * m + vdot k k) by (apply sqrt_sqrt; nra). assert (P3 : 0 <= e3) by apply sqrt_pos. assert (E3 : e3 = E * (1 - y)) by lra.
  pose proof (vlength_sq p) as L. fold E in L. pose proof (dist_sq p k) as D. unfold distance_squared in D. set (q := vsub p k) in *. fold (slow_q2 xi y E M charm_mass) in C2, HQ. set (Q2 := slow_q2 xi y E M charm_mass) in *.
  split; [auto|]. split; [auto|]. split; [rewrite <- E3; apply Rsqr_incr_0_var; [unfold Rsqr; lra|lra]|]. split; [auto|]. split.
  - replace (slow_w2 xi y E M charm_mass) with (M * M + 2 * M * E * y - Q2) by (unfold Q2, slow_q2, slow_w2; ring). rewrite C1 in *. nra.
  - cbv zeta. rewrite C1 in C2. assert (QQ : vdot q q = Q2 + E * E * y * y) by nra. assert (PQ : vdot p q = (m * m + Q2 + 2 * E * E * y) / 2).
    { assert (K : vdot k k = vdot p p + vdot q q - 2 * vdot p q). { replace k with (vsub p q) by (unfold q; apply veq; cbn; ring). apply dist_sq. } rewrite E3 in S3. rewrite QQ in K. nra. }
    pose proof (cauchy p q) as CA. rewrite <- L, QQ, PQ in CA. set (pqx := (m * m + Q2 + 2 * E * E * y) / (2 * E)). assert (PX : E * pqx = (m * m + Q2 + 2 * E * E * y) / 2) by (unfold pqx; field; lra). rewrite <- PX in CA.
    apply Rmult_le_reg_l with (E * E); [nra|]. nra.
Qed.

Lemma fragment_sum c xi q z : 0 <= xi * ch_target c -> let (ch, x) := fragment c xi q z in pe ch + pe x = ch_target c + pe q /\ vadd (pp ch) (pp x) = pp q /\ pm ch = ch_d c /\
  pp ch = vscale z (pp q) /\ pe ch = sqrt (ch_d c * ch_d c + z * z * vdot (pp q) (pp q)).
Proof.
  intros H. unfold fragment. set (s := struck c xi q). assert (S : pp s = pp q) by (unfold s, struck; cbn; unfold vadd; destruct (pp q); cbn; f_equal; ring). assert (SE : pe s = xi * ch_target c + pe q) by (unfold s, struck; cbn [p4_add pe]; rewrite rest_energy; auto).
  rewrite S. change (sqrt (vx (pp q) * vx (pp q) + vy (pp q) * vy (pp q) + vz (pp q) * vz (pp q))) with (vlength (pp q)).
  assert (D : vscale (z * vlength (pp q)) (direction (pp q)) = vscale z (pp q)). { rewrite <- (direction_scale (pp q)) at 3. apply veq; cbn; ring. } rewrite D. set (ch := p4_of (vscale z (pp q)) (ch_d c)).
  split; [cbn [p4_sub p4_add pe spectator]; rewrite SE; ring|]. split; [cbn [p4_sub p4_add pp spectator]; rewrite S; apply veq; cbn; ring|]. split; [reflexivity|]. split; [reflexivity|].
  unfold ch. cbn [p4_of pe]. rewrite lsq. f_equal. unfold vdot. cbn. ring.
Qed.

Lemma hadronize_some c xi q zs ch x : hadronize c xi q zs = Some (ch, x) -> exists z, In z zs /\ fragment c xi q z = (ch, x) /\ 0 <= p4_dot x x.
Proof.
  induction zs as [|z zs IH]; [discriminate|]. cbn [hadronize In]. destruct (fragment c xi q z) as [ch' x'] eqn:F. destruct (Rlt_dec (p4_dot x' x') 0).
  - intros H. destruct (IH H) as (z' & I & R). eauto.
  - intros [= -> ->]. exists z. repeat split; auto. lra.
Qed.
Lemma z_step i : z_node (S i) - z_node i = 98 / 10000.
Proof. unfold z_node. rewrite S_INR. lra. Qed.
Lemma z_range i : (i < 100)%nat -> 1 / 100 <= z_node i < 99 / 100.
Proof. intros H. apply lt_INR in H. cbn [INR] in H. replace (INR 100) with 100 in H by (cbn; lra). pose proof (pos_INR i). unfold z_node. lra. Qed.
