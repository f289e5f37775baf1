(** Properties C177 and C178: the cross section that is meant for tests. *)
From Coq Require Import Reals List Lra Psatz.
From Verif Require Import VectorModel RkModel RkSpec RkProofs RandomModel TurnModel DipoleSpec TurnProofs DummyModel DummySpec.
Import ListNotations.
Open Scope R_scope.

(** ** C177: the final state *)

Lemma energy_sq m p : 0 <= energy m p /\ energy m p * energy m p = m * m + vdot p p.
Proof. unfold energy. split; [apply sqrt_pos|]. apply sqrt_sqrt. pose proof (vdot_nonneg p). nra. Qed.
Lemma primary_energy d : pe (du_primary d) = energy (du_m1 d) (du_p d).
Proof. cbn. rewrite lsq. reflexivity. Qed.
Lemma du_target_energy d : 0 <= du_m2 d -> pe (du_target d) = du_m2 d.
Proof. intros H. cbn. unfold length_squared. cbn. replace (du_m2 d * du_m2 d + (0 * 0 + 0 * 0 + 0 * 0)) with (du_m2 d * du_m2 d) by ring. now apply sqrt_square. Qed.
Lemma product_rest m e p : product m (mkv 0 0 0) e p = m * e.
Proof. unfold product, vdot. cbn. ring. Qed.

(** C177: when there is a final state, energy and momentum are kept, the lepton is massless with its share of the energy, and both variables are the drawn ones. *)
Theorem C177_final d x y u k r : 0 < du_m2 d -> clear_of_x (du_p d) -> 0 <= y <= 1 -> dummy_final AbsDouble d x y u = Some (k, r) ->
  pm k = 0 /\ pe k = energy 0 (pp k) /\ pe k = energy (du_m1 d) (du_p d) * (1 - y) /\ pe k + pe r = energy (du_m1 d) (du_p d) + du_m2 d /\ vadd (pp k) (pp r) = du_p d /\
  bjorken (du_p d) (du_m1 d) (du_m2 d) x y (pp k).
Proof.
  intros M2 X Y. unfold dummy_final. rewrite primary_energy, du_target_energy by lra. set (E1 := energy (du_m1 d) (du_p d)).
  change (sqrt (vx (du_p d) * vx (du_p d) + vy (du_p d) * vy (du_p d) + vz (du_p d) * vz (du_p d))) with (vlength (du_p d)). set (P1 := vlength (du_p d)).
  destruct (Req_EM_T P1 0) as [|NZ]; [discriminate|]. set (pqx := _ / (2 * P1)). set (msq := _ + _ * _ * (_ - 1)). destruct (Rlt_dec msq 0) as [|G]; [discriminate|].
  rewrite sqrt_sqrt by lra. destruct (Rlt_dec (msq - pqx * pqx) 0) as [|G2]; [discriminate|]. set (w := sqrt (msq - pqx * pqx)). assert (W : w * w = msq - pqx * pqx) by (apply sqrt_sqrt; lra).
  set (a := mkp4 (E1 * y) (mkv pqx w 0) (- (1))). set (q := turn AbsDouble (du_p d) u a). intros H. assert (HK : k = p4_of (pp (p4_sub (du_primary d) q)) 0) by congruence. assert (HR : r = p4_add (du_target d) q) by congruence. clear H.
  destruct (energy_sq (du_m1 d) (du_p d)) as [N Q]. fold E1 in N, Q. pose proof (vlength_sq (du_p d)) as L. fold P1 in L.
  assert (Z : du_p d <> mkv 0 0 0). { intros Z. apply NZ. unfold P1, vlength, length_squared. rewrite Z. cbn. replace (0 * 0 + 0 * 0 + 0 * 0) with 0 by ring. apply sqrt_0. }
  assert (QQ : vdot (pp q) (pp q) = msq). { unfold q. rewrite turn_square. unfold a, vdot. cbn. lra. }
  assert (QP : vdot (du_p d) (pp q) = P1 * pqx). { unfold q. rewrite turn_dot by auto. reflexivity. }
  assert (PX : 2 * (P1 * pqx) = du_m1 d * du_m1 d + 0 * 0 + 2 * P1 * P1 + 2 * E1 * du_m2 d * x * y + 2 * E1 * E1 * (y - 1)) by (unfold pqx; field; auto).
  assert (SK : pp (p4_sub (du_primary d) q) = vsub (du_p d) (pp q)) by reflexivity. set (kv := vsub (du_p d) (pp q)) in *.
  assert (KK : vdot kv kv = (E1 * (1 - y)) * (E1 * (1 - y))). { pose proof (dist_sq (du_p d) (pp q)) as D. unfold distance_squared in D. fold kv in D. rewrite D, QQ, QP. unfold msq. nra. }
  assert (EK : energy 0 kv = E1 * (1 - y)). { unfold energy. rewrite KK. replace (0 * 0 + E1 * (1 - y) * (E1 * (1 - y))) with (E1 * (1 - y) * (E1 * (1 - y))) by ring. apply sqrt_square. nra. }
  assert (PK : pe (p4_of (pp (p4_sub (du_primary d) q)) 0) = energy 0 kv). { cbn [p4_of pe]. rewrite SK, lsq. reflexivity. }
  assert (PPK : pp k = kv) by (rewrite HK; exact SK). rewrite <- HK in PK. rewrite PPK. split; [rewrite HK; reflexivity|]. split; [exact PK|]. split; [rewrite <- EK; exact PK|]. split; [|split].
  - rewrite PK, EK, HR. cbn [p4_add pe]. rewrite du_target_energy by lra. change (pe q) with (E1 * y). ring.
  - rewrite HR. unfold kv. cbn [p4_add pp du_target p4_of]. apply veq; cbn; ring.
  - unfold bjorken. fold E1. rewrite EK, !product_rest. split; [ring|]. unfold product.
    assert (V : vsub (du_p d) kv = pp q) by (unfold kv; apply veq; cbn; ring). rewrite V, QQ. unfold msq. nra.
Qed.
Print Assumptions C177_final.

(** C177: and there is a final state for all values that some lepton can have. *)
Theorem C177_complete d x y u k : 0 < du_m2 d -> du_p d <> mkv 0 0 0 -> bjorken (du_p d) (du_m1 d) (du_m2 d) x y k -> exists l r, dummy_final AbsDouble d x y u = Some (l, r).
Proof.
  intros M2 Z [B1 B2]. rewrite !product_rest in B1. rewrite product_rest in B2. unfold product in B2. unfold dummy_final. rewrite primary_energy, du_target_energy by lra. set (E1 := energy (du_m1 d) (du_p d)) in *. set (E3 := energy 0 k) in *.
  change (sqrt (vx (du_p d) * vx (du_p d) + vy (du_p d) * vy (du_p d) + vz (du_p d) * vz (du_p d))) with (vlength (du_p d)). pose proof (vlength_pos _ Z) as L1. pose proof (vlength_sq (du_p d)) as L. set (P1 := vlength (du_p d)) in *.
  destruct (energy_sq (du_m1 d) (du_p d)) as [N Q]. fold E1 in N, Q. destruct (energy_sq 0 k) as [N3 Q3]. fold E3 in N3, Q3. set (q := vsub (du_p d) k) in *.
  assert (EQ : E1 - E3 = E1 * y) by (apply Rmult_eq_reg_l with (du_m2 d); lra). rewrite EQ in B2.
  destruct (Req_EM_T P1 0); [lra|]. set (pqx := _ / (2 * P1)). set (msq := _ + _ * _ * (_ - 1)).
  assert (MS : msq = vdot q q) by (unfold msq; nra). assert (K : vdot k k = vdot (du_p d) (du_p d) + vdot q q - 2 * vdot (du_p d) q). { replace k with (vsub (du_p d) q) by (unfold q; apply veq; cbn; ring). apply dist_sq. }
  assert (PX : P1 * pqx = vdot (du_p d) q). { unfold pqx. assert (P1 * ((du_m1 d * du_m1 d + 0 * 0 + 2 * P1 * P1 + 2 * E1 * du_m2 d * x * y + 2 * E1 * E1 * (y - 1)) / (2 * P1)) = (du_m1 d * du_m1 d + 0 * 0 + 2 * P1 * P1 + 2 * E1 * du_m2 d * x * y + 2 * E1 * E1 * (y - 1)) / 2) as -> by (field; auto). replace E3 with (E1 * (1 - y)) in Q3 by lra. nra. }
  pose proof (vdot_nonneg q) as VQ. destruct (Rlt_dec msq 0); [lra|]. rewrite sqrt_sqrt by lra. destruct (Rlt_dec (msq - pqx * pqx) 0) as [C|]; [|eauto]. exfalso.
  pose proof (cauchy (du_p d) q) as S. rewrite <- PX, <- L, <- MS in S. assert (0 < P1 * P1) by nra. assert (P1 * P1 * (msq - pqx * pqx) < 0) by nra. nra.
Qed.
Print Assumptions C177_complete.

Lemma unit_energy : energy 0 (mkv 0 1 0) = 1.
Proof. unfold energy, vdot. cbn. replace (0 * 0 + (0 * 0 + 1 * 1 + 0 * 0)) with 1 by ring. apply sqrt_1. Qed.

(** Finding (C177): the two variables are drawn from the whole unit square, of which kinematics allow only a part; outside it the momenta are NaN. *)
Theorem C177_square_refuted : exists d x y, 0 < du_m2 d /\ du_p d <> mkv 0 0 0 /\ 0 <= x < 1 /\ 0 <= y < 1 /\ forall u, dummy_final AbsDouble d (uniform 0 1 x) (uniform 0 1 y) u = None.
Proof.
  exists (mkdummy (mkv 0 1 0) 0 1), (9 / 10), (9 / 10). split; [cbn; lra|]. split; [cbn; intros X; injection X; lra|]. split; [lra|]. split; [lra|]. intros u.
  assert (U : uniform 0 1 (9 / 10) = 9 / 10). { unfold uniform. destruct (Rlt_dec 1 0); lra. } rewrite U.
  unfold dummy_final. rewrite primary_energy, du_target_energy by (cbn; lra). cbn [du_p du_m1 du_m2 vx vy vz]. rewrite unit_energy. replace (0 * 0 + 1 * 1 + 0 * 0) with 1 by ring. rewrite sqrt_1.
  destruct (Req_EM_T 1 0); auto. destruct (Rlt_dec _ 0); auto. rewrite sqrt_sqrt by lra. destruct (Rlt_dec _ 0) as [|C]; auto. exfalso. apply C. lra.
Qed.
Print Assumptions C177_square_refuted.

(** Half of the energy goes to the target. *)
Example C177_case u : exists k r, dummy_final AbsDouble (mkdummy (mkv 0 1 0) 0 1) (1 / 2) (1 / 2) u = Some (k, r) /\ pe k = 1 / 2 /\ pe r = 3 / 2.
Proof.
  assert (E : exists k r, dummy_final AbsDouble (mkdummy (mkv 0 1 0) 0 1) (1 / 2) (1 / 2) u = Some (k, r)).
  { unfold dummy_final. rewrite primary_energy, du_target_energy by (cbn; lra). cbn [du_p du_m1 du_m2 vx vy vz]. rewrite unit_energy. replace (0 * 0 + 1 * 1 + 0 * 0) with 1 by ring. rewrite sqrt_1.
    destruct (Req_EM_T 1 0); [lra|]. destruct (Rlt_dec _ 0); [lra|]. rewrite sqrt_sqrt by lra. destruct (Rlt_dec _ 0); [lra|]. eauto. }
  destruct E as (k & r & E). exists k, r. split; auto. destruct (C177_final (mkdummy (mkv 0 1 0) 0 1) (1 / 2) (1 / 2) u k r) as (_ & _ & A & B & _); cbn [du_m2 du_p du_m1]; auto; try lra.
  - right. unfold vlen, vdot. cbn. replace (0 * 0 + 1 * 1 + 0 * 0) with 1 by ring. rewrite sqrt_1. lra.
  - cbn [du_p du_m1 du_m2] in A, B. rewrite unit_energy in A, B. lra.
Qed.

(** ** C178: cross section and signatures *)

(** C178: at 10^5 GeV and one gram of 6.0221415e23 particles per cubic centimetre a thousand kilometres are one interaction length; the cross section is proportional to the energy, and the final state has probability one. *)
Theorem C178_length : dummy_total (10 ^ 5) * (60221415 * 10 ^ 16) * (10 ^ 6 * 100) = 1 /\ (forall k E, dummy_total (k * E) = k * dummy_total E) /\ (forall E, E <> 0 -> dummy_probability E = 1).
Proof.
  split; [unfold dummy_total; field|]. split; [intros k E; unfold dummy_total; field|]. intros E H. unfold dummy_probability, dummy_differential.
  assert (N : dummy_total E <> 0). { unfold dummy_total. replace (1 / (1 * (10 ^ 6 * 100) * (60221415 * 10 ^ 16)) * E / 10 ^ 5) with (/ (10 ^ 6 * 100 * (60221415 * 10 ^ 16) * 10 ^ 5) * E) by field. apply Rmult_integral_contrapositive_currified; auto. apply Rinv_neq_0_compat. lra. }
  destruct (Req_EM_T (dummy_total E) 0); [contradiction|]. now field.
Qed.
Print Assumptions C178_length.

(** C178: the signatures are those of a neutrino on a nucleon that both come out again, each once. *)
Theorem C178_signatures s : (In s dummy_signatures <-> In (dg_primary s) dummy_primaries /\ dg_target s = Nucleon /\ dg_secondaries s = [dg_primary s; Nucleon]) /\ NoDup dummy_signatures.
Proof.
  split; [split|].
  - intros I. cbn in I. repeat (destruct I as [<- | I]; [cbn; tauto|]). destruct I.
  - destruct s as [p t l]. cbn [dg_primary dg_target dg_secondaries]. intros (I & -> & ->). cbn in I |- *. repeat (destruct I as [<- | I]; [tauto|]). destruct I.
  - unfold dummy_signatures. cbn. repeat (constructor; [cbn; intros X; repeat (destruct X as [X|X]; [discriminate|]); exact X|]). constructor.
Qed.
Print Assumptions C178_signatures.

(** C178: for a nucleon the signatures of a pair of parents are those with the two. *)
Theorem C178_parents p t s : t = Nucleon -> (In s (dummy_from_parents p t) <-> In s dummy_signatures /\ dg_primary s = p /\ dg_target s = t).
Proof.
  intros ->. unfold dummy_from_parents. rewrite filter_In. destruct (ptype_eq (dg_primary s) p) as [E|E]; split; try tauto; try (intros [_ X]; discriminate).
  intros [I _]. split; auto. split; auto. now apply (proj1 (C178_signatures s)).
Qed.
Print Assumptions C178_parents.

(** Finding (C178): the target is not compared, so signatures with a nucleon are given for any other target. *)
Theorem C178_target_refuted : exists p t s, ~ In t dummy_targets /\ In s (dummy_from_parents p t) /\ dg_target s <> t.
Proof. exists NuE, (OtherType 0), (mkdsig NuE Nucleon [NuE; Nucleon]). split; [intros [X|[]]; discriminate|]. split; [left; reflexivity|discriminate]. Qed.
Print Assumptions C178_target_refuted.

Example C178_case : dummy_from_parents NuMu Nucleon = [mkdsig NuMu Nucleon [NuMu; Nucleon]].
Proof. reflexivity. Qed.
