(** Theorems about the decays of charmed mesons. *)
From Coquelicot Require Import Coquelicot.
From Coq Require Import Reals List Lra Psatz ZArith Lia Bool.
From Verif Require Import VectorModel RkModel RkSpec RkProofs RandomModel CharmModel CharmSpec CharmQuad CharmProofs CharmRun.
Import ListNotations.
Open Scope R_scope.

(** ** C129: area under the positive part of a quadratic *)

(** Outside the band in which the quadratic term is neglected the closed form is exact. *)
Theorem C129_exact : forall a2 a1 a0 lo hi, lo <= hi ->
  (a2 = 0 /\ (a1 = 0 \/ / 10 ^ 300 <= Rabs a1)) \/ / 10 ^ 12 * (Rabs a1 + Rabs a0 + 1) <= Rabs a2 ->
  positive_area (fun c => a2 * c * c + a1 * c + a0) lo hi (pos_quad a2 a1 a0 lo hi).
Proof. intros a2 a1 a0 lo hi L H. apply exact; assumption. Qed.

(** For every quadratic, on an interval of cosines, it is right up to a small part of the scale. *)
Theorem C129_close : forall a2 a1 a0 lo hi, -1 <= lo -> lo <= hi -> hi <= 1 ->
  exists v, positive_area (fun c => a2 * c * c + a1 * c + a0) lo hi v /\
  Rabs (pos_quad a2 a1 a0 lo hi - v) <= (hi - lo) * (2 * / 10 ^ 12 * (Rabs a1 + Rabs a0 + 1)).
Proof.
  intros a2 a1 a0 lo hi A B C. exists (RInt (fun c => Rmax 0 (a2 * c * c + a1 * c + a0)) lo hi). split.
  - exact (RInt_correct (V := R_CompleteNormedModule) _ lo hi (pos_ex a2 a1 a0 lo hi)).
  - rewrite <- Rabs_Ropp. replace (- (pos_quad a2 a1 a0 lo hi - _)) with
      (RInt (fun c => Rmax 0 (a2 * c * c + a1 * c + a0)) lo hi - pos_quad a2 a1 a0 lo hi) by ring.
    apply band; assumption.
Qed.

(** An empty or reversed interval has no area. *)
Theorem C129_empty : forall a2 a1 a0 lo hi, hi <= lo -> pos_quad a2 a1 a0 lo hi = 0.
Proof. intros a2 a1 a0 lo hi H. unfold pos_quad. destruct (Rle_dec hi lo); [reflexivity | contradiction]. Qed.

(** In the band the closed form is not exact, whatever the interval: a small quadratic without other terms has area zero. *)
Theorem C129_band_refuted : exists a2 a1 a0 lo hi v, lo < hi /\
  positive_area (fun c => a2 * c * c + a1 * c + a0) lo hi v /\ pos_quad a2 a1 a0 lo hi <> v /\ v = 1 /\ pos_quad a2 a1 a0 lo hi = 0.
Proof.
  assert (V : pos_quad (3 * / 10 ^ 15) 0 0 0 100000 = 0).
  { unfold pos_quad. destruct (Rle_dec 100000 0); [lra|]. destruct (Rlt_dec _ _) as [A|A].
    - destruct (Rlt_dec _ _) as [B|B].
      + destruct (Rlt_dec 0 0); lra.
      + exfalso. apply B. rewrite Rabs_R0. apply Rinv_0_lt_compat. apply pow_lt. lra.
    - exfalso. apply A. unfold quad_scale. rewrite Rabs_R0. rewrite Rabs_right by lra. lra. }
  exists (3 * / 10 ^ 15), 0, 0, 0, 100000, 1. split; [lra|]. split; [|split; [rewrite V; lra | split; [reflexivity | exact V]]].
  pose proof (pos_pos (3 * / 10 ^ 15) 0 0 0 100000 ltac:(lra)) as P.
  replace 1 with (quad_F (3 * / 10 ^ 15) 0 0 100000 - quad_F (3 * / 10 ^ 15) 0 0 0) by (unfold quad_F; field).
  apply P. intros c _. nra.
Qed.

(** Beside it: 1 - c² from -2 to 2 has the area 4/3, all of it between the roots. *)
Example C129_case : pos_quad (-1) 0 1 (-2) 2 = 4 / 3 /\
  positive_area (fun c => -1 * c * c + 0 * c + 1) (-2) 2 (4 / 3).
Proof.
  assert (V : pos_quad (-1) 0 1 (-2) 2 = 4 / 3).
  { unfold pos_quad, quad_scale. rewrite Rabs_R0, Rabs_R1. replace (Rabs (-1)) with 1 by (rewrite Rabs_left; lra).
    destruct (Rle_dec 2 (-2)); [lra|]. destruct (Rlt_dec _ _); [lra|]. destruct (Rle_dec _ 0); [lra|].
    destruct (Rle_dec 0 0); [|lra]. destruct (Rlt_dec 0 (-1)); [lra|].
    replace (0 * 0 - 4 * -1 * 1) with (Rsqr 2) by (unfold Rsqr; ring). rewrite sqrt_Rsqr by lra.
    replace (- (1 / 2) * (0 + 2)) with (-1) by field. replace (-1 / -1) with 1 by field. replace (1 / -1) with (-1) by field.
    rewrite (Rmin_right 1 (-1)), (Rmax_left 1 (-1)), (Rmax_right (-2) (-1)), (Rmin_right 2 1) by lra.
    unfold quad_seg, quad_F. destruct (Rle_dec _ _); [lra|]. field. }
  split; [exact V|]. rewrite <- V. apply C129_exact; [lra|]. right. rewrite Rabs_R0, Rabs_R1, Rabs_left by lra. lra.
Qed.

(** ** C130: the mean of the weight of the matrix element *)

(** The sampler's weight is the quadratic in the cosine of the angle between lepton and hadron. *)
Theorem C130_weight : forall mD mK ml m23 n23 n1, 0 < mD -> 0 <= mK -> 0 <= ml -> 0 < m23 -> ml <= m23 -> mK + m23 < mD ->
  unit_vec n23 -> unit_vec n1 ->
  exists k l nu, rest_products mD mK ml m23 n23 n1 = Some (k, l, nu) /\
  let v := va_of mD mK ml m23 in let c := vdot n1 n23 in
  mD * pe l * (pe nu * pe k - vdot (pp nu) (pp k)) = va_pref v * ((va_C v + va_D v * c) * (va_A v + va_B v * c)).
Proof.
  intros mD mK ml m23 n23 n1 A B C D E F U V.
  destruct (products mD mK ml m23 A B C D E (Rlt_le _ _ F) n23 n1 U V) as (k & l & nu & EQ & _).
  exists k, l, nu. split; [exact EQ|].
  pose proof (weight mD mK ml m23 C D n23 n1 U V k l nu) as W. cbv zeta in W. cbv zeta.
  rewrite <- W; [reflexivity | apply break_pos; lra | exact EQ].
Qed.

Lemma va_facts mD mK ml m23 : 0 <= mK -> 0 <= ml -> ml < m23 -> mK + m23 < mD ->
  0 < break_up mD mK m23 /\ 0 < break_up m23 ml 0 /\ 0 < va_pref (va_of mD mK ml m23).
Proof.
  intros A B C D. assert (P1 : 0 < break_up mD mK m23) by (apply break_pos; lra).
  assert (P2 : 0 < break_up m23 ml 0) by (apply break_pos; lra).
  split; [exact P1|]. split; [exact P2|]. unfold va_of. cbn [va_pref].
  assert (G : 0 < sqrt (break_up mD mK m23 * break_up mD mK m23 + m23 * m23) / m23).
  { apply Rmult_lt_0_compat; [apply sqrt_lt_R0; nra | apply Rinv_0_lt_compat; lra]. }
  set (g := sqrt _ / m23) in *. set (w := break_up m23 ml 0) in *. clearbody g w. repeat apply Rmult_lt_0_compat; lra.
Qed.

(** The quadratic of [C130_weight] and what the average works with. *)
Definition va_weight (mD mK ml m23 c : R) : R :=
  let v := va_of mD mK ml m23 in va_pref v * ((va_C v + va_D v * c) * (va_A v + va_B v * c)).
Definition va_a0 (mD mK ml m23 : R) : R := let v := va_of mD mK ml m23 in va_C v * va_A v.
Definition va_a1 (mD mK ml m23 : R) : R := let v := va_of mD mK ml m23 in va_C v * va_B v + va_D v * va_A v.
Definition va_a2 (mD mK ml m23 : R) : R := let v := va_of mD mK ml m23 in va_D v * va_B v.
Definition va_qmax (mD mK ml m23 : R) : R := me_max mD mK ml / va_pref (va_of mD mK ml m23).

Lemma mean_of mD mK ml m23 I1 I2 : 0 <= mK -> 0 <= ml -> ml < m23 -> mK + m23 < mD ->
  let a0 := va_a0 mD mK ml m23 in let a1 := va_a1 mD mK ml m23 in let a2 := va_a2 mD mK ml m23 in
  positive_area (fun c => a2 * c * c + a1 * c + a0) (-1) 1 I1 ->
  positive_area (fun c => a2 * c * c + a1 * c + (a0 - va_qmax mD mK ml m23)) (-1) 1 I2 ->
  mean_accepted (va_weight mD mK ml m23) (me_max mD mK ml) (1 / 2 * va_pref (va_of mD mK ml m23) * (I1 - I2)).
Proof.
  intros A B C D a0 a1 a2 H1 H2. destruct (va_facts mD mK ml m23 A B C D) as (P1 & P2 & PP).
  unfold mean_accepted, positive_area in *.
  replace (2 * (1 / 2 * va_pref (va_of mD mK ml m23) * (I1 - I2))) with (va_pref (va_of mD mK ml m23) * (I1 - I2)) by field.
  eapply is_RInt_ext; [|exact (is_RInt_scal _ _ _ (va_pref (va_of mD mK ml m23)) _ (is_RInt_minus _ _ _ _ _ _ H1 H2))].
  intros c _. unfold va_weight. rewrite clamp_split by (try exact PP; apply me_max_nonneg; lra).
  unfold va_qmax, a0, a1, a2, va_a0, va_a1, va_a2. generalize (va_of mD mK ml m23). intros v. cbv zeta.
  unfold scal, minus, plus, opp. cbn. unfold mult. cbn.
  match goal with |- _ * (Rmax 0 ?x + - Rmax 0 ?y) = _ * (Rmax 0 ?x' - Rmax 0 (?x' - ?t)) =>
    replace y with (x - t) by ring; replace x' with x by ring end. ring.
Qed.

Lemma average_eq mD mK ml m23 : 0 <= mK -> 0 <= ml -> ml < m23 -> mK + m23 < mD ->
  va_average mD mK ml m23 = 1 / 2 * va_pref (va_of mD mK ml m23) *
    (pos_quad (va_a2 mD mK ml m23) (va_a1 mD mK ml m23) (va_a0 mD mK ml m23) (-1) 1 -
     pos_quad (va_a2 mD mK ml m23) (va_a1 mD mK ml m23) (va_a0 mD mK ml m23 - va_qmax mD mK ml m23) (-1) 1).
Proof.
  intros A B C D. destruct (va_facts mD mK ml m23 A B C D) as (P1 & P2 & PP). unfold va_average.
  destruct (Rle_dec _ 0); [lra|]. destruct (Rle_dec _ 0); [lra|]. destruct (Rle_dec _ 0); [lra|]. reflexivity.
Qed.

(** The average is the mean of the accepted part of the weight, when neither quadratic is in the band. *)
Theorem C130_average : forall mD mK ml m23, 0 <= mK -> 0 <= ml -> ml < m23 -> mK + m23 < mD ->
  let a0 := va_a0 mD mK ml m23 in let a1 := va_a1 mD mK ml m23 in let a2 := va_a2 mD mK ml m23 in
  / 10 ^ 12 * (Rabs a1 + Rabs a0 + 1) <= Rabs a2 ->
  / 10 ^ 12 * (Rabs a1 + Rabs (a0 - va_qmax mD mK ml m23) + 1) <= Rabs a2 ->
  mean_accepted (va_weight mD mK ml m23) (me_max mD mK ml) (va_average mD mK ml m23).
Proof.
  intros mD mK ml m23 A B C D a0 a1 a2 X Y. rewrite average_eq by assumption.
  apply mean_of; try assumption; apply C129_exact; try lra; right; assumption.
Qed.

(** In every case it differs from that mean by no more than a small part of the scale. *)
Theorem C130_close : forall mD mK ml m23, 0 <= mK -> 0 <= ml -> ml < m23 -> mK + m23 < mD ->
  let a0 := va_a0 mD mK ml m23 in let a1 := va_a1 mD mK ml m23 in
  exists v, mean_accepted (va_weight mD mK ml m23) (me_max mD mK ml) v /\
  Rabs (va_average mD mK ml m23 - v) <= va_pref (va_of mD mK ml m23) *
    (2 * / 10 ^ 12 * ((Rabs a1 + Rabs a0 + 1) + (Rabs a1 + Rabs (a0 - va_qmax mD mK ml m23) + 1))).
Proof.
  intros mD mK ml m23 A B C D a0 a1. destruct (va_facts mD mK ml m23 A B C D) as (P1 & P2 & PP).
  destruct (C129_close (va_a2 mD mK ml m23) a1 a0 (-1) 1 ltac:(lra) ltac:(lra) ltac:(lra)) as (v1 & H1 & B1).
  destruct (C129_close (va_a2 mD mK ml m23) a1 (a0 - va_qmax mD mK ml m23) (-1) 1 ltac:(lra) ltac:(lra) ltac:(lra)) as (v2 & H2 & B2).
  eexists. split; [exact (mean_of mD mK ml m23 v1 v2 A B C D H1 H2)|].
  rewrite average_eq by assumption. fold a0 a1.
  set (pr := va_pref _) in *. set (q1 := pos_quad _ _ a0 _ _) in *. set (q2 := pos_quad _ _ (a0 - _) _ _) in *.
  replace (1 / 2 * pr * (q1 - q2) - 1 / 2 * pr * (v1 - v2)) with (1 / 2 * pr * ((q1 - v1) - (q2 - v2))) by ring.
  rewrite Rabs_mult, (Rabs_right (1 / 2 * pr)) by lra.
  assert (T : Rabs ((q1 - v1) - (q2 - v2)) <= Rabs (q1 - v1) + Rabs (q2 - v2)).
  { eapply Rle_trans; [apply Rabs_triang|]. rewrite Rabs_Ropp. lra. }
  set (s1 := Rabs a1 + Rabs a0 + 1) in *. set (s2 := Rabs a1 + Rabs (a0 - va_qmax mD mK ml m23) + 1) in *.
  replace (pr * (2 * / 10 ^ 12 * (s1 + s2))) with (1 / 2 * pr * ((1 - -1) * (2 * / 10 ^ 12 * s1) + (1 - -1) * (2 * / 10 ^ 12 * s2))) by field.
  apply Rmult_le_compat_l; lra.
Qed.

(** The part of the numbers for which the inner loop accepts a mass is the phase space weight over its
    ceiling, cut at one; the density is that part times the mean weight, per square of the mass. *)
Theorem C130_density : forall mD mK ml m23 va, 0 <= mK -> 0 <= ml -> ml < m23 -> mK + m23 < mD ->
  let part := Rmin 1 (break_up mD mK m23 * break_up m23 ml 0 / ps_max mD mK ml) in
  0 < ps_max mD mK ml /\
  share (fun v => ~ break_up mD mK m23 * break_up m23 ml 0 < uniform 0 1 v * ps_max mD mK ml) part /\
  q2_density mD mK ml (m23 * m23) va * (2 * m23) =
    ps_max mD mK ml * part * (if va then va_average mD mK ml m23 else 1).
Proof.
  intros mD mK ml m23 va A B C D part. destruct (va_facts mD mK ml m23 A B C D) as (P1 & P2 & _).
  assert (PS : 0 < ps_max mD mK ml).
  { unfold ps_max. apply Rmult_lt_0_compat; [apply Rmult_lt_0_compat; [lra | apply break_pos; lra] | apply break_pos; lra]. }
  set (wt := break_up mD mK m23 * break_up m23 ml 0) in *. set (M := ps_max mD mK ml) in *.
  assert (W : 0 < wt) by (apply Rmult_lt_0_compat; assumption).
  assert (X : wt / M * M = wt) by (field; lra).
  assert (Y : 0 < wt / M) by (apply Rmult_lt_0_compat; [exact W | apply Rinv_0_lt_compat; exact PS]).
  split; [exact PS|]. split.
  - exists 0, part. split; [split; [lra | unfold part; apply Rmin_glb; lra]|].
    split; [apply Rmin_l|]. split; [ring|]. intros u U. rewrite uniform01. unfold part, Rmin. set (r := wt / M) in *. split.
    + intros H G. destruct (Rle_dec 1 r); nra.
    + intros H. split; [lra|]. destruct (Rle_dec 1 r); [lra|]. apply Rnot_lt_le in H.
      apply Rmult_le_reg_r with M; lra.
  - unfold q2_density. replace (m23 * m23) with (Rsqr m23) by reflexivity. rewrite sqrt_Rsqr by lra.
    destruct (Rle_dec m23 ml); [lra|]. destruct (Rle_dec (mD - mK) m23); [lra|].
    destruct (Rle_dec _ 0); [lra|]. destruct (Rle_dec _ 0); [lra|]. fold wt M.
    assert (Z : (if Rlt_dec M wt then M else wt) = M * part).
    { unfold part, Rmin. destruct (Rlt_dec M wt), (Rle_dec 1 (wt / M)).
      - ring.
      - exfalso. apply n3. apply Rmult_le_reg_r with M; lra.
      - assert (M <= wt) by (rewrite <- X; rewrite <- (Rmult_1_l M) at 1; apply Rmult_le_compat_r; lra). lra.
      - rewrite Rmult_comm. lra. }
    rewrite Z. field. lra.
Qed.

(** Beside it: masses of D+, K0 and muon, with the lepton pair at 1 GeV. *)
Example C130_case : 0 < charm_mass K0Bar /\ 0 < charm_mass MuPlus < 1 /\ charm_mass K0Bar + 1 < charm_mass DPlus /\
  exists v, mean_accepted (va_weight (charm_mass DPlus) (charm_mass K0Bar) (charm_mass MuPlus) 1)
    (me_max (charm_mass DPlus) (charm_mass K0Bar) (charm_mass MuPlus)) v.
Proof.
  split; [cbn; lra|]. split; [cbn; lra|]. split; [cbn; lra|].
  destruct (C130_close (charm_mass DPlus) (charm_mass K0Bar) (charm_mass MuPlus) 1) as (v & H & _); try (cbn; lra).
  exists v. exact H.
Qed.

(** ** C131: the secondaries *)

(** Three secondaries have their masses and together the momentum of the meson, if it has its mass. *)
Theorem C131_conserved : forall p s0 s1 s2 mom draws out, charmed p -> In [s0; s1; s2] (charm_signatures p) ->
  Forall (fun u => 0 <= u < 1) draws -> charm_sample p [s0; s1; s2] mom (charm_mass p) draws = Some out ->
  exists k l nu mK, out = [k; l; nu] /\ mixture_mass p s0 mK /\
  three_body (sqrt (charm_mass p * charm_mass p + vdot mom mom)) mom mK (charm_mass s1) 0 k l nu.
Proof.
  intros p s0 s1 s2 mom draws out C I F E.
  assert (HM : 0 < charm_mass p) by (destruct (masses_fit p s0 s1 s2 _ C I (pick_in p s0 0)) as (M & _); exact M).
  destruct (sample_total p s0 s1 s2 mom (charm_mass p) draws out C I HM F E)
    as (u & rest & k & l & nu & m23 & ED & EO & SK & SL & SN & MK & ML & MN & R & Q & TE & TP).
  exists k, l, nu, (pick_mass p s0 u). split; [exact EO|]. split; [apply pick_in|].
  replace (charm_mass p / charm_mass p) with 1 in TE, TP by (field; lra). rewrite Rmult_1_l in TE.
  cbn [p4_of pe] in TE. rewrite lsq in TE.
  unfold three_body. rewrite <- MK, <- ML. rewrite <- MN at 1.
  split; [apply shell_mass, SK|]. split; [apply shell_mass, SL|]. split; [apply shell_mass, SN|].
  split; [exact TE|]. rewrite TP. apply veq; cbn; ring.
Qed.

(** The square of the momentum transfer that the density is taken at is the square of the drawn mass of
    the lepton pair. *)
Theorem C131_transfer : forall p s0 s1 s2 mom draws out, charmed p -> In [s0; s1; s2] (charm_signatures p) ->
  Forall (fun u => 0 <= u < 1) draws -> charm_sample p [s0; s1; s2] mom (charm_mass p) draws = Some out ->
  exists k l nu m23, out = [k; l; nu] /\ charm_mass s1 <= m23 < charm_mass p - pm k /\
  pair_square l nu = m23 * m23 /\
  let dif := p4_sub (p4_of mom (charm_mass p)) (p4_of (pp k) (pm k)) in p4_dot dif dif = m23 * m23.
Proof.
  intros p s0 s1 s2 mom draws out C I F E.
  assert (HM : 0 < charm_mass p) by (destruct (masses_fit p s0 s1 s2 _ C I (pick_in p s0 0)) as (M & _); exact M).
  destruct (sample_total p s0 s1 s2 mom (charm_mass p) draws out C I HM F E)
    as (u & rest & k & l & nu & m23 & ED & EO & SK & SL & SN & MK & ML & MN & R & Q & TE & TP).
  exists k, l, nu, m23. split; [exact EO|]. rewrite <- MK in R. split; [exact R|]. split; [exact Q|].
  replace (charm_mass p / charm_mass p) with 1 in TE, TP by (field; lra). rewrite Rmult_1_l in TE.
  assert (EK : pe (p4_of (pp k) (pm k)) = pe k).
  { destruct SK as (_ & KP & KQ). cbn [p4_of pe]. rewrite lsq, <- KQ. apply sqrt_square. exact KP. }
  cbv zeta. unfold p4_dot, p4_sub. cbn [pe pp]. rewrite EK. cbn [p4_of pp].
  replace (pe (p4_of mom (charm_mass p)) - pe k) with (pe l + pe nu) by lra.
  assert (V : vsub mom (pp k) = vadd (pp l) (pp nu)).
  { apply veq; [apply (f_equal vx) in TP | apply (f_equal vy) in TP | apply (f_equal vz) in TP]; cbn in TP |- *; lra. }
  change (pe {| pe := sqrt (charm_mass p * charm_mass p + length_squared mom); pp := mom; pm := charm_mass p |}) with (pe (p4_of mom (charm_mass p))).
  rewrite V. exact Q.
Qed.

(** The other decays leave one secondary with the momentum and the mass of the meson. *)
Theorem C131_hadrons : forall p mom mass draws, 0 <= mass ->
  exists h, charm_sample p [Hadrons] mom mass draws = Some [h] /\ on_mass mass h /\ pp h = mom.
Proof.
  intros p mom mass draws H. exists (p4_of mom mass). split; [reflexivity|]. split; [|reflexivity].
  destruct (p4_of_shell mom mass H) as (_ & A & B). split; [exact A | exact B].
Qed.

(** The mass of the record is used for the boost but not in the rest frame: energy is not conserved if it is another. *)
Theorem C131_mass_refuted : exists p secs mom mass draws k l nu, In secs (charm_signatures p) /\ 0 < mass /\
  Forall (fun u => 0 <= u < 1) draws /\ charm_sample p secs mom mass draws = Some [k; l; nu] /\
  pe k + pe l + pe nu <> sqrt (mass * mass + vdot mom mom).
Proof.
  assert (C : charmed DPlus) by (unfold charmed; cbn; tauto).
  assert (I : In [K0Bar; MuPlus; NuMu] (charm_signatures DPlus)) by (cbn; tauto).
  assert (Z : drawn (1 / 2)) by (unfold drawn; lra).
  destruct (sample_some DPlus K0Bar MuPlus NuMu (mkv 0 0 0) 2 (1 / 2) (1 / 2) (1 / 2) (1 / 2) (1 / 2) (1 / 2)
    C I ltac:(lra) Z Z Z Z Z Z) as [out E].
  assert (F : Forall drawn [1 / 2; 1 / 2; 0; 1 / 2; 1 / 2; 1 / 2; 1 / 2; 0]).
  { repeat (apply Forall_cons; [unfold drawn; lra|]). apply Forall_nil. }
  destruct (sample_total DPlus K0Bar MuPlus NuMu (mkv 0 0 0) 2 _ out C I ltac:(lra) F E)
    as (u & rest & k & l & nu & m23 & _ & EO & _ & _ & _ & _ & _ & _ & _ & _ & TE & _).
  exists DPlus, [K0Bar; MuPlus; NuMu], (mkv 0 0 0), 2, [1 / 2; 1 / 2; 0; 1 / 2; 1 / 2; 1 / 2; 1 / 2; 0], k, l, nu.
  split; [exact I|]. split; [lra|]. split; [exact F|]. split; [rewrite <- EO; exact E|].
  rewrite TE. cbn [p4_of pe charm_mass]. rewrite lsq.
  replace (2 * 2 + vdot (mkv 0 0 0) (mkv 0 0 0)) with (Rsqr 2) by (unfold Rsqr, vdot; cbn; ring).
  rewrite sqrt_Rsqr by lra. lra.
Qed.

(** Beside it: a D+ with three components of momentum decays for given numbers. *)
Example C131_case : exists k l nu, charm_sample DPlus [K0Bar; MuPlus; NuMu] (mkv 3 4 12) (charm_mass DPlus)
    [1 / 4; 1 / 2; 0; 1 / 3; 1 / 5; 2 / 3; 1 / 7; 0] = Some [k; l; nu] /\
  pe k + pe l + pe nu = sqrt (charm_mass DPlus * charm_mass DPlus + 169).
Proof.
  assert (C : charmed DPlus) by (unfold charmed; cbn; tauto).
  assert (I : In [K0Bar; MuPlus; NuMu] (charm_signatures DPlus)) by (cbn; tauto).
  destruct (sample_some DPlus K0Bar MuPlus NuMu (mkv 3 4 12) (charm_mass DPlus) (1 / 4) (1 / 2) (1 / 3) (1 / 5) (2 / 3) (1 / 7)
    C I) as [out E]; try (unfold drawn; cbn; lra).
  assert (F : Forall (fun u => 0 <= u < 1) [1 / 4; 1 / 2; 0; 1 / 3; 1 / 5; 2 / 3; 1 / 7; 0])
    by (repeat (apply Forall_cons; [lra|]); apply Forall_nil).
  destruct (C131_conserved DPlus K0Bar MuPlus NuMu (mkv 3 4 12) _ out C I F E) as (k & l & nu & mK & EO & _ & T).
  exists k, l, nu. split; [rewrite <- EO; exact E|]. destruct T as (_ & _ & _ & TE & _). rewrite TE. f_equal.
  f_equal. unfold vdot; cbn; ring.
Qed.

(** ** C132: widths and signatures *)

(** The widths of the possible signatures of a meson are positive and add up to the inverse lifetime. *)
Theorem C132_total : forall p, charmed p -> exists tau, charm_total_width p = Some (hbar / tau) /\ 0 < tau /\
  forall s, In s (charm_signatures p) -> exists w, charm_width p s = Some w /\ 0 < w.
Proof.
  intros p C. unfold charmed in C. cbn in C.
  assert (HB : 0 < hbar) by (unfold hbar; lra).
  assert (K : forall x y, 0 < x -> 0 < y -> 0 < x * hbar / y * 1).
  { intros x y X Y. rewrite Rmult_1_r. apply Rmult_lt_0_compat; [apply Rmult_lt_0_compat; assumption | apply Rinv_0_lt_compat; exact Y]. }
  assert (T : forall b y, 0 < y -> Some (0 + b * hbar / y * 1 + b * hbar / y * 1 + (1 - 2 * b) * hbar / y * 1) = Some (hbar / y)).
  { intros b y Y. f_equal. field. lra. }
  repeat (destruct C as [<-|C]; [|]); try contradiction;
    (eexists; split; [unfold charm_total_width, charm_width; cbn -[Rmult Rplus Rminus Rdiv Rinv pow hbar]; apply T; lra |
      split; [lra|]; intros s [<-|[<-|[<-|[]]]]; eexists; (split; [reflexivity | apply K; lra])]).
Qed.

(** A width exists for exactly the signatures that are possible, up to order and repetition. *)
Theorem C132_modes : forall p s w, charm_width p s = Some w ->
  charmed p /\ exists s', In s' (charm_signatures p) /\ (forall t, In t s <-> In t s') /\ charm_width p s' = Some w.
Proof.
  assert (SS : forall xs ys, same_set xs ys = true -> forall t, In t xs <-> In t ys).
  { intros xs ys H t. unfold same_set in H. apply andb_true_iff in H. destruct H as [A B].
    rewrite forallb_forall in A, B. split; intros I.
    - specialize (A t I). destruct (in_dec ctype_eq_dec t ys); [assumption | discriminate].
    - specialize (B t I). destruct (in_dec ctype_eq_dec t xs); [assumption | discriminate]. }
  intros p s w H. unfold charm_width in H.
  destruct (charm_modes p) as [[[[e mu] br] tau]|] eqn:M; [|discriminate].
  assert (C : charmed p) by (unfold charmed; destruct p; cbn in M |- *; try discriminate; tauto).
  split; [exact C|].
  assert (G : exists s', In s' [e; mu; [Hadrons]] /\ same_set s s' = true /\
    (if same_set s e then Some br else if same_set s mu then Some br else if same_set s [Hadrons] then Some (1 - 2 * br) else None) =
    (if same_set s' e then Some br else if same_set s' mu then Some br else if same_set s' [Hadrons] then Some (1 - 2 * br) else None)).
  { destruct (same_set s e) eqn:E1.
    - exists e. split; [left; reflexivity|]. split; [exact E1|]. destruct p; inversion M; subst; reflexivity.
    - destruct (same_set s mu) eqn:E2.
      + exists mu. split; [right; left; reflexivity|]. split; [exact E2|]. destruct p; inversion M; subst; reflexivity.
      + destruct (same_set s [Hadrons]) eqn:E3; [|discriminate].
        exists [Hadrons]. split; [right; right; left; reflexivity|]. split; [exact E3|]. destruct p; inversion M; subst; reflexivity. }
  destruct G as (s' & I & S & EQ). exists s'. split.
  - destruct p; inversion M; subst; exact I.
  - split; [apply SS; exact S|]. unfold charm_width. rewrite M. rewrite <- EQ. exact H.
Qed.

(** A particle that is no charmed meson has no signatures and no width of any; its total is zero. *)
Theorem C132_others : forall p s, ~ charmed p -> charm_signatures p = [] /\ charm_width p s = None /\ charm_total_width p = Some 0.
Proof.
  intros p s H. unfold charmed in H. destruct p; cbn in H; try tauto; repeat split; reflexivity.
Qed.

(** Every possible signature conserves both lepton numbers, and charge where it is fixed; none is possible twice. *)
Theorem C132_conserved : forall p s, In s (charm_signatures p) ->
  sum (map electron_number s) = 0%Z /\ sum (map muon_number s) = 0%Z /\ NoDup (charm_signatures p) /\
  ((exists cs q, map charge s = map Some cs /\ charge p = Some q /\ sum cs = q) \/ In Hadrons s).
Proof.
  intros p s I. assert (ND : NoDup (charm_signatures p)).
  { destruct p; cbn; repeat (apply NoDup_cons; [cbn; intuition discriminate|]); apply NoDup_nil. }
  assert (G : sum (map electron_number s) = 0%Z /\ sum (map muon_number s) = 0%Z /\
    ((exists cs q, map charge s = map Some cs /\ charge p = Some q /\ sum cs = q) \/ In Hadrons s)).
  { set (z := fun t => match charge t with Some z => z | None => 0%Z end).
    assert (K : (map charge s = map Some (map z s) /\ charge p = Some (sum (map z s))) \/ In Hadrons s ->
      ((exists cs q, map charge s = map Some cs /\ charge p = Some q /\ sum cs = q) \/ In Hadrons s)).
    { intros [[A B]|A]; [left; exists (map z s), (sum (map z s)); auto | right; exact A]. }
    destruct p; cbn in I; try contradiction;
      (destruct I as [<-|[<-|[<-|[]]]]; split; [reflexivity| |reflexivity| |reflexivity|]; split; try reflexivity; apply K;
       first [right; cbn; tauto | left; split; reflexivity]). }
  tauto.
Qed.

(** Antiparticles decay as the particles do. *)
Theorem C132_conjugate : forall p, charm_signatures (conjugate p) = map (map conjugate) (charm_signatures p) /\
  forall s, In s (charm_signatures p) -> charm_width (conjugate p) (map conjugate s) = charm_width p s.
Proof.
  intros p. split; [destruct p; reflexivity|]. intros s I.
  destruct p; cbn in I; try contradiction; destruct I as [<-|[<-|[<-|[]]]]; reflexivity.
Qed.

(** Types are compared as sets: two [Hadrons], which is no possible signature, have the width of one. *)
Theorem C132_repeated_refuted : exists p s w, charm_width p s = Some w /\ ~ In s (charm_signatures p) /\
  (length s = 2)%nat /\ charm_width p [Hadrons] = Some w.
Proof.
  exists D0, [Hadrons; Hadrons]. eexists. split; [reflexivity|]. split; [cbn; intuition discriminate|]. split; reflexivity.
Qed.

(** Types are compared as sets: the order that the sampler depends on is not checked. *)
Theorem C132_order_refuted : exists p s w mom draws k l nu, charm_width p s = Some w /\ ~ In s (charm_signatures p) /\
  Forall (fun u => 0 <= u < 1) draws /\ charm_sample p s mom (charm_mass p) draws = Some [k; l; nu] /\
  nth_error s 1 = Some KMinus /\ nth_error s 0 = Some EPlus /\ pm k = kstar_mass /\ pm l = charm_mass KMinus.
Proof.
  set (dr := [9 / 10; 1 / 2; 0; 1 / 2; 1 / 2; 1 / 2; 1 / 2; 0]).
  assert (HP : pick_mass D0 EPlus (9 / 10) = kstar_mass).
  { unfold pick_mass. cbn [is_ds frac_k]. rewrite uniform01, frac2. destruct (Rlt_dec _ _); [lra | reflexivity]. }
  assert (FD : Forall drawn (tl dr)) by (repeat (apply Forall_cons; [unfold drawn; lra|]); apply Forall_nil).
  destruct (lab_is (p4_of (mkv 0 0 0) (charm_mass D0))) as (b & EB & IB); [apply p4_of_shell; cbn; lra | cbn; lra|].
  assert (G : exists k l nu, me_loop 7 false (charm_mass D0) kstar_mass (charm_mass KMinus) (tl dr) = Some (k, l, nu)).
  { unfold dr. cbn [tl me_loop ps_loop]. set (mD := charm_mass D0). set (mK := kstar_mass). set (ml := charm_mass KMinus).
    assert (M1 : mD = 186484 / 100000) by reflexivity. assert (M2 : mK = 89167 / 100000) by reflexivity.
    assert (M3 : ml = 493677 / 1000000) by reflexivity. clearbody mD mK ml.
    set (m23 := ml + 0 + uniform 0 1 (1 / 2) * (mD - mK - (ml + 0))).
    assert (R : ml <= m23 < mD - mK) by (unfold m23; rewrite uniform01; lra).
    destruct (Rlt_dec _ _) as [X|X].
    { exfalso. rewrite (uniform01 0), Rmult_0_l in X.
      pose proof (break_nonneg mD mK m23 ltac:(lra)) as Y1. pose proof (break_nonneg m23 ml 0 ltac:(lra)) as Y2. nra. }
    assert (Z : drawn (1 / 2)) by (unfold drawn; lra).
    destruct (products mD mK ml m23 ltac:(lra) ltac:(lra) ltac:(lra) ltac:(lra) ltac:(lra) ltac:(lra)
              (iso_dir (1 / 2) (1 / 2)) (iso_dir (1 / 2) (1 / 2)) (iso_unit _ _ Z) (iso_unit _ _ Z))
      as (k' & l' & nu' & EQ & SK & SL & SN & _).
    rewrite EQ. destruct (Rlt_dec _ _) as [Y|Y].
    - exfalso. rewrite (uniform01 0), Rmult_0_l in Y. unfold me_weight in Y. pose proof (dot_nonneg nu' k' SN SK).
      destruct SL as (_ & PL & _). assert (0 <= mD * pe l') by (apply Rmult_le_pos; lra). nra.
    - eauto. }
  destruct G as (k & l & nu & G).
  destruct (rest_total (charm_mass D0) kstar_mass (charm_mass KMinus) (tl dr) false 7 k l nu
    ltac:(cbn; lra) ltac:(unfold kstar_mass; lra) ltac:(cbn; lra) ltac:(unfold kstar_mass; cbn; lra) FD G)
    as (m23 & _ & SK & SL & SN & MK & ML & _).
  exists D0, [EPlus; KMinus; NuE]. eexists. exists (mkv 0 0 0), dr, (p4_boost b k), (p4_boost b l), (p4_boost b nu).
  split; [reflexivity|]. split; [cbn; intuition discriminate|].
  split; [apply Forall_cons; [lra | exact FD]|].
  split.
  - unfold charm_sample, dr. cbn [length]. rewrite HP. cbn [is_ds]. unfold dr in G. cbn [tl] in G. rewrite G, EB. reflexivity.
  - split; [reflexivity|]. split; [reflexivity|].
    destruct (boost_shell b _ _ _ _ IB SK) as [_ A]. destruct (boost_shell b _ _ _ _ IB SL) as [_ B]. split; congruence.
Qed.

(** Beside it: the three signatures of a D+, with the width of the second. *)
Example C132_case : charm_signatures DPlus = [[K0Bar; EPlus; NuE]; [K0Bar; MuPlus; NuMu]; [Hadrons]] /\
  charm_width DPlus [K0Bar; MuPlus; NuMu] = Some (1407 / 10000 * hbar / (1040 * / 10 ^ 15) * 1).
Proof. split; reflexivity. Qed.

(** ** C133: mixture and normalisation *)

(** The fractions of the density are positive, add up to one, and each is the part of the numbers for
    which the sampler takes that mass; the nearest component to a mass taken is its own. *)
Theorem C133_mixture : forall p s0 s1 s2, charmed p -> In [s0; s1; s2] (charm_signatures p) ->
  Forall (fun x => 0 < snd x) (mixture p s0) /\ fold_right (fun x t => snd x + t) 0 (mixture p s0) = 1 /\
  forall m f, In (m, f) (mixture p s0) ->
    share (fun u => pick_mass p s0 u = m) f /\ nearest m (mixture p s0) (10 ^ 30) None = Some (m, f).
Proof.
  intros p s0 s1 s2 C I. destruct (mixture_fit p s0 s1 s2 C I) as [A B]. split; [exact A|]. split; [exact B|].
  intros m f M. split; [eapply pick_share; eassumption | eapply nearest_own; eassumption].
Qed.

(** The arguments of the normalisation for mesons with their own masses. *)
Definition standard (mD mK ml : R) (va : bool) : Prop :=
  exists p s0 s1 s2, charmed p /\ In [s0; s1; s2] (charm_signatures p) /\ mixture_mass p s0 mK /\
  mD = charm_mass p /\ ml = charm_mass s1 /\ va = negb (is_ds p).
(** Every cached number is the integral for standard arguments of that key. *)
Definition cache_right (romberg : (R -> R) -> R -> R -> R) (c : list (Z * R)) : Prop :=
  forall k n, cache_find k c = Some n -> exists mD mK ml va, standard mD mK ml va /\ norm_key mD mK ml va = k /\
  n = romberg (fun q2 => q2_density mD mK ml q2 va) (ml * ml) ((mD - mK) * (mD - mK)).

Lemma llround_is x z : 0 <= x -> IZR z - 1 / 2 <= x < IZR z + 1 / 2 -> llround x = z.
Proof.
  intros X H. unfold llround. destruct (Rle_dec 0 x); [|lra].
  pose proof (base_Int_part (x + 1 / 2)) as [A B].
  assert (IZR (Int_part (x + 1 / 2)) < IZR z + 1) by lra. assert (IZR z < IZR (Int_part (x + 1 / 2)) + 1) by lra.
  rewrite <- plus_IZR in *. apply lt_IZR in H0. apply lt_IZR in H1. lia.
Qed.

(** The keys of all standard arguments. *)
Definition key_table : list (R * R * R * bool * Z) :=
  [(charm_mass D0, charm_mass KMinus, charm_mass EPlus, true, 3730668355%Z);
   (charm_mass D0, kstar_mass, charm_mass EPlus, true, 3731464341%Z);
   (charm_mass D0, charm_mass KMinus, charm_mass MuPlus, true, 3730668565%Z);
   (charm_mass D0, kstar_mass, charm_mass MuPlus, true, 3731464551%Z);
   (charm_mass DPlus, charm_mass K0, charm_mass EPlus, true, 3740316229%Z);
   (charm_mass DPlus, kstar_mass, charm_mass EPlus, true, 3741104341%Z);
   (charm_mass DPlus, charm_mass K0, charm_mass MuPlus, true, 3740316439%Z);
   (charm_mass DPlus, kstar_mass, charm_mass MuPlus, true, 3741104551%Z);
   (charm_mass DsPlus, eta_mass, charm_mass EPlus, false, 3937795725%Z);
   (charm_mass DsPlus, eta_prime_mass, charm_mass EPlus, false, 3938615561%Z);
   (charm_mass DsPlus, phi_mass, charm_mass EPlus, false, 3938738923%Z);
   (charm_mass DsPlus, eta_mass, charm_mass MuPlus, false, 3937795935%Z);
   (charm_mass DsPlus, eta_prime_mass, charm_mass MuPlus, false, 3938615771%Z);
   (charm_mass DsPlus, phi_mass, charm_mass MuPlus, false, 3938739133%Z)].

Lemma key_table_right : Forall (fun x => match x with (a, b, c, v, z) => norm_key a b c v = z end) key_table.
Proof.
  unfold key_table, norm_key. repeat (apply Forall_cons; [apply llround_is; cbn [charm_mass];
    unfold kstar_mass, eta_mass, eta_prime_mass, phi_mass; lra|]). apply Forall_nil.
Qed.

Lemma standard_in mD mK ml va : standard mD mK ml va -> exists z, In (mD, mK, ml, va, z) key_table.
Proof.
  intros (p & s0 & s1 & s2 & C & I & [f M] & -> & -> & ->). unfold charmed in C. cbn in C.
  do 6 (destruct C as [<-|C]; [cbn in I; destruct I as [I|I];
    [inversion I; subst; clear I; cbn [mixture is_ds] in M; repeat (destruct M as [M|M]; [inversion M; subst;
       eexists; unfold key_table; cbn [In is_ds negb charm_mass]; repeat (first [left; reflexivity | right])|]); contradiction|];
    destruct I as [I|I]; [inversion I; subst; clear I; cbn [mixture is_ds] in M; repeat (destruct M as [M|M]; [inversion M; subst;
       eexists; unfold key_table; cbn [In is_ds negb charm_mass]; repeat (first [left; reflexivity | right])|]); contradiction|];
    destruct I as [I|I]; [discriminate|]; contradiction|]). contradiction.
Qed.

Lemma table_nodup : NoDup (map snd key_table).
Proof. unfold key_table. cbn [map snd]. repeat (apply NoDup_cons; [cbn; intuition discriminate|]). apply NoDup_nil. Qed.

(** No two standard arguments share a key. *)
Theorem C133_keys : forall mD mK ml va mD' mK' ml' va', standard mD mK ml va -> standard mD' mK' ml' va' ->
  norm_key mD mK ml va = norm_key mD' mK' ml' va' -> mD = mD' /\ mK = mK' /\ ml = ml' /\ va = va'.
Proof.
  assert (U : forall (l : list (R * R * R * bool * Z)) x y z, NoDup (map snd l) -> In (x, z) l -> In (y, z) l -> x = y).
  { induction l as [|[w t] l IH]; intros x y z N A B; [contradiction|]. cbn in N. inversion N as [|? ? NI N']; subst.
    destruct A as [A|A], B as [B|B].
    - congruence.
    - exfalso. apply NI. inversion A; subst. apply (in_map snd) in B. exact B.
    - exfalso. apply NI. inversion B; subst. apply (in_map snd) in A. exact A.
    - exact (IH x y z N' A B). }
  intros mD mK ml va mD' mK' ml' va' S S' E.
  destruct (standard_in _ _ _ _ S) as [z A]. destruct (standard_in _ _ _ _ S') as [z' B].
  pose proof key_table_right as K. rewrite Forall_forall in K.
  pose proof (K _ A) as KA. pose proof (K _ B) as KB. cbn beta iota in KA, KB.
  assert (Z : z' = z) by congruence. rewrite Z in B. pose proof (U _ _ _ _ table_nodup A B) as Q. inversion Q. tauto.
Qed.

(** So the cache answers standard arguments with their own integral, and stays right. *)
Theorem C133_cache : forall romberg c mD mK ml va, cache_right romberg c -> standard mD mK ml va ->
  fst (q2_norm romberg mD mK ml va c) = romberg (fun q2 => q2_density mD mK ml q2 va) (ml * ml) ((mD - mK) * (mD - mK)) /\
  cache_right romberg (snd (q2_norm romberg mD mK ml va c)).
Proof.
  intros rom c mD mK ml va R S. unfold q2_norm. destruct (cache_find (norm_key mD mK ml va) c) as [n|] eqn:E.
  - cbn. split; [|exact R]. destruct (R _ _ E) as (a & b & d & v & S' & K & N).
    destruct (C133_keys _ _ _ _ _ _ _ _ S' S K) as (-> & -> & -> & ->). exact N.
  - cbn. split; [reflexivity|]. intros k n H. cbn [cache_find] in H. destruct (Z.eq_dec k (norm_key mD mK ml va)) as [Q|Q].
    + inversion H; subst. exists mD, mK, ml, va. auto.
    + exact (R k n H).
Qed.

(** The density of what was sampled: the fraction of its component, times the component's density at the
    square of the drawn mass, over that component's integral. *)
Theorem C133_value : forall romberg c p s0 s1 s2 mom draws out, charmed p -> In [s0; s1; s2] (charm_signatures p) ->
  Forall (fun u => 0 <= u < 1) draws -> charm_sample p [s0; s1; s2] mom (charm_mass p) draws = Some out ->
  cache_right romberg c ->
  exists k l nu m23 f c', out = [k; l; nu] /\ In (pm k, f) (mixture p s0) /\ pair_square l nu = m23 * m23 /\ 0 < m23 /\
  cache_right romberg c' /\
  let mD := charm_mass p in let ml := charm_mass s1 in let va := negb (is_ds p) in
  let g := q2_density mD (pm k) ml (m23 * m23) va in
  let n := romberg (fun q2 => q2_density mD (pm k) ml q2 va) (ml * ml) ((mD - pm k) * (mD - pm k)) in
  exists v, charm_probability romberg p [s0; s1; s2] mom mD [pm k; pm l; pm nu] (Some (pp k)) c = Some (v, c') /\
  (0 < g -> 0 < n -> v = f * (g / n)) /\ (g <= 0 \/ n <= 0 -> v = 0).
Proof.
  intros rom c p s0 s1 s2 mom draws out C I F E R.
  assert (HM : 0 < charm_mass p) by (destruct (masses_fit p s0 s1 s2 _ C I (pick_in p s0 0)) as (M & _); exact M).
  assert (S1 : 0 < charm_mass s1) by (destruct (masses_fit p s0 s1 s2 _ C I (pick_in p s0 0)) as (_ & _ & M & _); exact M).
  destruct (sample_total p s0 s1 s2 mom (charm_mass p) draws out C I HM F E)
    as (u & rest & k0 & l0 & nu0 & m0 & ED & EO & _ & _ & _ & MK & ML & MN & _).
  destruct (C131_transfer p s0 s1 s2 mom draws out C I F E) as (k & l & nu & m23 & EO' & RG & Q & T).
  rewrite EO in EO'. inversion EO'; subst k0 l0 nu0; clear EO'.
  destruct (pick_in p s0 u) as [f M]. rewrite <- MK in M.
  pose proof (nearest_own p s0 s1 s2 (pm k) f C I M) as NE.
  assert (ST : standard (charm_mass p) (pm k) (charm_mass s1) (negb (is_ds p))).
  { exists p, s0, s1, s2. split; [exact C|]. split; [exact I|]. split; [exists f; exact M|]. auto. }
  destruct (C133_cache rom c _ _ _ _ R ST) as [V R'].
  set (g := q2_density (charm_mass p) (pm k) (charm_mass s1) (m23 * m23) (negb (is_ds p))).
  set (n := rom (fun q2 => q2_density (charm_mass p) (pm k) (charm_mass s1) q2 (negb (is_ds p))) (charm_mass s1 * charm_mass s1) ((charm_mass p - pm k) * (charm_mass p - pm k))).
  set (c1 := snd (q2_norm rom (charm_mass p) (pm k) (charm_mass s1) (negb (is_ds p)) c)) in *.
  exists k, l, nu, m23, f, (if Rle_dec g 0 then c else c1).
  split; [exact EO|]. split; [exact M|]. split; [exact Q|]. split; [lra|].
  split; [destruct (Rle_dec g 0); assumption|]. cbv zeta.
  assert (CP : charm_probability rom p [s0; s1; s2] mom (charm_mass p) [pm k; pm l; pm nu] (Some (pp k)) c =
    if Rle_dec g 0 then Some (0, c) else if Rle_dec n 0 then Some (0, c1) else Some (f * g / n, c1)).
  { unfold charm_probability. cbv zeta in T. 
    assert (X : match nearest (pm k) (mixture p s0) (10 ^ 30) None with
      | None => Some (0, c)
      | Some (m, f) =>
          let g := q2_density (charm_mass p) m (pm l) (p4_dot (p4_sub (p4_of mom (charm_mass p)) (p4_of (pp k) (pm k))) (p4_sub (p4_of mom (charm_mass p)) (p4_of (pp k) (pm k)))) (negb (is_ds p)) in
          if Rle_dec g 0 then Some (0, c)
          else
            let (n, c') := q2_norm rom (charm_mass p) m (pm l) (negb (is_ds p)) c in
            if Rle_dec n 0 then Some (0, c') else Some (f * g / n, c') end =
      if Rle_dec g 0 then Some (0, c) else if Rle_dec n 0 then Some (0, c1) else Some (f * g / n, c1)).
    { rewrite NE, T, ML. cbv zeta. fold g. destruct (Rle_dec g 0); [reflexivity|].
      unfold c1, n. rewrite <- V. destruct (q2_norm _ _ _ _ _ _) as [n' c2]. cbn [fst snd]. reflexivity. }
    rewrite <- X. destruct s0; reflexivity. }
  rewrite CP. fold g n. destruct (Rle_dec g 0) as [G|G].
  - exists 0. split; [reflexivity|]. split; [intros; lra | reflexivity].
  - destruct (Rle_dec n 0) as [N|N].
    + exists 0. split; [reflexivity|]. split; [intros; lra | reflexivity].
    + exists (f * g / n). split; [reflexivity|]. split; [intros; field; lra | intros [?|?]; lra].
Qed.

(** Masses of the record other than the table's can share a key: a D0 lighter by 0.4 MeV with the heavier hadron takes the integral of the lighter hadron. *)
Theorem C133_key_refuted : exists mD mK ml mD' mK' va, mD' <> mD /\ mK' <> mK /\ standard mD mK ml va /\
  mixture_mass D0 KMinus mK /\ mixture_mass D0 KMinus mK' /\ Rabs (mD - mD') < / 1000 /\
  forall romberg, let n := romberg (fun q2 => q2_density mD mK ml q2 va) (ml * ml) ((mD - mK) * (mD - mK)) in
  let c := snd (q2_norm romberg mD mK ml va []) in fst (q2_norm romberg mD' mK' ml va c) = n.
Proof.
  set (d := charm_mass D0 - (kstar_mass - charm_mass KMinus) / 1000).
  exists (charm_mass D0), (charm_mass KMinus), (charm_mass EPlus), d, kstar_mass, true.
  assert (K : norm_key d kstar_mass (charm_mass EPlus) true = norm_key (charm_mass D0) (charm_mass KMinus) (charm_mass EPlus) true).
  { unfold norm_key. f_equal. unfold d. field. }
  split; [unfold d, kstar_mass; cbn; lra|]. split; [unfold kstar_mass; cbn; lra|]. split.
  { exists D0, KMinus, EPlus, NuE. split; [unfold charmed; cbn; tauto|]. split; [cbn; tauto|].
    split; [exists (frac_k D0); left; reflexivity|]. auto. }
  split; [exists (frac_k D0); left; reflexivity|]. split; [exists (1 - frac_k D0); right; left; reflexivity|].
  split; [unfold d, kstar_mass; cbn [charm_mass]; rewrite Rabs_right; lra|].
  intros rom. cbv zeta. unfold q2_norm at 2. cbn [cache_find snd]. unfold q2_norm. rewrite K. cbn [cache_find].
  destruct (Z.eq_dec _ _) as [Q|Q]; [reflexivity | exfalso; apply Q; reflexivity].
Qed.

(** Beside it: the two components of a D0, and the empty cache. *)
Example C133_case : mixture D0 KMinus = [(charm_mass KMinus, frac_k D0); (kstar_mass, 1 - frac_k D0)] /\
  frac_k D0 = 341 / 558 /\ cache_right (fun _ _ _ => 1) [] /\ norm_key (charm_mass D0) kstar_mass (charm_mass MuPlus) true = 3731464551%Z.
Proof.
  split; [reflexivity|]. split; [exact frac2|]. split; [intros k n H; discriminate|].
  unfold norm_key. apply llround_is; cbn [charm_mass]; unfold kstar_mass; lra.
Qed.

Print Assumptions C129_exact.
Print Assumptions C129_close.
Print Assumptions C129_empty.
Print Assumptions C129_band_refuted.
Print Assumptions C130_weight.
Print Assumptions C130_average.
Print Assumptions C130_close.
Print Assumptions C130_density.
Print Assumptions C131_conserved.
Print Assumptions C131_transfer.
Print Assumptions C131_hadrons.
Print Assumptions C131_mass_refuted.
Print Assumptions C132_total.
Print Assumptions C132_modes.
Print Assumptions C132_others.
Print Assumptions C132_conserved.
Print Assumptions C132_conjugate.
Print Assumptions C132_repeated_refuted.
Print Assumptions C132_order_refuted.
Print Assumptions C133_mixture.
Print Assumptions C133_keys.
Print Assumptions C133_cache.
Print Assumptions C133_value.
Print Assumptions C133_key_refuted.
