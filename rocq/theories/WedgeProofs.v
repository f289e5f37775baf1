(** Lemmas on ranges of azimuths. *)
From Coq Require Import Reals ZArith List Bool Lra Lia Permutation Sorted.
From Verif Require Import VectorModel GeometryModel GeometrySpec EulerModel EulerProofs SolidModel SolidSpec SolidProofs WedgeModel WedgeSpec.
Import ListNotations.
Open Scope R_scope.

(** ** Angles *)
Lemma turn_nat x n : cos (x + 2 * PI * INR n) = cos x /\ sin (x + 2 * PI * INR n) = sin x.
Proof.
  replace (x + 2 * PI * INR n) with (x + 2 * INR n * PI) by ring. split; [apply cos_period|apply sin_period].
Qed.

Lemma turn x k : cos (x + 2 * PI * IZR k) = cos x /\ sin (x + 2 * PI * IZR k) = sin x.
Proof.
  destruct (Z_le_gt_dec 0 k) as [H|H].
  - rewrite <- (Z2Nat.id k H), <- INR_IZR_INZ. apply turn_nat.
  - destruct (turn_nat (x + 2 * PI * IZR k) (Z.to_nat (- k))) as [A B].
    rewrite INR_IZR_INZ, Z2Nat.id, opp_IZR in A, B by lia.
    replace (x + 2 * PI * IZR k + 2 * PI * - IZR k) with x in A, B by ring. now rewrite A, B.
Qed.

Lemma truncate_int x : exists k, truncate x = IZR k /\ (0 <= x -> IZR k <= x < IZR k + 1) /\ (x < 0 -> x <= IZR k < x + 1).
Proof.
  unfold truncate. destruct (Rlt_dec x 0) as [H|H].
  - exists (- Int_part (- x))%Z. rewrite opp_IZR. destruct (base_Int_part (- x)). split; [reflexivity|]. split; lra.
  - exists (Int_part x). destruct (base_Int_part x). split; [reflexivity|]. split; lra.
Qed.

Lemma two_pi_pos : 0 < two_pi.
Proof. unfold two_pi. pose proof PI_RGT_0. lra. Qed.

Lemma normalize_ok a : 0 <= normalize_phi a < two_pi /\ exists k, normalize_phi a = a + 2 * PI * IZR k.
Proof.
  pose proof two_pi_pos as P. unfold normalize_phi, fmod. destruct (truncate_int (a / two_pi)) as (k & E & A & B). rewrite E.
  assert (a = two_pi * (a / two_pi)) as Q by (field; lra). set (q := a / two_pi) in *.
  destruct (Rlt_dec (a - two_pi * IZR k) 0) as [H|H].
  - assert (q < 0) as N. { destruct (Rlt_le_dec q 0) as [N|N]; [assumption|]. specialize (A N). exfalso. nra. }
    specialize (B N). split; [nra|]. exists (1 - k)%Z. rewrite minus_IZR. unfold two_pi. ring.
  - destruct (Rlt_le_dec q 0) as [N|N].
    + specialize (B N). split; [nra|]. exists (- k)%Z. rewrite opp_IZR. unfold two_pi. ring.
    + specialize (A N). split; [nra|]. exists (- k)%Z. rewrite opp_IZR. unfold two_pi. ring.
Qed.

Lemma normalize_within a : 0 <= a < two_pi -> normalize_phi a = a.
Proof.
  intros H. destruct (normalize_ok a) as (R & k & E). rewrite E in R |- *. unfold two_pi in *. pose proof PI_RGT_0.
  assert (-1 < IZR k < 1) as [A B] by nra. apply (lt_IZR (-1)) in A. apply lt_IZR in B.
  assert (k = 0)%Z as -> by lia. ring.
Qed.

Lemma normalize_once a : two_pi <= a < 2 * two_pi -> normalize_phi a = a - two_pi.
Proof.
  intros H. destruct (normalize_ok a) as (R & k & E). rewrite E in R |- *. unfold two_pi in *. pose proof PI_RGT_0.
  assert (-2 < IZR k < 0) as [A B] by nra. apply (lt_IZR (-2)) in A. apply (lt_IZR _ 0) in B.
  assert (k = -1)%Z as -> by lia. ring.
Qed.

Lemma cos_one x : - two_pi < x < two_pi -> cos x = 1 -> x = 0.
Proof.
  intros H C. unfold two_pi in H. replace x with (2 * (x / 2)) in C by field. rewrite cos_2a_sin in C.
  assert (sin (x / 2) * sin (x / 2) = 0) as S by lra. apply Rsqr_0_uniq in S.
  destruct (Rtotal_order x 0) as [L|[L|L]]; [|assumption|].
  - assert (0 < sin (- (x / 2))) by (apply sin_gt_0; lra). rewrite sin_neg in *. lra.
  - assert (0 < sin (x / 2)) by (apply sin_gt_0; lra). lra.
Qed.

Lemma polar_from start x y : exists r psi, 0 <= r /\ 0 <= psi < two_pi /\ x = r * cos (start + psi) /\ y = r * sin (start + psi).
Proof.
  destruct (polar y x) as [C S]. set (r := sqrt (x * x + y * y)) in *. set (a := atan2 y x) in *.
  destruct (normalize_ok (a - start)) as (R & k & E). exists r, (normalize_phi (a - start)).
  split; [apply sqrt_pos|]. split; [exact R|]. rewrite E.
  replace (start + (a - start + 2 * PI * IZR k)) with (a + 2 * PI * IZR k) by ring.
  destruct (turn a k) as [-> ->]. now rewrite C, S.
Qed.

Lemma wedge_psi start delta r psi : 0 < r -> 0 <= psi < two_pi -> 0 < delta < two_pi ->
  (in_wedge start delta (r * cos (start + psi)) (r * sin (start + psi)) <-> psi <= delta).
Proof.
  intros R P D. split.
  - intros (s & phi & S & F & X & Y).
    assert (r * r = s * s) as E.
    { assert (r * r * (cos (start + psi) * cos (start + psi) + sin (start + psi) * sin (start + psi)) =
              s * s * (cos (start + phi) * cos (start + phi) + sin (start + phi) * sin (start + phi))) as E.
      { transitivity ((r * cos (start + psi)) * (r * cos (start + psi)) + (r * sin (start + psi)) * (r * sin (start + psi))); [ring|].
        rewrite X, Y. ring. }
      pose proof (sin2_cos2 (start + psi)) as A. pose proof (sin2_cos2 (start + phi)) as B. unfold Rsqr in A, B.
      rewrite (Rplus_comm (cos _ * _)), A in E. rewrite (Rplus_comm (cos _ * _)), B in E. lra. }
    assert (r = s) as <- by nra.
    assert (cos (start + psi) = cos (start + phi)) as C by (apply (Rmult_eq_reg_l r); lra).
    assert (sin (start + psi) = sin (start + phi)) as T by (apply (Rmult_eq_reg_l r); lra).
    assert (cos (psi - phi) = 1) as O.
    { replace (psi - phi) with ((start + psi) - (start + phi)) by ring. rewrite cos_minus, C, T.
      pose proof (sin2_cos2 (start + phi)) as A. unfold Rsqr in A. lra. }
    apply cos_one in O; lra.
  - intros L. exists r, psi. repeat split; lra.
Qed.

Lemma across_polar a r phi : across a (r * cos (a + phi)) (r * sin (a + phi)) = r * sin phi.
Proof.
  unfold across. replace phi with ((a + phi) - a) at 3 by ring. rewrite (sin_minus (a + phi) a). ring.
Qed.

Lemma along_polar a r phi : along a (r * cos (a + phi)) (r * sin (a + phi)) = r * cos phi.
Proof.
  unfold along. replace phi with ((a + phi) - a) at 3 by ring. rewrite (cos_minus (a + phi) a). ring.
Qed.

Lemma across_second start delta r psi :
  across (start + delta) (r * cos (start + psi)) (r * sin (start + psi)) = r * sin (psi - delta).
Proof. replace (start + psi) with (start + delta + (psi - delta)) by ring. apply across_polar. Qed.

(** The wedge by the sides of the two rays. *)
Definition sector (delta a b : R) : Prop :=
  (delta < PI -> 0 <= a /\ b <= 0) /\ (delta = PI -> 0 <= a) /\ (PI < delta -> 0 <= a \/ b <= 0).

Lemma sin_sign x : (0 <= x <= PI -> 0 <= sin x) /\ (0 < x < PI -> 0 < sin x) /\ (- PI < x < 0 -> sin x < 0) /\
  (PI < x < two_pi -> sin x < 0) /\ (- PI <= x <= 0 -> sin x <= 0).
Proof.
  unfold two_pi. split; [intros [A B]; now apply sin_ge_0|]. split; [intros [A B]; now apply sin_gt_0|]. split.
  - intros [A B]. assert (0 < sin (- x)) by (apply sin_gt_0; lra). rewrite sin_neg in *. lra.
  - split; [intros [A B]; apply sin_lt_0; lra|]. intros [A B].
    assert (0 <= sin (- x)) by (apply sin_ge_0; lra). rewrite sin_neg in *. lra.
Qed.

Lemma scaled r : 0 < r -> (forall v, 0 <= v -> 0 <= r * v) /\ (forall v, v < 0 -> r * v < 0) /\
  (forall v, 0 < v -> 0 < r * v) /\ (forall v, v <= 0 -> r * v <= 0).
Proof. intros R. repeat split; intros v V; nra. Qed.

Lemma wedge_sector start delta x y : 0 < delta < two_pi -> ~ (x = 0 /\ y = 0) ->
  (in_wedge start delta x y <-> sector delta (across start x y) (across (start + delta) x y)).
Proof.
  intros D N. destruct (polar_from start x y) as (r & psi & R & P & -> & ->).
  assert (0 < r) as R'. { destruct R as [R|R]; [assumption|]. exfalso. apply N. rewrite <- R. split; ring. }
  rewrite wedge_psi, across_polar, across_second by assumption. unfold sector.
  destruct (sin_sign psi) as (A1 & A2 & A3 & A4 & A5). destruct (sin_sign (psi - delta)) as (B1 & B2 & B3 & B4 & B5).
  pose proof PI_RGT_0 as PP. unfold two_pi in *.
  destruct (scaled r R') as (K1 & K2 & K3 & K4).
  split.
  - intros L. split; [|split].
    + intros S. split; [apply K1, A1; lra|apply K4, B5; lra].
    + intros S. apply K1, A1. lra.
    + intros S. destruct (Rle_dec psi PI) as [Q|Q]; [left; apply K1, A1; lra|right; apply K4, B5; lra].
  - intros (S1 & S2 & S3). destruct (Rtotal_order delta PI) as [C|[C|C]].
    + destruct (S1 C) as [U V]. destruct (Rle_dec psi delta) as [Q|Q]; [assumption|exfalso].
      destruct (Rlt_dec PI psi) as [X|X].
      * pose proof (K2 _ (A4 ltac:(lra))). lra.
      * pose proof (K3 _ (B2 ltac:(lra))). lra.
    + specialize (S2 C). destruct (Rle_dec psi delta) as [Q|Q]; [assumption|exfalso].
      pose proof (K2 _ (A4 ltac:(lra))). lra.
    + destruct (Rle_dec psi delta) as [Q|Q]; [assumption|exfalso]. destruct (S3 C) as [U|U].
      * pose proof (K2 _ (A4 ltac:(lra))). lra.
      * pose proof (K3 _ (B2 ltac:(lra))). lra.
Qed.

(** ** The test for a direction *)
Lemma sin_small x e : 0 < e -> Rabs x <= e -> Rabs (sin x) <= e.
Proof.
  intros E H. assert (forall u, 0 < u -> sin u < u) as L by (intros; now apply sin_lt_x).
  assert (forall u, 0 <= u -> Rabs (sin u) <= u) as M.
  { intros u U. destruct (Rle_lt_or_eq_dec 0 u U) as [V|<-]; [|rewrite sin_0, Rabs_R0; lra].
    destruct (Rle_dec u 1) as [W|W].
    - specialize (L u V). assert (0 <= sin u) by (apply sin_ge_0; pose proof PI2_1; lra). rewrite Rabs_right; lra.
    - pose proof (SIN_bound u). unfold Rabs. destruct (Rcase_abs (sin u)); lra. }
  destruct (Rle_dec 0 x) as [X|X].
  - rewrite (Rabs_right x) in H by lra. specialize (M x X). lra.
  - rewrite (Rabs_left x) in H by lra. specialize (M (- x) ltac:(lra)). rewrite sin_neg, Rabs_Ropp in M. lra.
Qed.

Lemma far_turn x k : 1 / 10 ^ 9 < Rabs (sin x) -> 1 / 10 ^ 9 < Rabs (x + 2 * PI * IZR k).
Proof.
  intros H. destruct (Rle_lt_dec (Rabs (x + 2 * PI * IZR k)) (1 / 10 ^ 9)) as [L|L]; [|assumption].
  apply sin_small in L; [|lra]. destruct (turn x k) as [_ E]. rewrite E in L. lra.
Qed.

Lemma range_ok x y start delta : 0 < delta < two_pi -> x * x + y * y <= 1 ->
  precision < Rabs (across start x y) -> precision < Rabs (across (start + delta) x y) ->
  (phi_in_range x y start delta = true <-> in_wedge start delta x y).
Proof.
  intros D U F0 F1. unfold precision in *.
  assert (~ (x = 0 /\ y = 0)) as N.
  { intros [-> ->]. unfold across in F0. replace (- 0 * sin start + 0 * cos start) with 0 in F0 by ring. rewrite Rabs_R0 in F0. lra. }
  destruct (polar y x) as [C S]. set (r := sqrt (x * x + y * y)) in *.
  assert (0 <= r <= 1) as [R0 R1].
  { split; [apply sqrt_pos|]. unfold r. rewrite <- sqrt_1. apply sqrt_le_1; nra. }
  assert (0 < r) as R. { destruct R0 as [R0|R0]; [assumption|]. exfalso. apply N. rewrite <- C, <- S, <- R0. split; ring. }
  unfold phi_in_range. set (a := atan2 y x) in *.
  destruct (normalize_ok a) as (P & k & E). set (phi := normalize_phi a) in *.
  destruct (normalize_ok start) as (Q & j & G). set (sp := normalize_phi start) in *.
  assert (x = r * cos (start + (phi - sp)) /\ y = r * sin (start + (phi - sp))) as [X Y].
  { replace (start + (phi - sp)) with (a + 2 * PI * IZR (k - j)) by (rewrite E, G, minus_IZR; ring).
    destruct (turn a (k - j)) as [-> ->]. now rewrite C, S. }
  rewrite X, Y in F0, F1. rewrite across_polar in F0. rewrite across_second in F1.
  assert (forall v, 1 / 10 ^ 9 < Rabs (r * v) -> 1 / 10 ^ 9 < Rabs v) as K.
  { intros v V. rewrite Rabs_mult, (Rabs_right r) in V by lra. pose proof (Rabs_pos v). nra. }
  apply K in F0, F1. clear K.
  pose proof (far_turn _ 0 F0) as A0. pose proof (far_turn _ 1 F1) as B1. pose proof (far_turn _ 0 F1) as B0.
  replace (phi - sp + 2 * PI * 0) with (phi - sp) in A0 by ring.
  replace (phi - sp - delta + 2 * PI * 0) with (phi - sp - delta) in B0 by ring.
  replace (phi - sp - delta + 2 * PI * 1) with (phi - sp - delta + two_pi) in B1 by (unfold two_pi; ring).
  assert (in_wedge start delta x y <-> (if Rle_dec sp phi then phi - sp else phi - sp + two_pi) <= delta) as W.
  { destruct (Rle_dec sp phi) as [L|L].
    - rewrite X, Y. apply wedge_psi; [assumption|lra|assumption].
    - rewrite X, Y. replace (start + (phi - sp)) with (start + (phi - sp + two_pi) + 2 * PI * IZR (-1)) by (unfold two_pi; ring).
      destruct (turn (start + (phi - sp + two_pi)) (-1)) as [-> ->]. apply wedge_psi; [assumption|lra|assumption]. }
  rewrite W. clear W X Y F0 F1 E G C S.
  set (eps := 1 / 10 ^ 9) in *. assert (0 < eps < 1) by (unfold eps; lra). clearbody eps.
  unfold Rabs in A0, B0, B1.
  destruct (Rle_dec (sp + delta) (two_pi + eps)) as [L|L].
  - destruct (Rle_dec sp phi) as [M|M].
    + destruct (Rle_dec (sp - eps) phi) as [V|V]; [|lra]. destruct (Rle_dec phi (sp + delta + eps)) as [V'|V'].
      * split; [|reflexivity]. intros _. destruct (Rcase_abs (phi - sp - delta)); lra.
      * split; [discriminate|]. intros Z. lra.
    + destruct (Rle_dec (sp - eps) phi) as [V|V]; [destruct (Rcase_abs (phi - sp)); lra|].
      split; [discriminate|]. intros Z. destruct (Rcase_abs (phi - sp - delta + two_pi)); lra.
  - rewrite (normalize_once (sp + delta)) by lra.
    destruct (Rle_dec sp phi) as [M|M].
    + destruct (Rle_dec (sp - eps) phi) as [V|V]; [|lra]. split; [|reflexivity]. intros _. lra.
    + destruct (Rle_dec (sp - eps) phi) as [V|V]; [destruct (Rcase_abs (phi - sp)); lra|].
      destruct (Rle_dec phi (sp + delta - two_pi + eps)) as [V'|V'].
      * split; [|reflexivity]. intros _. destruct (Rcase_abs (phi - sp - delta + two_pi)); lra.
      * split; [discriminate|]. intros Z. lra.
Qed.
