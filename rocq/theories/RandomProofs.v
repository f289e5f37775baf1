(** Proofs about random draws and energies. *)
From Coquelicot Require Import Coquelicot.
From Coq Require Import Reals Lra List.
From Verif Require Import VectorModel QuatModel RandomModel RandomSpec.
Import ListNotations.
Open Scope R_scope.

(** ** Uniform and power law *)

Lemma uniform_range a b g : 0 <= g <= 1 -> Rmin a b <= uniform a b g <= Rmax a b.
Proof.
  intros Hg. unfold uniform. destruct (Rlt_dec b a).
  - rewrite Rmin_right, Rmax_left by lra. nra.
  - rewrite Rmin_left, Rmax_right by lra. nra.
Qed.

Lemma uniform_ordered a b g : a <= b -> uniform a b g = (b - a) * g + a.
Proof. intros H. unfold uniform. destruct (Rlt_dec b a); [lra|auto]. Qed.

Lemma uniform_unit g : uniform 0 1 g = g.
Proof. rewrite uniform_ordered; lra. Qed.

Lemma cpow_pos x y : 0 < x -> cpow x y = Some (Rpower x y).
Proof. intros H. unfold cpow. destruct (Rlt_dec 0 x); [auto|lra]. Qed.

Lemma pw_pos x s : 0 < Rpower x s.
Proof. apply exp_pos. Qed.
Lemma pw_up x y s : 0 < s -> 0 < x -> x < y -> Rpower x s < Rpower y s.
Proof. intros Hs Hx H. apply exp_increasing. apply Rmult_lt_compat_l; auto. now apply ln_increasing. Qed.
Lemma pw_down x y s : s < 0 -> 0 < x -> x < y -> Rpower y s < Rpower x s.
Proof. intros Hs Hx H. apply exp_increasing. pose proof (ln_increasing x y Hx H). nra. Qed.
Lemma pw_up_le x y s : 0 < s -> 0 < x -> x <= y -> Rpower x s <= Rpower y s.
Proof. intros Hs Hx [H|H]; [left; now apply pw_up|subst; lra]. Qed.
Lemma pw_down_le x y s : s < 0 -> 0 < x -> x <= y -> Rpower y s <= Rpower x s.
Proof. intros Hs Hx [H|H]; [left; now apply pw_down|subst; lra]. Qed.
Lemma pw_inv x s : 0 < x -> s <> 0 -> Rpower (Rpower x s) (1 / s) = x.
Proof. intros Hx Hs. rewrite Rpower_mult. replace (s * (1 / s)) with 1 by (field; auto). now apply Rpower_1. Qed.
Lemma pw_inv2 x s : 0 < x -> s <> 0 -> Rpower (Rpower x (1 / s)) s = x.
Proof. intros Hx Hs. rewrite Rpower_mult. replace (1 / s * s) with 1 by (field; auto). now apply Rpower_1. Qed.
Lemma div_pos s : 0 < s -> 0 < 1 / s.
Proof. intros H. apply Rdiv_lt_0_compat; lra. Qed.
Lemma div_neg s : s < 0 -> 1 / s < 0.
Proof. intros H. unfold Rdiv. rewrite Rmult_1_l. now apply Rinv_lt_0_compat. Qed.

(** The power law draw is in its range exactly when the variate it uses is at most one. *)
Lemma power_iff min max n g : 0 < min -> min < max -> n <> -1 -> 0 <= g <= 1 ->
  (exists r, power_law_draw min max n g = Some r /\ min <= r <= max) <-> uniform min max g <= 1.
Proof.
  intros Hm Hlt Hn Hg. unfold power_law_draw. destruct (Rlt_dec max min); [lra|].
  rewrite (uniform_ordered min max) by lra. rewrite !cpow_pos by lra.
  set (u := (max - min) * g + min). assert (Hu : 0 < u) by (unfold u; nra).
  set (s := n + 1). assert (Hs : s <> 0) by (unfold s; lra).
  pose proof (pw_inv min s Hm Hs) as I1. pose proof (pw_inv max s ltac:(lra) Hs) as I2.
  pose proof (pw_pos min s) as P1. pose proof (pw_pos max s) as P2.
  destruct (Rlt_dec 0 s) as [S0|S0].
  - pose proof (pw_up min max s S0 Hm Hlt) as LT.
    set (lo := Rpower min s) in *. set (hi := Rpower max s) in *.
    pose proof (div_pos s S0) as D. assert (B : lo < (hi - lo) * u + lo) by nra.
    rewrite cpow_pos by lra. split.
    + intros (r & E & _ & Hr). injection E as <-.
      destruct (Rle_dec u 1) as [|Nu]; [auto|exfalso].
      assert (Hb : hi < (hi - lo) * u + lo) by nra.
      pose proof (pw_up hi _ (1 / s) D P2 Hb). lra.
    + intros Hu1. eexists. split; [reflexivity|]. rewrite <- I1 at 1. rewrite <- I2.
      split; apply pw_up_le; auto; try lra; nra.
  - assert (S1 : s < 0) by lra. pose proof (pw_down min max s S1 Hm Hlt) as LT.
    set (lo := Rpower min s) in *. set (hi := Rpower max s) in *.
    pose proof (div_neg s S1) as D. split.
    + intros (r & E & _ & Hr). destruct (Rle_dec u 1) as [|Nu]; [auto|exfalso].
      assert (Hb : (hi - lo) * u + lo < hi) by nra. unfold cpow in E.
      destruct (Rlt_dec 0 ((hi - lo) * u + lo)) as [P|P].
      * injection E as <-. pose proof (pw_down _ hi (1 / s) D P Hb). lra.
      * destruct (Req_EM_T ((hi - lo) * u + lo) 0); [|discriminate].
        destruct (Rlt_dec 0 (1 / s)); [lra|]. destruct (Req_EM_T (1 / s) 0); [lra|discriminate].
    + intros Hu1. assert (Hb : hi <= (hi - lo) * u + lo <= lo) by nra.
      rewrite cpow_pos by lra. eexists. split; [reflexivity|]. rewrite <- I1 at 1. rewrite <- I2.
      split; apply pw_down_le; auto; lra.
Qed.

(** ** Power law energies *)

Definition energy_at (index emin emax u : R) : R :=
  if Req_EM_T index 1 then exp ((ln emax - ln emin) * u + ln emin)
  else Rpower ((1 - u) * Rpower emin (1 - index) + u * Rpower emax (1 - index)) (1 / (1 - index)).

Lemma energy_arg emin emax s u : 0 <= u <= 1 ->
  0 < (1 - u) * Rpower emin s + u * Rpower emax s.
Proof. intros Hu. pose proof (pw_pos emin s). pose proof (pw_pos emax s). nra. Qed.

Lemma sample_energy_at index emin emax u : 0 < emin -> emin < emax -> 0 <= u <= 1 ->
  sample_energy index emin emax u = Some (energy_at index emin emax u).
Proof.
  intros Hm Hlt Hu. unfold sample_energy, energy_at. destruct (Req_EM_T emin emax); [lra|].
  destruct (Req_EM_T index 1) as [E|E].
  - rewrite cpow_pos by lra. f_equal. unfold Rpower. f_equal.
    assert (L10 : 0 < ln 10) by (rewrite <- ln_1; apply ln_increasing; lra).
    assert (log10 emin < log10 emax).
    { unfold log10. apply Rmult_lt_compat_r; [now apply Rinv_0_lt_compat|]. now apply ln_increasing. }
    rewrite uniform_ordered by lra. unfold log10. field. lra.
  - rewrite uniform_unit. rewrite !cpow_pos by lra. rewrite cpow_pos by (apply energy_arg; auto). reflexivity.
Qed.

Lemma energy_onto index emin emax : 0 < emin -> emin < emax -> onto_range (energy_at index emin emax) emin emax.
Proof.
  intros Hm Hlt. pose proof (ln_increasing emin emax Hm Hlt) as HL. unfold energy_at. destruct (Req_EM_T index 1) as [E|E].
  - constructor.
    + rewrite Rmult_0_r, Rplus_0_l. apply exp_ln; lra.
    + replace ((ln emax - ln emin) * 1 + ln emin) with (ln emax) by ring. apply exp_ln; lra.
    + intros y z H0 H1 H2. apply exp_increasing. nra.
    + intros t Ht. assert (HLt : ln emin <= ln t <= ln emax).
      { split; [destruct (proj1 Ht) as [Q|Q]|destruct (proj2 Ht) as [Q|Q]]; try (subst; lra); left; apply ln_increasing; lra. }
      exists ((ln t - ln emin) / (ln emax - ln emin)). split.
      * split; [apply Rmult_le_pos; [lra|left; apply Rinv_0_lt_compat; lra]|].
        apply Rmult_le_reg_r with (ln emax - ln emin); [lra|]. unfold Rdiv. rewrite Rmult_assoc, Rinv_l by lra. lra.
      * replace ((ln emax - ln emin) * ((ln t - ln emin) / (ln emax - ln emin)) + ln emin) with (ln t) by (field; lra).
        apply exp_ln. lra.
  - set (s := 1 - index). assert (Hs : s <> 0) by (unfold s; lra). constructor.
    + replace ((1 - 0) * Rpower emin s + 0 * Rpower emax s) with (Rpower emin s) by ring. now apply pw_inv.
    + replace ((1 - 1) * Rpower emin s + 1 * Rpower emax s) with (Rpower emax s) by ring. apply pw_inv; auto; lra.
    + intros y z H0 H1 H2. pose proof (energy_arg emin emax s y ltac:(lra)). pose proof (energy_arg emin emax s z ltac:(lra)).
      destruct (Rlt_dec 0 s) as [S0|S0].
      * pose proof (pw_up emin emax s S0 Hm Hlt). apply pw_up; auto using div_pos. nra.
      * assert (S1 : s < 0) by lra. pose proof (pw_down emin emax s S1 Hm Hlt). apply pw_down; auto using div_neg. nra.
    + intros t Ht. set (a := Rpower emin s). set (b := Rpower emax s). exists ((Rpower t s - a) / (b - a)).
      assert (HB : (a <= Rpower t s <= b /\ a < b) \/ (b <= Rpower t s <= a /\ b < a)).
      { destruct (Rlt_dec 0 s) as [S0|S0].
        - left. split; [split; apply pw_up_le; lra|apply pw_up; auto].
        - right. assert (s < 0) by lra. split; [split; apply pw_down_le; lra|apply pw_down; auto]. }
      assert (NZ : b - a <> 0) by lra. split.
      * destruct HB as [[HB Hab]|[HB Hab]].
        -- split; [apply Rmult_le_pos; [lra|left; apply Rinv_0_lt_compat; lra]|].
           apply Rmult_le_reg_r with (b - a); [lra|]. unfold Rdiv. rewrite Rmult_assoc, Rinv_l by lra. lra.
        -- replace ((Rpower t s - a) / (b - a)) with ((a - Rpower t s) / (a - b)) by (field; lra).
           split; [apply Rmult_le_pos; [lra|left; apply Rinv_0_lt_compat; lra]|].
           apply Rmult_le_reg_r with (a - b); [lra|]. unfold Rdiv. rewrite Rmult_assoc, Rinv_l by lra. lra.
      * replace ((1 - (Rpower t s - a) / (b - a)) * a + (Rpower t s - a) / (b - a) * b) with (Rpower t s) by (field; auto).
        apply pw_inv; auto. lra.
Qed.

Lemma energy_in_range index emin emax u : 0 < emin -> emin < emax -> 0 <= u <= 1 -> emin <= energy_at index emin emax u <= emax.
Proof.
  intros Hm Hlt Hu. destruct (energy_onto index emin emax Hm Hlt) as [A B C _]. split.
  - destruct (proj1 Hu) as [H|H]; [rewrite <- A at 1; left; apply C; lra|subst; lra].
  - destruct (proj2 Hu) as [H|H]; [rewrite <- B at 2; left; apply C; lra|subst; rewrite B; lra].
Qed.

Lemma energy_density index emin emax : 0 < emin -> emin < emax ->
  density_from (energy_at index emin emax) (energy_pdf index emin emax) emin.
Proof.
  intros Hm Hlt u Hu. pose proof (ln_increasing emin emax Hm Hlt) as HL.
  pose proof (energy_in_range index emin emax u Hm Hlt Hu) as HR.
  unfold energy_pdf. destruct (Req_EM_T emin emax); [lra|].
  unfold energy_at in *. destruct (Req_EM_T index 1) as [E|E].
  - set (L := ln (emax / emin)).
    assert (EL : L = ln emax - ln emin).
    { unfold L, Rdiv. rewrite ln_mult, ln_Rinv; try lra. apply Rinv_0_lt_compat; lra. }
    set (b := exp ((ln emax - ln emin) * u + ln emin)) in *.
    pose proof (is_RInt_derive (fun e => (ln e - ln emin) / L) (fun e => 1 / (e * L)) emin b) as H.
    match type of H with ?A -> ?B -> _ => assert (HA : A); [|assert (HB : B)] end.
    { intros t Ht. rewrite Rmin_left, Rmax_right in Ht by lra. auto_derive; [lra|]. field. lra. }
    { intros t Ht. rewrite Rmin_left, Rmax_right in Ht by lra.
      apply (ex_derive_continuous (fun e => 1 / (e * L)) t). auto_derive. apply Rmult_integral_contrapositive_currified; lra. }
    specialize (H HA HB).
    change (is_RInt (fun e => 1 / (e * L)) emin b ((ln b - ln emin) / L - (ln emin - ln emin) / L)) in H.
    replace ((ln b - ln emin) / L - (ln emin - ln emin) / L) with u in H; [exact H|].
    unfold b. rewrite ln_exp, <- EL. field. lra.
  - set (s := 1 - index) in *. assert (Hs : s <> 0) by (unfold s; lra).
    set (lo := Rpower emin s) in *. set (hi := Rpower emax s) in *.
    assert (NZ : lo - hi <> 0).
    { unfold lo, hi. destruct (Rlt_dec 0 s); [pose proof (pw_up emin emax s ltac:(lra) Hm Hlt)|pose proof (pw_down emin emax s ltac:(lra) Hm Hlt)]; lra. }
    assert (HP : 0 < (1 - u) * lo + u * hi) by (apply energy_arg; auto).
    set (b := Rpower ((1 - u) * lo + u * hi) (1 / s)) in *.
    pose proof (is_RInt_derive (fun e => (lo - Rpower e s) / (lo - hi)) (fun e => Rpower e (- index) * (-1 + index) / (lo - hi)) emin b) as H.
    match type of H with ?A -> ?B -> _ => assert (HA : A); [|assert (HB : B)] end.
    { intros t Ht. rewrite Rmin_left, Rmax_right in Ht by lra. unfold Rpower. auto_derive; [lra|].
      replace (- index * ln t) with (s * ln t + - ln t) by (unfold s; ring). rewrite exp_plus.
      rewrite exp_Ropp, exp_ln by lra. unfold s. field. split; lra. }
    { intros t Ht. rewrite Rmin_left, Rmax_right in Ht by lra.
      apply (ex_derive_continuous (fun e => Rpower e (- index) * (-1 + index) / (lo - hi)) t).
      unfold Rpower. auto_derive. lra. }
    specialize (H HA HB).
    change (is_RInt (fun e => Rpower e (- index) * (-1 + index) / (lo - hi)) emin b
      ((lo - Rpower b s) / (lo - hi) - (lo - Rpower emin s) / (lo - hi))) in H.
    unfold b in H at 2. rewrite pw_inv2 in H by auto. fold lo in H.
    replace ((lo - ((1 - u) * lo + u * hi)) / (lo - hi) - (lo - lo) / (lo - hi)) with u in H by (field; auto).
    exact H.
Qed.

Lemma energy_pdf_pos index emin emax e : 0 < emin -> emin < emax -> 0 < e -> 0 < energy_pdf index emin emax e.
Proof.
  intros Hm Hlt He. unfold energy_pdf. destruct (Req_EM_T emin emax); [lra|]. destruct (Req_EM_T index 1).
  - assert (0 < ln (emax / emin)).
    { rewrite <- ln_1. apply ln_increasing; [lra|]. apply Rmult_lt_reg_r with emin; auto. unfold Rdiv. rewrite Rmult_assoc, Rinv_l by lra. lra. }
    apply Rdiv_lt_0_compat; [lra|]. now apply Rmult_lt_0_compat.
  - pose proof (pw_pos e (- index)). destruct (Rlt_dec 1 index) as [G|G].
    + pose proof (pw_down emin emax (1 - index) ltac:(lra) Hm Hlt). apply Rdiv_lt_0_compat; [|lra]. apply Rmult_lt_0_compat; lra.
    + pose proof (pw_up emin emax (1 - index) ltac:(lra) Hm Hlt).
      replace (Rpower e (- index) * (-1 + index) / (Rpower emin (1 - index) - Rpower emax (1 - index)))
        with (Rpower e (- index) * (1 - index) / (Rpower emax (1 - index) - Rpower emin (1 - index))) by (field; lra).
      apply Rdiv_lt_0_compat; [|lra]. apply Rmult_lt_0_compat; lra.
Qed.

(** ** Neutrinos from muons at rest *)

Lemma pidar_derive m e : m <> 0 -> is_derive (pidar_cdf m) e (pidar_pdf m e).
Proof. intros Hm. unfold pidar_cdf, pidar_pdf. auto_derive; auto. field. auto. Qed.

Lemma pidar_total m : m <> 0 -> pidar_cdf m 0 = 0 /\ pidar_cdf m (m / 2) = 1.
Proof. intros Hm. unfold pidar_cdf. split; field; auto. Qed.

Lemma pidar_pdf_pos m e : 0 < m -> 0 < e < m / 2 -> 0 < pidar_pdf m e.
Proof.
  intros Hm He. unfold pidar_pdf. rewrite Rmult_1_l. apply Rmult_lt_0_compat.
  - apply Rdiv_lt_0_compat; [apply Rmult_lt_0_compat; [lra|apply pow_lt; lra]|apply pow_lt; lra].
  - assert (e / m < 1 / 2); [|lra]. apply Rmult_lt_reg_r with m; auto. unfold Rdiv at 1. rewrite Rmult_assoc, Rinv_l by lra. lra.
Qed.

Lemma pidar_integral m a b : m <> 0 -> is_RInt (pidar_pdf m) a b (pidar_cdf m b - pidar_cdf m a).
Proof.
  intros Hm. apply (is_RInt_derive (pidar_cdf m) (pidar_pdf m)).
  - intros t _. now apply pidar_derive.
  - intros t _. apply (ex_derive_continuous (pidar_pdf m) t). unfold pidar_pdf. auto_derive; auto.
Qed.

Lemma pidar_increasing m a b : 0 < m -> 0 <= a -> a < b -> b <= m / 2 -> pidar_cdf m a < pidar_cdf m b.
Proof.
  intros Hm Ha Hab Hb. destruct (MVT_cor2 (pidar_cdf m) (pidar_pdf m) a b Hab) as (c & E & Hc).
  - intros c _. apply is_derive_Reals. apply pidar_derive. lra.
  - pose proof (pidar_pdf_pos m c Hm ltac:(lra)). assert (0 < pidar_pdf m c * (b - a)) by (apply Rmult_lt_0_compat; lra). lra.
Qed.

Lemma pidar_root m x : 0 < m -> 0 <= x <= 1 -> exists root, 0 <= root <= m / 2 /\ pidar_cdf m root = x.
Proof.
  intros Hm Hx. destruct (pidar_total m ltac:(lra)) as [T0 T1].
  destruct (IVT_gen (pidar_cdf m) 0 (m / 2) x) as (r & Hr & Er).
  - intros t. apply continuity_pt_filterlim. apply (ex_derive_continuous (pidar_cdf m) t).
    exists (pidar_pdf m t). apply pidar_derive. lra.
  - rewrite T0, T1, Rmin_left, Rmax_right by lra. lra.
  - rewrite Rmin_left, Rmax_right in Hr by lra. eauto.
Qed.

Lemma bisect_ok m tol root : 0 < m -> forall fuel lo hi e r,
  0 <= lo -> lo <= root <= hi -> hi <= m / 2 -> lo <= e <= hi ->
  bisect fuel m (pidar_cdf m root) tol lo hi e = Some r ->
  Rabs (r - root) <= tol /\ 0 <= r <= m / 2.
Proof.
  intros Hm. induction fuel as [|fuel IH]; intros lo hi e r H0 H1 H2 He; cbn [bisect];
    destruct (Rlt_dec tol (hi - lo)) as [W|W]; try discriminate;
    try (intros E; injection E as <-; split; [apply Rabs_le; lra|lra]).
  cbv zeta. set (mid := (hi + lo) / 2). assert (Hmid : lo <= mid <= hi) by (unfold mid; lra).
  destruct (Rlt_dec (pidar_cdf m mid) (pidar_cdf m root)) as [L|L]; apply IH; try lra.
  - split; [|lra]. destruct (Rle_dec mid root); [auto|]. pose proof (pidar_increasing m root mid Hm ltac:(lra) ltac:(lra) ltac:(lra)). lra.
  - split; [lra|]. destruct (Rle_dec root mid); [auto|]. pose proof (pidar_increasing m mid root Hm ltac:(lra) ltac:(lra) ltac:(lra)). lra.
Qed.

Lemma bisect_ends m target tol : forall fuel lo hi e, hi - lo <= tol * 2 ^ fuel ->
  exists r, bisect fuel m target tol lo hi e = Some r.
Proof.
  induction fuel as [|fuel IH]; intros lo hi e H; cbn [bisect]; destruct (Rlt_dec tol (hi - lo)) as [W|W]; eauto.
  - cbn in H. lra.
  - cbv zeta. cbn [pow] in H. destruct (Rlt_dec _ target); apply IH; lra.
Qed.

(** ** Metropolis *)

Lemma metropolis_range pdf emin emax : forall draws energy density,
  emin <= emax -> emin <= energy <= emax -> (forall g a, In (g, a) draws -> 0 <= g <= 1) ->
  emin <= metropolis pdf emin emax draws energy density <= emax.
Proof.
  induction draws as [|[g a] draws IH]; intros energy density Hm He Hd; cbn [metropolis]; [auto|].
  pose proof (uniform_range emin emax g (Hd g a (or_introl eq_refl))) as Hu.
  rewrite Rmin_left, Rmax_right in Hu by lra.
  assert (Hd' : forall g a, In (g, a) draws -> 0 <= g <= 1) by (intros g' a' Hin; apply (Hd g' a'); now right).
  cbv zeta. destruct (Rlt_dec 1 _); [apply IH; auto|]. destruct (Rlt_dec _ _); apply IH; auto.
Qed.

(** Starting from an energy of positive density, the density stays positive. *)
Lemma metropolis_positive pdf emin emax : forall draws energy,
  0 < pdf energy -> (forall e, 0 <= pdf e) -> (forall g a, In (g, a) draws -> 0 <= a) ->
  0 < pdf (metropolis pdf emin emax draws energy (pdf energy)).
Proof.
  induction draws as [|[g a] draws IH]; intros energy He Hp Ha; cbn [metropolis]; [auto|].
  assert (Ha' : forall g a, In (g, a) draws -> 0 <= a) by (intros g' a' Hin; apply (Ha g' a'); now right).
  specialize (Ha g a (or_introl eq_refl)). cbv zeta. rewrite uniform_unit.
  set (t := uniform emin emax g).
  assert (Q : 0 < pdf t / pdf energy -> 0 < pdf t).
  { intros Q. destruct (Hp t) as [P|P]; auto. rewrite <- P in Q. unfold Rdiv in Q. lra. }
  destruct (Rlt_dec 1 _) as [O|O]; [apply IH; auto; apply Q; lra|].
  destruct (Rlt_dec a _) as [O2|O2]; apply IH; auto. apply Q. lra.
Qed.

(** ** Moyal plus exponential *)

Lemma moyal_ok erf emin emax mu sigma A l B : error_function erf -> sigma <> 0 -> l <> 0 ->
  is_RInt (moyal_unnormed mu sigma A l B) emin emax (moyal_integral erf emin emax mu sigma A l B).
Proof.
  intros [_ Hd] Hs Hl.
  set (w := fun e => exp ((mu - e) / (2 * sigma)) / sqrt 2).
  set (F := fun e => - A * erf (w e) - B * exp (- e / l)).
  assert (S2 : sqrt 2 <> 0) by (pose proof (sqrt_lt_R0 2 ltac:(lra)); lra).
  pose proof PI_RGT_0 as HPI.
  assert (SP : sqrt PI <> 0) by (pose proof (sqrt_lt_R0 PI HPI); lra).
  replace (moyal_integral erf emin emax mu sigma A l B) with (F emax - F emin)
    by (unfold F, w, moyal_integral; cbv zeta; ring).
  apply (is_RInt_derive F (moyal_unnormed mu sigma A l B)).
  - intros e _. unfold F, moyal_unnormed. cbv zeta.
    assert (Dw : is_derive w e (- / (2 * sigma) * w e)).
    { unfold w. auto_derive; [auto|]. field_simplify; [|auto|auto]. unfold Rdiv, Rminus. field. auto. }
    assert (De : is_derive (fun e => erf (w e)) e ((- / (2 * sigma) * w e) * (2 / sqrt PI * exp (- (w e * w e))))).
    { apply (is_derive_comp erf w e _ _ (Hd (w e)) Dw). }
    assert (Dx : is_derive (fun e => B * exp (- e / l)) e (- (B / l * exp (- e / l)))).
    { auto_derive; auto. change (- e * / l) with (- e / l). field. auto. }
    pose proof (is_derive_scal (fun e => erf (w e)) e (- A) _ De) as D1.
    pose proof (is_derive_minus (fun e => - A * erf (w e)) (fun e => B * exp (- e / l)) e _ _ D1 Dx) as D.
    match type of D with is_derive _ _ ?v => assert (E : v = A / sigma * exp (- ((e - mu) / sigma + exp (- ((e - mu) / sigma))) / 2) / sqrt (2 * PI) + B / l * exp (- e / l)); [|rewrite E in D; exact D] end.
    change (- A * ((- / (2 * sigma) * w e) * (2 / sqrt PI * exp (- (w e * w e)))) - - (B / l * exp (- e / l)) =
      A / sigma * exp (- ((e - mu) / sigma + exp (- ((e - mu) / sigma))) / 2) / sqrt (2 * PI) + B / l * exp (- e / l)).
    set (x := (e - mu) / sigma).
    assert (Ew : w e = exp (- x / 2) / sqrt 2) by (unfold w, x; f_equal; f_equal; field; auto).
    assert (Eww : w e * w e = exp (- x) / 2).
    { rewrite Ew. replace (exp (- x)) with (exp (- x / 2) * exp (- x / 2)) by (rewrite <- exp_plus; f_equal; field).
      replace (exp (- x / 2) / sqrt 2 * (exp (- x / 2) / sqrt 2)) with (exp (- x / 2) * exp (- x / 2) / (sqrt 2 * sqrt 2)) by (field; auto).
      rewrite sqrt_sqrt by lra. reflexivity. }
    rewrite Eww, Ew. replace (- (x + exp (- x)) / 2) with (- x / 2 + - (exp (- x) / 2)) by field.
    rewrite exp_plus, sqrt_mult by lra. field. auto.
  - intros e _. apply (ex_derive_continuous (moyal_unnormed mu sigma A l B) e). unfold moyal_unnormed.
    auto_derive. auto.
Qed.
