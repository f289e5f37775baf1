(** Lemmas on the decays of the W and Z bosons. *)
From Coq Require Import Reals Bool List ZArith Lra Lia.
From Verif Require Import VectorModel RkModel RkSpec RkProofs RandomModel DipoleModel DipoleSpec DipoleProofs TurnModel
  TurnProofs DisModel HnlModel HnlSpec HnlProofs EwModel EwSpec.
Import ListNotations.
Open Scope R_scope.

Lemma mass_bound : forall t m, secondary_mass t = Some m -> 0 <= m /\ (~ is_top t -> m <= 4198 / 1000).
Proof.
  intros t m H. unfold is_top. destruct t as [| | |f|f|f|f|f|f|f|f|]; try discriminate H; try destruct f; cbn in H;
    injection H as <-; (split; [lra|intros N; try lra; exfalso; apply N; auto]).
Qed.

Lemma mass_known : forall t, is_fermion t -> exists m, secondary_mass t = Some m.
Proof. intros t H. destruct t as [| | |f|f|f|f|f|f|f|f|]; try contradiction H; try destruct f; cbn; eauto. Qed.

Lemma gamma_w_pos : 0 < gamma_w.
Proof.
  unfold gamma_w, gweak, w_mass, c_pi. pose proof PI_RGT_0. apply Rmult_lt_0_compat; [lra|].
  apply Rinv_0_lt_compat. lra.
Qed.

(** The coupling of the Z. *)
Definition z_unit : R := gweak ^ 2 * z_mass / (48 * PI * (1 - theta_weinberg)).

Lemma z_unit_pos : 0 < z_unit.
Proof.
  unfold z_unit, gweak, z_mass, theta_weinberg. pose proof PI_RGT_0. apply Rmult_lt_0_compat; [lra|].
  apply Rinv_0_lt_compat. apply Rmult_lt_0_compat; lra.
Qed.

Lemma z_width_eq : forall a b, z_width a b = z_unit * (2 * (a * a + b * b)).
Proof.
  intros a b. unfold z_width, z_unit, c_pi. cbn zeta. pose proof PI_RGT_0.
  assert (T : 0 < 1 - theta_weinberg) by (unfold theta_weinberg; lra).
  pose proof (sqrt_lt_R0 _ T) as S. pose proof (sqrt_sqrt _ (Rlt_le _ _ T)) as Q.
  set (r := sqrt (1 - theta_weinberg)) in *. rewrite <- Q. field. split; lra.
Qed.

Lemma family_eqb_eq : forall a b, family_eqb a b = true <-> a = b.
Proof. intros [] []; cbn; split; congruence. Qed.
Lemma etype_eqb_eq : forall a b, etype_eqb a b = true <-> a = b.
Proof.
  intros [| | |f|f|f|f|f|f|f|f|] [| | |g|g|g|g|g|g|g|g|]; cbn; try (split; congruence);
    rewrite family_eqb_eq; split; congruence.
Qed.

Lemma allowed_listed : forall p x y, (p = Wp \/ p = Wm \/ p = Zz) ->
  (In (x, y) (ew_signatures p) <-> allowed p x y).
Proof.
  intros p x y B. split.
  - intros H. destruct B as [-> | [-> | ->]]; cbn in H; decompose [or] H; try contradiction;
      match goal with E : (_, _) = _ |- _ => injection E as <- <- end;
      (split; [exact Logic.I|]); (split; [exact Logic.I|]);
      (split; [intros [C|C]; discriminate C|]); (split; [intros [C|C]; discriminate C|]);
      (split; [split; [reflexivity|split; [reflexivity|intros []; reflexivity]]|]);
      first [left; split; [discriminate|exact Logic.I]|right; repeat split].
  - intros [FX [FY [TX [TY [[C [BN L]] K]]]]].
    assert (L1 := L F1). assert (L2 := L F2). assert (L3 := L F3). clear L.
    destruct K as [[NZ K]|[-> [K ->]]].
    + destruct B as [-> | [-> | B]]; [| |contradiction].
      * destruct x as [| | |f|f|f|f|f|f|f|f|]; try contradiction K; destruct f;
          try (exfalso; apply TX; unfold is_top; auto; fail);
          destruct y as [| | |g|g|g|g|g|g|g|g|]; try contradiction FY; try (cbn in C; lia); try (cbn in BN; lia);
          destruct g; cbn in L1, L2, L3; try lia; cbn; auto 20.
      * destruct x as [| | |f|f|f|f|f|f|f|f|]; try contradiction K; destruct f;
          try (exfalso; apply TX; unfold is_top; auto; fail);
          destruct y as [| | |g|g|g|g|g|g|g|g|]; try contradiction FY; try (cbn in C; lia); try (cbn in BN; lia);
          destruct g; cbn in L1, L2, L3; try lia; cbn; auto 20.
    + destruct x as [| | |f|f|f|f|f|f|f|f|]; try contradiction K; destruct f;
        try (exfalso; apply TX; unfold is_top; auto; fail); cbn; auto 20.
Qed.

(** Above the masses of the products the width does not depend on the mass of the boson. *)
Lemma width_open : forall p m m' x y a b, secondary_mass x = Some a -> secondary_mass y = Some b ->
  a + b < m -> a + b < m' -> ew_width p m x y = ew_width p m' x y.
Proof.
  intros p m m' x y a b A B M M'. unfold ew_width. rewrite A, B.
  destruct (Rle_dec m (a + b)) as [C|_]; [lra|]. destruct (Rle_dec m' (a + b)) as [C|_]; [lra|]. reflexivity.
Qed.
Lemma width_closed : forall p m x y a b, secondary_mass x = Some a -> secondary_mass y = Some b ->
  m <= a + b -> ew_width p m x y = Some 0.
Proof.
  intros p m x y a b A B M. unfold ew_width. rewrite A, B. destruct (Rle_dec m (a + b)) as [_|C]; [reflexivity|lra].
Qed.

Lemma light : forall p x y, (p = Wp \/ p = Wm \/ p = Zz) -> In (x, y) (ew_signatures p) ->
  exists a b, secondary_mass x = Some a /\ secondary_mass y = Some b /\ 0 <= a /\ 0 <= b /\ a + b <= 8396 / 1000.
Proof.
  intros p x y B H. apply allowed_listed in H; [|exact B]. destruct H as [FX [FY [TX [TY _]]]].
  destruct (mass_known x FX) as [a A]. destruct (mass_known y FY) as [b C]. exists a, b.
  destruct (mass_bound x a A) as [A0 A1]. destruct (mass_bound y b C) as [B0 B1].
  specialize (A1 TX). specialize (B1 TY). repeat split; try assumption; lra.
Qed.

(** The width in a boson heavy enough for every product. *)
Definition bare (p x y : etype) : option R := ew_width p 9 x y.

Lemma bare_pos : forall p x y, (p = Wp \/ p = Wm \/ p = Zz) -> In (x, y) (ew_signatures p) ->
  exists w, bare p x y = Some w /\ 0 < w.
Proof.
  intros p x y B H. destruct (light p x y B H) as [a [b [A [C [_ [_ L]]]]]].
  pose proof gamma_w_pos as G. pose proof z_unit_pos as Z.
  assert (ZW : forall u v, 0 < u * u -> 0 < z_width u v).
  { intros u v U. rewrite z_width_eq. apply Rmult_lt_0_compat; [exact Z|]. pose proof (Rle_0_sqr v). unfold Rsqr in *. lra. }
  assert (QW : forall v, 0 < v -> 0 < 3 * v ^ 2 * gamma_w).
  { intros v V. apply Rmult_lt_0_compat; [|exact G]. apply Rmult_lt_0_compat; [lra|]. apply pow_lt; exact V. }
  unfold bare, ew_width. rewrite A, C. destruct (Rle_dec 9 (a + b)) as [E|_]; [lra|]. clear A C L.
  destruct B as [-> | [-> | ->]]; cbn in H; decompose [or] H; try contradiction;
    match goal with E : (_, _) = _ |- _ => injection E as <- <- end;
    cbn -[z_width pow gamma_w]; eexists; (split; [reflexivity|]);
    first [exact G|apply QW; lra|apply ZW; lra|apply Rmult_lt_0_compat; [lra|apply ZW; lra]].
Qed.

Lemma sum_ext : forall p m m' l acc, (forall x y, In (x, y) l -> ew_width p m x y = ew_width p m' x y) ->
  fold_left (fun acc s => match acc, ew_width p m (fst s) (snd s) with Some g, Some w => Some (g + w) | _, _ => None end) l acc =
  fold_left (fun acc s => match acc, ew_width p m' (fst s) (snd s) with Some g, Some w => Some (g + w) | _, _ => None end) l acc.
Proof.
  intros p m m' l. induction l as [|[x y] l IH]; intros acc H; [reflexivity|]. cbn [fold_left fst snd].
  rewrite (H x y) by (left; reflexivity). apply IH. intros a b I. apply H. right. exact I.
Qed.

Lemma sum_heavy : forall p m, (p = Wp \/ p = Wm \/ p = Zz) -> 8396 / 1000 < m ->
  ew_sum p m (ew_signatures p) = ew_sum p 9 (ew_signatures p).
Proof.
  intros p m B M. unfold ew_sum. apply sum_ext. intros x y H.
  destruct (light p x y B H) as [a [b [A [C [_ [_ L]]]]]]. apply (width_open p m 9 x y a b A C); lra.
Qed.

Lemma sum_nine : forall p, (p = Wp \/ p = Wm \/ p = Zz) ->
  ew_sum p 9 (ew_signatures p) =
  Some (match p with Zz => z_unit * (72852 / 10000) | _ => gamma_w * (3 + 3 * (199996139 / 10 ^ 8)) end).
Proof.
  intros p B. assert (D : forall a b, a + b <= 8396 / 1000 -> (if Rle_dec 9 (a + b) then true else false) = false).
  { intros a b H. destruct (Rle_dec 9 (a + b)); [lra|reflexivity]. }
  assert (W : forall x y, In (x, y) (ew_signatures p) -> ew_width p 9 x y =
    match p with
    | Wm => if pair_in x y leptons anti_nus then Some gamma_w
            else match quark_pair x y up_anti up_quarks down_quarks down_quarks with Some ud => quark_width ud | None => Some 0 end
    | Wp => if pair_in x y anti_leptons nus then Some gamma_w
            else match quark_pair x y up_quarks up_quarks down_anti down_quarks with Some ud => quark_width ud | None => Some 0 end
    | Zz => if same_place x y nus anti_nus then Some (z_width (1 / 2) 0)
            else if same_place x y leptons anti_leptons then Some (z_width (- (27) / 100) (23 / 100))
            else if same_place x y up_quarks up_anti then Some (3 * z_width (35 / 100) (- (15) / 100))
            else if same_place x y down_quarks down_anti then Some (3 * z_width (- (42) / 100) (8 / 100))
            else Some 0
    | _ => Some 0
    end).
  { intros x y H. destruct (light p x y B H) as [a [b [A [C [_ [_ L]]]]]]. unfold ew_width. rewrite A, C.
    destruct (Rle_dec 9 (a + b)) as [E|_]; [lra|]. reflexivity. }
  unfold ew_sum. destruct B as [-> | [-> | ->]];
    cbn [ew_signatures combine list_prod map app anti_leptons leptons nus anti_nus up_quarks up_anti down_quarks down_anti
      fold_left fst snd] in *;
    rewrite !W by (cbn [In]; auto 20);
    cbn -[z_width pow gamma_w Rplus Rmult Rdiv]; f_equal; rewrite ?z_width_eq; field.
Qed.
