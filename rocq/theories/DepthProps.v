(** C28 to C31: column depths, interaction depths and distances for depths. *)
From Coquelicot Require Import Coquelicot.
From Coq Require Import Reals Lra Lia List Bool ZArith Permutation Sorted.
From Verif Require Import TraversalModel TraversalSpec TraversalProps VectorModel QuatModel PolyModel DensityModel DensityProofs DensityProps DepthModel DepthSpec DepthProofs DepthMain.
From Verif Require QuatPlace.
Import ListNotations.
Open Scope R_scope.

(** ** C28: column depth *)

(** The column depth between two points is 100 times the line integral of the density of
    the highest sector, whatever point of the line the crossings were computed from and in
    whichever direction. *)
Theorem C28_depth : forall media dens g l ss a b p0 p1,
  (forall h, lawful (l_direction l) (dens h) (media h)) -> sees l ss a b -> describes l ss dens g ->
  on l a b p0 -> on l a b p1 ->
  exists I, column_depth media l p0 p1 = Ok (Some (100 * I)) /\ along g p0 p1 I.
Proof. exact column_ok. Qed.
Print Assumptions C28_depth.

Theorem C28_additive : forall media dens g l ss a b p0 p1 t,
  (forall h, lawful (l_direction l) (dens h) (media h)) -> sees l ss a b -> describes l ss dens g ->
  on l a b p0 -> on l a b p1 -> 0 <= t <= 1 ->
  let m := vadd p0 (vscale t (vsub p1 p0)) in
  exists X Y, column_depth media l p0 m = Ok (Some X) /\ column_depth media l m p1 = Ok (Some Y) /\
    column_depth media l p0 p1 = Ok (Some (X + Y)).
Proof.
  intros media dens g l ss a b p0 p1 t Hm Hs Hd H0 H1 Ht m.
  assert (Hon : on l a b m) by (apply on_between; auto).
  destruct (column_ok media dens g l ss a b p0 m Hm Hs Hd H0 Hon) as (I & E1 & A1).
  destruct (column_ok media dens g l ss a b m p1 Hm Hs Hd Hon H1) as (J & E2 & A2).
  destruct (column_ok media dens g l ss a b p0 p1 Hm Hs Hd H0 H1) as (K & E3 & A3).
  exists (100 * I), (100 * J). split; [auto|split; [auto|]]. rewrite E3. do 2 f_equal.
  rewrite (along_unique g p0 p1 K (I + J)); [ring|auto|]. apply along_split with t; auto.
Qed.
Print Assumptions C28_additive.

Theorem C28_symmetric : forall media dens g l ss a b p0 p1,
  (forall h, lawful (l_direction l) (dens h) (media h)) -> sees l ss a b -> describes l ss dens g ->
  on l a b p0 -> on l a b p1 ->
  column_depth media l p0 p1 = column_depth media l p1 p0.
Proof.
  intros media dens g l ss a b p0 p1 Hm Hs Hd H0 H1.
  destruct (column_ok media dens g l ss a b p0 p1 Hm Hs Hd H0 H1) as (I & E1 & A1).
  destruct (column_ok media dens g l ss a b p1 p0 Hm Hs Hd H1 H0) as (J & E2 & A2).
  rewrite E1, E2. do 3 f_equal. apply (along_unique g p0 p1); auto. apply along_sym; auto.
Qed.
Print Assumptions C28_symmetric.

(** Lists of crossings from other points, or in the other direction, give the same depth. *)
Theorem C28_any_line : forall media dens g l ss a b l' ss' a' b' p0 p1,
  (forall h, lawful (l_direction l) (dens h) (media h)) -> sees l ss a b -> describes l ss dens g ->
  (forall h, lawful (l_direction l') (dens h) (media h)) -> sees l' ss' a' b' -> describes l' ss' dens g ->
  on l a b p0 -> on l a b p1 -> on l' a' b' p0 -> on l' a' b' p1 ->
  column_depth media l p0 p1 = column_depth media l' p0 p1.
Proof.
  intros media dens g l ss a b l' ss' a' b' p0 p1 Hm Hs Hd Hm' Hs' Hd' H0 H1 H0' H1'.
  destruct (column_ok media dens g l ss a b p0 p1 Hm Hs Hd H0 H1) as (I & E1 & A1).
  destruct (column_ok media dens g l' ss' a' b' p0 p1 Hm' Hs' Hd' H0' H1') as (J & E2 & A2).
  rewrite E1, E2. do 3 f_equal. apply (along_unique g p0 p1); auto.
Qed.
Print Assumptions C28_any_line.

Theorem C28_nonnegative : forall media dens g l ss a b p0 p1,
  (forall h, lawful (l_direction l) (dens h) (media h)) -> sees l ss a b -> describes l ss dens g ->
  (forall q, 0 <= g q) -> on l a b p0 -> on l a b p1 ->
  exists X, column_depth media l p0 p1 = Ok (Some X) /\ 0 <= X.
Proof.
  intros media dens g l ss a b p0 p1 Hm Hs Hd Hg H0 H1.
  destruct (column_ok media dens g l ss a b p0 p1 Hm Hs Hd H0 H1) as (I & E1 & A1).
  exists (100 * I). split; auto. pose proof (along_nonneg _ _ _ _ Hg A1). lra.
Qed.
Print Assumptions C28_nonnegative.

Theorem C28_monotone : forall media dens g l ss a b p0 p1 t,
  (forall h, lawful (l_direction l) (dens h) (media h)) -> sees l ss a b -> describes l ss dens g ->
  (forall q, 0 <= g q) -> on l a b p0 -> on l a b p1 -> 0 <= t <= 1 ->
  exists X Y, column_depth media l p0 (vadd p0 (vscale t (vsub p1 p0))) = Ok (Some X) /\
    column_depth media l p0 p1 = Ok (Some Y) /\ X <= Y.
Proof.
  intros media dens g l ss a b p0 p1 t Hm Hs Hd Hg H0 H1 Ht.
  destruct (C28_additive media dens g l ss a b p0 p1 t Hm Hs Hd H0 H1 Ht) as (X & Y & E1 & E2 & E3).
  exists X, (X + Y). split; [auto|split; [auto|]].
  destruct (C28_nonnegative media dens g l ss a b (vadd p0 (vscale t (vsub p1 p0))) p1 Hm Hs Hd Hg) as (Y' & E & H); auto.
  { apply on_between; auto. }
  rewrite E2 in E. injection E as <-. lra.
Qed.
Print Assumptions C28_monotone.

(** A stretch of length [(u - t)] of the way with density at least [c] contributes at least
    as much as that density would: the depth is zero only when no stretch has density. *)
Theorem C28_positive : forall media dens g l ss a b p0 p1 t u c,
  (forall h, lawful (l_direction l) (dens h) (media h)) -> sees l ss a b -> describes l ss dens g ->
  (forall q, 0 <= g q) -> on l a b p0 -> on l a b p1 -> 0 <= t <= u -> u <= 1 ->
  (forall x, t < x < u -> c <= g (vadd p0 (vscale x (vsub p1 p0)))) ->
  exists X, column_depth media l p0 p1 = Ok (Some X) /\ 100 * (c * ((u - t) * vmag (vsub p1 p0))) <= X.
Proof.
  intros media dens g l ss a b p0 p1 t u c Hm Hs Hd Hg H0 H1 Ht Hu Hc.
  destruct (column_ok media dens g l ss a b p0 p1 Hm Hs Hd H0 H1) as (I & E1 & A1).
  exists (100 * I). split; auto.
  set (d := vsub p1 p0) in *. set (pt := point p0 d t). set (pu := point p0 d u).
  assert (Ot : on l a b pt) by (apply on_between; auto; lra).
  assert (Ou : on l a b pu) by (apply on_between; auto; lra).
  destruct (column_ok media dens g l ss a b p0 pt Hm Hs Hd H0 Ot) as (I1 & _ & B1).
  destruct (column_ok media dens g l ss a b pt pu Hm Hs Hd Ot Ou) as (I2 & _ & B2).
  destruct (column_ok media dens g l ss a b pu p1 Hm Hs Hd Ou H1) as (I3 & _ & B3).
  pose proof (along_nonneg _ _ _ _ Hg B1). pose proof (along_nonneg _ _ _ _ Hg B3).
  assert (E : I = I1 + I2 + I3).
  { apply (along_unique g p0 p1); auto. apply along_split with u; [lra| |exact B3].
    pose proof (proj1 (along_part g p0 p1 0 u (I1 + I2) ltac:(lra) ltac:(lra))) as P. rewrite point_0 in P. apply P. clear P.
    apply (is_RInt_Chasles (fun x => vmag (vsub p1 p0) * g (point p0 (vsub p1 p0) x)) 0 t u).
    - apply along_part; [lra|lra|]. rewrite point_0. exact B1.
    - apply along_part; [lra|lra|]. exact B2. }
  assert (c * ((u - t) * vmag d) <= I2).
  { apply along_part in B2; [|lra|lra].
    apply (is_RInt_le (fun _ => vmag d * c) (fun x => vmag d * g (point p0 d x)) t u); [lra| |exact B2|].
    - evar_last; [apply @is_RInt_const|]. unfold scal; cbn; unfold mult; cbn. ring.
    - intros x Hx. apply Rmult_le_compat_l; [apply sqrt_pos|]. apply Hc. auto. }
  lra.
Qed.
Print Assumptions C28_positive.

Theorem C28_zero : forall media dens g l ss a b p0 p1,
  (forall h, lawful (l_direction l) (dens h) (media h)) -> sees l ss a b -> describes l ss dens g ->
  on l a b p0 -> on l a b p1 ->
  p0 = p1 \/ (forall x, 0 < x < 1 -> g (vadd p0 (vscale x (vsub p1 p0))) = 0) ->
  column_depth media l p0 p1 = Ok (Some 0).
Proof.
  intros media dens g l ss a b p0 p1 Hm Hs Hd H0 H1 H.
  destruct (column_ok media dens g l ss a b p0 p1 Hm Hs Hd H0 H1) as (I & E1 & A1).
  rewrite E1. do 2 f_equal. assert (I = 0); [|lra]. apply (along_unique g p0 p1); auto.
  destruct H as [->|H].
  - apply along_zero. unfold vmag, vsub; cbn. rewrite !Rminus_eq_0, Rmult_0_r, !Rplus_0_r. apply sqrt_0.
  - unfold along. apply is_RInt_ext with (fun _ => 0).
    + intros x. rewrite Rmin_left, Rmax_right by lra. intros Hx. symmetry.
      change (vmag (vsub p1 p0) * g (vadd p0 (vscale x (vsub p1 p0))) = 0). rewrite H by auto. ring.
    + evar_last; [apply @is_RInt_const|]. unfold scal; cbn; unfold mult; cbn. ring.
Qed.
Print Assumptions C28_zero.

(** Constant densities, and densities along an axis, have the integrals asked for. *)
Theorem C28_densities : forall D,
  (forall v, lawful D (const_evaluate v) (const_medium v)) /\
  (forall ax f, has_anti f -> cart_dx ax D <> 0 -> lawful D (cart_evaluate ax f) (cart_medium ax f)).
Proof. intros D. split; [intros v; apply const_lawful|intros; apply cart_lawful; auto]. Qed.
Print Assumptions C28_densities.

Lemma emax_fin x y : emax (Fin x) (Fin y) = Fin (Rmax x y).
Proof. unfold emax, eltb, Rmax. destruct (Rlt_dec x y), (Rle_dec x y); f_equal; lra. Qed.

(** A detector: everywhere level 0, and level 1 between 0 and 1 along the x axis. *)
Definition two_sectors : list (sector ext) := [mksector 0%Z [(MInf, PInf)]; mksector 1%Z [(Fin 0, Fin 1)]].
Definition two_hits : list (ix ext) := [mkix MInf 0%Z true; mkix (Fin 0) 1%Z true; mkix (Fin 1) 1%Z false; mkix PInf 0%Z false].
Definition two_line : line := mkline (mkv 0 0 0) (mkv 1 0 0) two_hits.
Definition level_media (v0 v1 : R) (h : Z) : medium := if Z.eqb h 1 then const_medium v1 else const_medium v0.
Definition level_dens (v0 v1 : R) (h : Z) (q : vec) : R := if Z.eqb h 1 then v1 else v0.
Definition two_field (v0 v1 : R) (q : vec) : R := if Rlt_dec 0 (vx q) then if Rlt_dec (vx q) 1 then v1 else v0 else v0.

Lemma two_sees : sees two_line two_sectors MInf PInf.
Proof.
  split; [unfold vdot; cbn; ring|]. split; [|split].
  - split; [|repeat constructor; cbn; intuition discriminate].
    repeat constructor. cbn. apply elt_fin. lra.
  - exists (mksector 0%Z [(MInf, PInf)]). split; [|reflexivity]. split; [left; reflexivity|].
    exists MInf, PInf. split; [reflexivity|]. intros s iv _ _. unfold leT, elt. split; [destruct (fst iv)|destruct (snd iv)]; cbn; discriminate.
  - exists (crossings two_sectors). split; [reflexivity|]. cbn. destruct (Rlt_dec 0 1); [|lra]. cbn. destruct (Rlt_dec 1 0); [lra|]. cbn. unfold sort_intersections, comp, teqb; cbn; repeat (match goal with |- context[Rlt_dec ?a ?b] => destruct (Rlt_dec a b); [try lra|try lra] end; cbn). reflexivity.
Qed.

Lemma two_describes v0 v1 w0 w1 : describes two_line two_sectors (fun h q => level_dens v0 v1 h q * (if Z.eqb h 1 then w1 else w0)) (two_field (v0 * w0) (v1 * w1)).
Proof.
  intros z h [(s & Hin & El & Hs) Hmax]. unfold two_field, point. cbn [two_line l_position l_direction vadd vscale vx].
  replace (0 + z * 1) with z by ring.
  cbn in Hin. destruct Hin as [<-|[<-|[]]]; cbn in El; subst h; cbn.
  - destruct (Rlt_dec 0 z); auto. destruct (Rlt_dec z 1); auto. exfalso.
    assert (X : (1 <= 0)%Z); [|lia]. apply (Hmax (mksector 1%Z [(Fin 0, Fin 1)])); [right; left; reflexivity|].
    exists (Fin 0, Fin 1). split; [left; reflexivity|]. split; apply elt_fin; auto.
  - destruct Hs as (iv & [<-|[]] & Ha & Hb). apply elt_fin in Ha, Hb. destruct (Rlt_dec 0 z); [|lra]. destruct (Rlt_dec z 1); [reflexivity|lra].
Qed.

Lemma two_describes1 v0 v1 : describes two_line two_sectors (level_dens v0 v1) (two_field v0 v1).
Proof.
  intros z h H. pose proof (two_describes v0 v1 1 1 z h H) as E. rewrite !Rmult_1_r in E. rewrite E.
  destruct (Z.eqb h 1); ring.
Qed.

Lemma two_lawful v0 v1 D h : lawful D (level_dens v0 v1 h) (level_media v0 v1 h).
Proof. unfold level_media. change (level_dens v0 v1 h) with (fun _ : vec => if Z.eqb h 1 then v1 else v0). destruct (Z.eqb h 1); apply const_lawful. Qed.

Lemma two_on x : on two_line MInf PInf (mkv x 0 0).
Proof. exists x. split; [unfold point, vadd, vscale; cbn; f_equal; ring|]. split; reflexivity. Qed.

Lemma x_axis x y : 0 <= x -> vsub (mkv (y + x) 0 0) (mkv y 0 0) = vscale x (mkv 1 0 0) /\ vmag (vsub (mkv (y + x) 0 0) (mkv y 0 0)) = x.
Proof.
  intros H. assert (E : vsub (mkv (y + x) 0 0) (mkv y 0 0) = vscale x (mkv 1 0 0)) by (unfold vsub, vscale; cbn; f_equal; ring).
  split; auto. rewrite E, mag_scale by (unfold vdot; cbn; ring). apply Rabs_right. lra.
Qed.

(** From -2 to 3 through densities 1, 2, 1: 6 times 100; with the hypotheses of the
    theorems. *)
Example C28_case :
  sees two_line two_sectors MInf PInf /\ describes two_line two_sectors (level_dens 1 2) (two_field 1 2) /\
  (forall h, lawful (l_direction two_line) (level_dens 1 2 h) (level_media 1 2 h)) /\
  column_depth (level_media 1 2) two_line (mkv (-2) 0 0) (mkv 3 0 0) = Ok (Some 600).
Proof.
  split; [apply two_sees|]. split; [apply two_describes1|]. split; [intros h; apply two_lawful|].
  destruct (C28_depth (level_media 1 2) (level_dens 1 2) (two_field 1 2) two_line two_sectors MInf PInf (mkv (-2) 0 0) (mkv 3 0 0)
    (two_lawful 1 2 _) two_sees (two_describes1 1 2) (two_on _) (two_on _)) as (I & E & A).
  rewrite E. do 2 f_equal. assert (I = 6); [|lra]. apply (along_unique (two_field 1 2) (mkv (-2) 0 0) (mkv 3 0 0)); auto.
  replace 3 with (-2 + 5) by ring. destruct (x_axis 5 (-2)) as [X1 X2]; [lra|].
  apply to_along with (dir := mkv 1 0 0) (L := 5); auto.
  replace 6 with (2 + 2 + 2) by ring.
  apply (is_RInt_Chasles (fun s => two_field 1 2 (point (mkv (-2) 0 0) (mkv 1 0 0) s)) 0 3 5); [apply (is_RInt_Chasles (fun s => two_field 1 2 (point (mkv (-2) 0 0) (mkv 1 0 0) s)) 0 2 3)|].
  - apply is_RInt_ext with (fun _ => 1).
    + intros x. rewrite Rmin_left, Rmax_right by lra. intros Hx. unfold two_field, point. cbn. replace (-2 + x * 1) with (x - 2) by ring.
      destruct (Rlt_dec 0 (x - 2)); [lra|reflexivity].
    + evar_last; [apply @is_RInt_const|]. unfold scal; cbn; unfold mult; cbn. ring.
  - apply is_RInt_ext with (fun _ => 2).
    + intros x. rewrite Rmin_left, Rmax_right by lra. intros Hx. unfold two_field, point. cbn. replace (-2 + x * 1) with (x - 2) by ring.
      destruct (Rlt_dec 0 (x - 2)); [|lra]. destruct (Rlt_dec (x - 2) 1); [reflexivity|lra].
    + evar_last; [apply @is_RInt_const|]. unfold scal; cbn; unfold mult; cbn. ring.
  - apply is_RInt_ext with (fun _ => 1).
    + intros x. rewrite Rmin_left, Rmax_right by lra. intros Hx. unfold two_field, point. cbn. replace (-2 + x * 1) with (x - 2) by ring.
      destruct (Rlt_dec 0 (x - 2)); [|lra]. destruct (Rlt_dec (x - 2) 1); [lra|reflexivity].
    + evar_last; [apply @is_RInt_const|]. unfold scal; cbn; unfold mult; cbn. ring.
Qed.

(** ** C29: distance for a column depth *)

(** [eps] is the accuracy of the sectors' [InverseIntegral]. *)
Theorem C29_inverse : forall media dens g eps l ss a b p0 dir X,
  (forall h, lawful (l_direction l) (dens h) (media h)) -> (forall h, invertible eps (l_direction l) (dens h) (media h)) ->
  sees l ss a b -> describes l ss dens g -> on l a b p0 -> dir = l_direction l \/ dir = vneg (l_direction l) -> 0 < X ->
  (exists L, 0 <= L /\ on l a b (vadd p0 (vscale L dir)) /\ column_depth media l p0 (vadd p0 (vscale L dir)) = Ok (Some X)) ->
  exists L Y, column_distance media l p0 dir X = Ok (Fin L) /\ 0 <= L /\ on l a b (vadd p0 (vscale L dir)) /\
    column_depth media l p0 (vadd p0 (vscale L dir)) = Ok (Some Y) /\ Rabs (Y - X) <= 100 * eps.
Proof.
  intros media dens g eps l ss a b p0 dir X Hm Hi Hs Hd H0 Hh HX (L0 & HL0 & Ho0 & E0).
  unfold column_distance. cbv zeta. destruct (Rlt_dec (X / 100) 0); [lra|].
  destruct (from_ok media dens l ss a b (fun _ => 1) (fun h p target len => inverse (media h) p dir target len) eps (X / 100) g p0 dir Hm Hs (describes_one _ _ _ _ Hd) H0 Hh)
    as (t & res & R1 & R2); [lra| |].
  { intros h p target len Ht Hl. pose proof (Hi h p dir target len Hh Ht Hl) as F.
    assert (Ef : forall L I, is_RInt (fun s => dens h (point p dir s) * 1) 0 L I -> is_RInt (fun s => dens h (point p dir s)) 0 L I).
    { intros L I. apply is_RInt_ext. intros x _. apply Rmult_1_r. }
    destruct F as [(q & F1 & F2 & F3 & F4)|(F1 & F2)]; [left|right].
    - exists q. split; [auto|split; [auto|split; [auto|]]]. intros I HI. apply F4. apply Ef; auto.
    - split; auto. intros L I HL Hle HI. apply (F2 L I); auto. }
  rewrite R1. destruct R2 as [(L & I & -> & A1 & A2 & A3 & A4)|(B1 & _)].
  - destruct (column_ok media dens g l ss a b p0 (point p0 dir L) Hm Hs Hd H0 A2) as (J & EJ & AJ).
    exists L, (100 * J). split; [reflexivity|]. split; [auto|]. split; [auto|]. split; [exact EJ|].
    rewrite (along_unique _ _ _ _ _ AJ A3). replace (100 * I - X) with (100 * (I - X / 100)) by field.
    rewrite Rabs_mult, (Rabs_right 100) by lra. lra.
  - exfalso. destruct (column_ok media dens g l ss a b p0 (point p0 dir L0) Hm Hs Hd H0 Ho0) as (J & EJ & AJ).
    pose proof (B1 L0 J HL0 Ho0 AJ) as HJ. unfold point in EJ. rewrite E0 in EJ. injection EJ as ->. lra.
Qed.
Print Assumptions C29_inverse.

(** In a detector without end the distance is infinite when the depth is never reached. *)
Theorem C29_beyond : forall media dens g eps l ss p0 dir X,
  (forall h, lawful (l_direction l) (dens h) (media h)) -> (forall h, invertible eps (l_direction l) (dens h) (media h)) ->
  sees l ss MInf PInf -> describes l ss dens g -> on l MInf PInf p0 -> dir = l_direction l \/ dir = vneg (l_direction l) -> 0 < X ->
  (forall L Y, 0 <= L -> column_depth media l p0 (vadd p0 (vscale L dir)) = Ok (Some Y) -> Y + 100 * eps < X) ->
  column_distance media l p0 dir X = Ok PInf.
Proof.
  intros media dens g eps l ss p0 dir X Hm Hi Hs Hd H0 Hh HX Hno.
  unfold column_distance. cbv zeta. destruct (Rlt_dec (X / 100) 0); [lra|].
  destruct (from_ok media dens l ss MInf PInf (fun _ => 1) (fun h p target len => inverse (media h) p dir target len) eps (X / 100) g p0 dir Hm Hs (describes_one _ _ _ _ Hd) H0 Hh)
    as (t & res & R1 & R2); [lra| |].
  { intros h p target len Ht Hl. pose proof (Hi h p dir target len Hh Ht Hl) as F.
    assert (Ef : forall L I, is_RInt (fun s => dens h (point p dir s) * 1) 0 L I -> is_RInt (fun s => dens h (point p dir s)) 0 L I).
    { intros L I. apply is_RInt_ext. intros x _. apply Rmult_1_r. }
    destruct F as [(q & F1 & F2 & F3 & F4)|(F1 & F2)]; [left|right].
    - exists q. split; [auto|split; [auto|split; [auto|]]]. intros I HI. apply F4. apply Ef; auto.
    - split; auto. intros L I HL Hle HI. apply (F2 L I); auto. }
  rewrite R1. destruct R2 as [(L & I & -> & A1 & A2 & A3 & A4)|(_ & B2)].
  - exfalso. destruct (column_ok media dens g l ss MInf PInf p0 (point p0 dir L) Hm Hs Hd H0 A2) as (J & EJ & AJ).
    specialize (Hno L _ A1 EJ). rewrite (along_unique _ _ _ _ _ AJ A3) in Hno.
    revert A4. unfold Rabs. destruct (Rcase_abs _); lra.
  - rewrite B2; reflexivity.
Qed.
Print Assumptions C29_beyond.

(** A negative depth gives minus the distance along the reversed direction. *)
Theorem C29_negative : forall media l p0 dir X, 0 < X ->
  column_distance media l p0 dir (- X) =
  match column_distance media l p0 (vneg dir) X with Ok d => Ok (negate d) | Throw => Throw | UB => UB end.
Proof.
  intros media l p0 dir X HX. unfold column_distance. cbv zeta.
  destruct (Rlt_dec (- X / 100) 0); [|exfalso; lra]. destruct (Rlt_dec (X / 100) 0); [lra|].
  replace (- X / 100 * -1) with (X / 100) by field.
  destruct (sector_loop _ _ _ _) as [[? ?]| |]; reflexivity.
Qed.
Print Assumptions C29_negative.

(** Constant densities are inverted exactly. *)
Theorem C29_constant : forall v D, 0 <= v -> invertible 0 D (const_evaluate v) (const_medium v).
Proof. intros v D H. apply const_invertible; auto. Qed.
Print Assumptions C29_constant.

(** A depth of zero in a vacuum: found at the starting point by everyone, but the distance is
    infinite. *)
Definition empty_line : line := mkline (mkv 0 0 0) (mkv 1 0 0) [mkix MInf 0%Z true; mkix PInf 0%Z false].
Theorem C29_zero_refuted : exists media dens g l ss p0 dir,
  (forall h, lawful (l_direction l) (dens h) (media h)) /\ (forall h, invertible 0 (l_direction l) (dens h) (media h)) /\
  sees l ss MInf PInf /\ describes l ss dens g /\ on l MInf PInf p0 /\ dir = l_direction l /\
  column_depth media l p0 (vadd p0 (vscale 0 dir)) = Ok (Some 0) /\ column_distance media l p0 dir 0 = Ok PInf.
Proof.
  exists (fun _ => const_medium 0), (fun _ _ => 0), (fun _ => 0), empty_line, [mksector 0%Z [(MInf, PInf)]], (mkv 0 0 0), (mkv 1 0 0).
  split; [intros; apply const_lawful|]. split; [intros; apply const_invertible; lra|]. split.
  { split; [unfold vdot; cbn; ring|]. split; [|split].
    - split; repeat constructor; cbn; intuition discriminate.
    - exists (mksector 0%Z [(MInf, PInf)]). split; [|reflexivity]. split; [left; reflexivity|].
      exists MInf, PInf. split; [reflexivity|]. intros s iv _ _. unfold leT, elt. split; [destruct (fst iv)|destruct (snd iv)]; cbn; discriminate.
    - exists (crossings [mksector 0%Z [(MInf, PInf)]]). split; reflexivity. }
  split; [intros z h _; reflexivity|]. split; [exists 0; split; [unfold point, vadd, vscale; cbn; f_equal; ring|split; reflexivity]|]. split; [reflexivity|].
  split.
  - unfold column_depth. cbv zeta. replace (vsub _ _) with (mkv 0 0 0) by (unfold vsub, vadd, vscale; cbn; f_equal; ring).
    replace (vmag (mkv 0 0 0)) with 0 by (unfold vmag; cbn; rewrite Rmult_0_r, !Rplus_0_r; symmetry; apply sqrt_0).
    destruct (Req_EM_T 0 0); [reflexivity|lra].
  - unfold column_distance. cbv zeta. replace (0 / 100) with 0 by field. destruct (Rlt_dec 0 0); [lra|].
    replace (backward empty_line (mkv 1 0 0)) with false by (symmetry; apply (backward_ok true empty_line); unfold vdot; cbn; ring). cbn [negb].
    assert (Ecb : all_callbacks (l_hits empty_line) false = Ok [(mkix MInf 0%Z true, mkix PInf 0%Z false, MInf)]) by reflexivity.
    rewrite (C26_any_callback _ _ _ _ _ _ _ Ecb).
    cbn [feed]. unfold distance_cb. cbn [shift dist hier emax eltb fst]. cbn. rewrite Rminus_eq_0.
    unfold quotient. destruct (Req_EM_T 0 0); [|lra]. reflexivity.
Qed.
Print Assumptions C29_zero_refuted.

(** ** C30: interaction depth *)

(** Interaction depth is the line integral of density times target number times cross
    section, plus distance over decay length. *)
Theorem C30_depth : forall media dens l ss a b fractions sigma K lambda p0 p1,
  (forall h, length (fractions h) = length sigma) -> (forall h, lawful (l_direction l) (dens h) (media h)) -> sees l ss a b ->
  describes l ss (fun h q => dens h q * weighted (fractions h) sigma) K ->
  on l a b p0 -> on l a b p1 -> sigma <> [] -> threshold < vmag (vsub p1 p0) ->
  exists I, interaction_depth media fractions sigma (Some lambda) l p0 p1 = Ok (Some (100 * I + vmag (vsub p1 p0) / lambda)) /\
    interaction_depth media fractions sigma None l p0 p1 = Ok (Some (100 * I)) /\ along K p0 p1 I.
Proof.
  intros media dens l ss a b fractions sigma K lambda p0 p1 Hl Hm Hs HK H0 H1 Hne Ht.
  destruct (interaction_ok media dens l ss a b fractions sigma Hl Hm Hs K HK (Some lambda) p0 p1 H0 H1 Hne Ht) as (I & E & A).
  destruct (interaction_ok media dens l ss a b fractions sigma Hl Hm Hs K HK None p0 p1 H0 H1 Hne Ht) as (J & F & B).
  exists I. split; [exact E|]. split; [|exact A]. rewrite F. cbn. do 2 f_equal. rewrite (along_unique _ _ _ _ _ B A). ring.
Qed.
Print Assumptions C30_depth.

(** Without targets only the decay length counts. *)
Theorem C30_no_targets : forall media fractions lambda l p0 p1,
  interaction_depth media fractions [] (Some lambda) l p0 p1 = Ok (Some (vmag (vsub p1 p0) / lambda)).
Proof. reflexivity. Qed.
Print Assumptions C30_no_targets.

(** The number of targets along the path, weighted in any way. *)
Theorem C30_targets : forall media dens l ss a b fractions weights K p0 p1,
  (forall h, length (fractions h) = length weights) -> (forall h, lawful (l_direction l) (dens h) (media h)) -> sees l ss a b ->
  describes l ss (fun h q => dens h q * weighted (fractions h) weights) K -> on l a b p0 -> on l a b p1 ->
  exists v I, particle_depth media fractions weights l p0 p1 = Ok (Some v) /\ length v = length weights /\
    weighted v weights = 100 * I /\ along K p0 p1 I.
Proof. intros. eapply particle_depth_ok; eauto. Qed.
Print Assumptions C30_targets.

(** [_partial]: particles that do not decay. *)
Theorem C30_inverse_partial : forall media dens eps l ss a b fractions sigma K cmax p0 dir X,
  (forall h, length (fractions h) = length sigma) -> (forall h, lawful (l_direction l) (dens h) (media h)) ->
  (forall h, invertible eps (l_direction l) (dens h) (media h)) -> sees l ss a b ->
  describes l ss (fun h q => dens h q * weighted (fractions h) sigma) K ->
  (forall h, 0 <= weighted (fractions h) sigma <= cmax) -> 0 <= eps ->
  on l a b p0 -> dir = l_direction l \/ dir = vneg (l_direction l) -> 0 < X -> sigma <> [] ->
  (exists L, threshold < L /\ on l a b (vadd p0 (vscale L dir)) /\ interaction_depth media fractions sigma None l p0 (vadd p0 (vscale L dir)) = Ok (Some X)) ->
  exists L I, interaction_distance media fractions sigma None l p0 dir X = Ok (Fin L) /\ 0 <= L /\ on l a b (vadd p0 (vscale L dir)) /\
    along K p0 (vadd p0 (vscale L dir)) I /\ Rabs (100 * I - X) <= 100 * (cmax * eps) /\
    (threshold < L -> interaction_depth media fractions sigma None l p0 (vadd p0 (vscale L dir)) = Ok (Some (100 * I))).
Proof.
  intros media dens eps l ss a b fractions sigma K cmax p0 dir X Hl Hm Hi Hs HK Hc Heps H0 Hh HX Hne (L0 & HL0 & Ho0 & E0).
  pose proof (proj1 Hs) as HD.
  assert (Hdd : vdot dir dir = 1) by (destruct Hh as [->| ->]; [auto|rewrite dot_neg; auto]).
  assert (Hmag : forall L, 0 <= L -> vmag (vsub (vadd p0 (vscale L dir)) p0) = L).
  { intros L HL. replace (vsub (vadd p0 (vscale L dir)) p0) with (vscale L dir) by (unfold vadd, vscale, vsub; vsolve).
    rewrite mag_scale by auto. apply Rabs_right. lra. }
  assert (Ht0 : 0 < threshold) by (unfold threshold; apply Rdiv_lt_0_compat; [lra|apply pow_lt; lra]).
  (* K scaled by 100 *)
  set (w := fun h => composition fractions sigma h * (1 / (1 / 100))).
  assert (Ew : forall h, w h = 100 * weighted (fractions h) sigma) by (intros h; unfold w; rewrite composition_weighted; field).
  assert (HK' : describes l ss (fun h q => dens h q * w h) (fun q => 100 * K q)).
  { intros z h Hz. rewrite (HK z h Hz), Ew. ring. }
  assert (Hint : forall p q I, along (fun x => 100 * K x) p q I <-> along K p q (I / 100)).
  { intros p q I. unfold along. split; intros H.
    - apply is_RInt_ext with (fun t => scal (/ 100) (vmag (vsub q p) * (100 * K (point p (vsub q p) t)))).
      + intros x _. change (/ 100 * (vmag (vsub q p) * (100 * K (point p (vsub q p) x))) = vmag (vsub q p) * K (point p (vsub q p) x)). field.
      + replace (I / 100) with (scal (/ 100) I) by (change (/ 100 * I = I / 100); field). apply @is_RInt_scal. exact H.
    - apply is_RInt_ext with (fun t => scal 100 (vmag (vsub q p) * K (point p (vsub q p) t))).
      + intros x _. change (100 * (vmag (vsub q p) * K (point p (vsub q p) x)) = vmag (vsub q p) * (100 * K (point p (vsub q p) x))). ring.
      + replace I with (scal 100 (I / 100)) by (change (100 * (I / 100) = I); field). apply @is_RInt_scal. exact H. }
  assert (Hask : forall h p target len, 0 < target -> ele (Fin 0) len ->
    finds (100 * (cmax * eps)) (fun s => dens h (point p dir s) * w h) target len (ask_interaction media fractions sigma None dir h p target len)).
  { intros h p target len Ht Hle. unfold ask_interaction. cbv zeta. rewrite composition_weighted.
    destruct (Hc h) as [C0 C1]. destruct (Req_EM_T (weighted (fractions h) sigma) 0) as [E|E].
    - right. split; [discriminate|]. intros L I HL _ HI.
      assert (I = 0); [|lra]. eapply same_integral; [exact HI|]. apply is_RInt_ext with (fun _ => 0).
      + intros x _. rewrite Ew, E. change (0 = dens h (point p dir x) * (100 * 0)). ring.
      + evar_last; [apply @is_RInt_const|]. unfold scal; cbn; unfold mult; cbn. ring.
    - assert (0 < w h) by (rewrite Ew; lra).
      apply finds_scale with (eps := eps); auto.
      + rewrite Ew. assert (eps * weighted (fractions h) sigma <= eps * cmax) by (apply Rmult_le_compat_l; auto). lra.
      + replace (target / w h) with (target / 100 / weighted (fractions h) sigma) by (rewrite Ew; field; auto).
        apply Hi; auto. repeat apply Rdiv_lt_0_compat; lra. }
  destruct (from_ok media dens l ss a b w (ask_interaction media fractions sigma None dir) (100 * (cmax * eps)) X (fun q => 100 * K q) p0 dir Hm Hs HK' H0 Hh HX Hask) as (t & res & R1 & R2).
  assert (Ed : interaction_distance media fractions sigma None l p0 dir X = Ok res).
  { unfold interaction_distance. cbv zeta. destruct (Rlt_dec X 0); [lra|]. fold w. destruct sigma; [congruence|]. rewrite R1. reflexivity. }
  rewrite Ed. destruct R2 as [(L & I & -> & A1 & A2 & A3 & A4)|(B1 & _)].
  - exists L, (I / 100). split; [reflexivity|]. split; [auto|]. split; [exact A2|]. split; [exact (proj1 (Hint p0 (point p0 dir L) I) A3)|].
    replace (100 * (I / 100)) with I by field. split; [auto|].
    intros HL. destruct (interaction_ok media dens l ss a b fractions sigma Hl Hm Hs K HK None p0 (point p0 dir L) H0 A2 Hne) as (J & F & B).
    { unfold point. rewrite Hmag; auto. }
    unfold point in F. rewrite F. cbn [decays]. do 2 f_equal. pose proof (proj1 (Hint _ _ _) A3) as A5. rewrite (along_unique _ _ _ _ _ B A5). field.
  - exfalso. destruct (interaction_ok media dens l ss a b fractions sigma Hl Hm Hs K HK None p0 (point p0 dir L0) H0 Ho0 Hne) as (J & F & B).
    { unfold point. rewrite Hmag; lra. }
    unfold point in F. rewrite E0 in F. cbn [decays] in F. injection F as E.
    assert (X < X); [|lra]. apply (B1 L0 X); [lra|exact Ho0|]. apply (proj2 (Hint p0 (point p0 dir L0) X)). replace (X / 100) with J by lra. exact B.
Qed.
Print Assumptions C30_inverse_partial.

(** [_partial]: decaying particles in a detector with a single sector. *)
Theorem C30_one_sector_partial : forall m dens eps l level fractions sigma lambda p0 dir X K,
  lawful (l_direction l) dens m -> invertible_with eps (l_direction l) dens m ->
  vdot (l_direction l) (l_direction l) = 1 -> l_hits l = [mkix MInf level true; mkix PInf level false] ->
  (forall q, K q = dens q * weighted (fractions level) sigma) ->
  0 < weighted (fractions level) sigma -> 0 < lambda ->
  on l MInf PInf p0 -> dir = l_direction l \/ dir = vneg (l_direction l) -> 0 < X -> sigma <> [] ->
  (exists L I, 0 <= L /\ along K p0 (vadd p0 (vscale L dir)) I /\ 100 * I + L / lambda = X) ->
  exists L I, interaction_distance (fun _ => m) fractions sigma (Some lambda) l p0 dir X = Ok (Fin L) /\ 0 <= L /\
    along K p0 (vadd p0 (vscale L dir)) I /\ Rabs (100 * I + L / lambda - X) <= 100 * (weighted (fractions level) sigma * eps).
Proof.
  intros m dens eps l level fractions sigma lambda p0 dir X K Hm Hi HD Hl HK Hc Hla H0 Hh HX Hne (L0 & I0 & HL0 & A0 & E0).
  set (c := weighted (fractions level) sigma) in *.
  assert (Hdd : vdot dir dir = 1) by (destruct Hh as [->| ->]; [auto|rewrite dot_neg; auto]).
  assert (Hf : exists f, dir = dirn f (l_direction l)) by (destruct Hh as [->| ->]; [exists true|exists false]; reflexivity).
  destruct Hf as [f Ef].
  assert (Eb : backward l dir = negb f) by (rewrite Ef; apply backward_ok; auto).
  set (kappa := 1 / (lambda / (1 / 100) * c)).
  assert (Hk : 0 < kappa) by (unfold kappa; apply Rdiv_lt_0_compat; [lra|]; apply Rmult_lt_0_compat; [|auto]; apply Rdiv_lt_0_compat; lra).
  assert (Hin : heads (l_direction l) dir) by exact Hh.
  set (target := X / 100 / c).
  assert (Htg : 0 < target) by (unfold target; repeat apply Rdiv_lt_0_compat; lra).
  pose proof (Hi p0 dir kappa target PInf Hin Hk Htg eq_refl) as F.
  assert (Ed : interaction_distance (fun _ => m) fractions sigma (Some lambda) l p0 dir X =
    Ok (match inverse_with m p0 dir kappa target PInf with Some d => if Rle_dec 0 d then Fin (0 + d) else PInf | None => PInf end)).
  { unfold interaction_distance. cbv zeta. destruct (Rlt_dec X 0); [lra|]. rewrite Eb, negb_involutive.
    assert (Ecb : all_callbacks (l_hits l) (negb f) = Ok [(if f then mkix MInf level true else mkix PInf level false, if f then mkix PInf level false else mkix MInf level true, if f then MInf else PInf)]).
    { rewrite Hl. destruct f; cbn; unfold sector_loop; cbn; rewrite ?Z.leb_refl, ?Z.ltb_irrefl, ?Z.eqb_refl, ?Z.compare_refl; cbn; rewrite ?Z.leb_refl, ?Z.ltb_irrefl, ?Z.eqb_refl; reflexivity. }
    assert (Em : forall (A : Type) (x y : A), match sigma with [] => x | _ :: _ => y end = y) by (intros; destruct sigma; [congruence|reflexivity]).
    rewrite Em.
    rewrite (C26_any_callback _ _ _ _ _ _ _ Ecb).
    assert (Ep : vadd p0 (vscale 0 dir) = p0) by apply point_0.
    destruct f; cbn [feed]; unfold distance_cb; cbn [shift dist hier emax eltb fst minus plus negb]; rewrite Ep, Rminus_0_r;
      unfold ask_interaction; cbv zeta; rewrite composition_weighted; fold c; fold kappa; fold target;
      (destruct (Req_EM_T c 0); [lra|]); (destruct (inverse_with m p0 dir kappa target PInf) as [d|]; [destruct (Rle_dec 0 d)|]; reflexivity). }
  assert (Hpart : forall L I, is_RInt (fun s => dens (point p0 dir s)) 0 L I -> is_RInt (fun s => dens (point p0 dir s) + kappa) 0 L (I + L * kappa)).
  { intros L I H. apply (@is_RInt_plus R_NormedModule); auto. evar_last; [apply @is_RInt_const|]. unfold scal; cbn; unfold mult; cbn. ring. }
  assert (Hsub : forall L, vsub (vadd p0 (vscale L dir)) p0 = vscale L dir) by (intros L; unfold vadd, vscale, vsub; vsolve).
  assert (Hmag : forall L, 0 <= L -> vmag (vsub (vadd p0 (vscale L dir)) p0) = L).
  { intros L HL. rewrite Hsub, mag_scale by auto. apply Rabs_right. lra. }
  assert (Hal : forall L I, 0 <= L -> is_RInt (fun s => dens (point p0 dir s)) 0 L I -> along K p0 (vadd p0 (vscale L dir)) (I * c)).
  { intros L I HL H. apply to_along with (dir := dir) (L := L); auto.
    apply is_RInt_ext with (fun s => scal c (dens (point p0 dir s))).
    - intros x _. rewrite HK. change (c * dens (point p0 dir x) = dens (point p0 dir x) * c). ring.
    - replace (I * c) with (scal c I) by (change (c * I = I * c); ring). apply @is_RInt_scal. exact H. }
  assert (Hsum : forall L I, 100 * (I * c) + L / lambda = 100 * c * (I + L * kappa)).
  { intros L I. unfold kappa. field. lra. }
  rewrite Ed. destruct F as [(q & F1 & F2 & F3 & F4)|(F1 & F2)].
  - rewrite F1. destruct (Rle_dec 0 q); [|lra]. rewrite Rplus_0_l.
    destruct (Hm p0 dir q Hin F2) as (I & _ & HI).
    exists q, (I * c). split; [reflexivity|]. split; [auto|]. split; [apply Hal; auto|].
    rewrite Hsum. specialize (F4 _ (Hpart q I HI)).
    replace (100 * c * (I + q * kappa) - X) with (100 * c * (I + q * kappa - target)) by (unfold target; field; lra).
    rewrite Rabs_mult, (Rabs_right (100 * c)) by lra. replace (100 * (c * eps)) with (100 * c * eps) by ring. apply Rmult_le_compat_l; lra.
  - exfalso. destruct (Hm p0 dir L0 Hin HL0) as (I & _ & HI).
    pose proof (F2 L0 _ HL0 eq_refl (Hpart L0 I HI)) as Hlt.
    rewrite (along_unique _ _ _ _ _ A0 (Hal L0 I HL0 HI)), Hsum in E0.
    assert (X / 100 / c = I + L0 * kappa) by (rewrite <- E0; field; lra). fold target in H. lra.
Qed.
Print Assumptions C30_one_sector_partial.

(** Negative depths, when there are targets. *)
Theorem C30_negative_partial : forall media fractions sigma lambda l p0 dir X, 0 < X -> sigma <> [] ->
  interaction_distance media fractions sigma lambda l p0 dir (- X) =
  match interaction_distance media fractions sigma lambda l p0 (vneg dir) X with Ok d => Ok (negate d) | Throw => Throw | UB => UB end.
Proof.
  intros media fractions sigma lambda l p0 dir X HX Hne. unfold interaction_distance. cbv zeta.
  destruct (Rlt_dec (- X) 0); [|exfalso; lra]. destruct (Rlt_dec X 0); [lra|].
  replace (- X * -1) with X by ring. destruct sigma; [congruence|].
  destruct (sector_loop _ _ _ _) as [[? ?]| |]; reflexivity.
Qed.
Print Assumptions C30_negative_partial.

(** Without targets a negative depth gives a positive distance. *)
Theorem C30_negative_refuted : exists media fractions lambda l p0 dir X, 0 < X /\
  interaction_distance media fractions [] lambda l p0 dir (- X) = Ok (Fin 1) /\
  interaction_distance media fractions [] lambda l p0 (vneg dir) X = Ok (Fin 1).
Proof.
  exists (fun _ => const_medium 0), (fun _ => []), (Some 1), empty_line, (mkv 0 0 0), (mkv 1 0 0), 1. split; [lra|].
  unfold interaction_distance. cbv zeta. destruct (Rlt_dec (- (1)) 0); [|lra]. destruct (Rlt_dec 1 0); [lra|].
  split; [change (Ok (Fin (- (1) * -1 * 1)) = Ok (Fin 1))|change (Ok (Fin (1 * 1)) = Ok (Fin 1))]; apply (f_equal (fun x => Ok (Fin x))); ring.
Qed.
Print Assumptions C30_negative_refuted.

Lemma two_cbs : all_callbacks two_hits false = Ok
  [(mkix MInf 0%Z true, mkix (Fin 0) 1%Z true, MInf); (mkix (Fin 0) 1%Z true, mkix (Fin 1) 1%Z false, Fin 0); (mkix MInf 0%Z true, mkix PInf 0%Z false, Fin 1)].
Proof. reflexivity. Qed.
Lemma two_cbs_rev : all_callbacks two_hits true = Ok
  [(mkix PInf 0%Z false, mkix (Fin 1) 1%Z false, PInf); (mkix (Fin 1) 1%Z false, mkix (Fin 0) 1%Z true, Fin 1); (mkix PInf 0%Z false, mkix MInf 0%Z true, Fin 0)].
Proof. reflexivity. Qed.

(** Decays and two sectors: the depth up to 2 m is 4, but the distance for depth 4 is 2.5 m. *)
Theorem C30_decay_refuted : exists media dens l ss fractions sigma lambda K p0 dir,
  (forall h, lawful (l_direction l) (dens h) (media h)) /\ (forall h, invertible_with 0 (l_direction l) (dens h) (media h)) /\
  sees l ss MInf PInf /\ describes l ss (fun h q => dens h q * weighted (fractions h) sigma) K /\ dir = l_direction l /\
  interaction_depth media fractions sigma (Some lambda) l p0 (vadd p0 (vscale 2 dir)) = Ok (Some 4) /\
  interaction_distance media fractions sigma (Some lambda) l p0 dir 4 = Ok (Fin (5 / 2)).
Proof.
  exists (level_media (1 / 100) (1 / 100)), (level_dens (1 / 100) (1 / 100)), two_line, two_sectors, (fun _ => [1]), [1], 1, (fun _ => 1 / 100), (mkv 0 0 0), (mkv 1 0 0).
  assert (Hd : describes two_line two_sectors (fun h q => level_dens (1 / 100) (1 / 100) h q * weighted [1] [1]) (fun _ => 1 / 100)).
  { intros z h _. unfold level_dens. cbn. destruct (Z.eqb h 1); field. }
  split; [intros; apply two_lawful|]. split.
  { intros h. unfold level_media, level_dens. destruct (Z.eqb h 1); apply const_invertible_with; lra. }
  split; [apply two_sees|]. split; [exact Hd|]. split; [reflexivity|]. split.
  - replace (vadd (mkv 0 0 0) (vscale 2 (mkv 1 0 0))) with (mkv (0 + 2) 0 0) by (unfold vadd, vscale; cbn; f_equal; ring).
    destruct (x_axis 2 0) as [X1 X2]; [lra|].
    destruct (C30_depth (level_media (1 / 100) (1 / 100)) (level_dens (1 / 100) (1 / 100)) two_line two_sectors MInf PInf (fun _ => [1]) [1] (fun _ => 1 / 100) 1 (mkv 0 0 0) (mkv (0 + 2) 0 0))
      as (I & E & _ & A); auto using two_lawful, two_sees, two_on.
    + discriminate.
    + rewrite X2. unfold threshold. lra.
    + rewrite E, X2. do 2 f_equal. assert (I = 2 * (1 / 100)); [|lra]. eapply along_unique; [exact A|].
      eapply to_along; [exact X1|exact X2|]. evar_last; [apply @is_RInt_const|]. unfold scal; cbn; unfold mult; cbn. ring.
  - unfold interaction_distance. cbv zeta. destruct (Rlt_dec 4 0); [lra|].
    replace (backward two_line (mkv 1 0 0)) with false by (symmetry; apply (backward_ok true two_line); unfold vdot; cbn; ring). cbn [negb].
    change (l_hits two_line) with two_hits. rewrite (C26_any_callback _ _ _ _ _ _ _ two_cbs).
    set (w := fun h : Z => composition (fun _ : Z => [1]) [1] h * (1 / (1 / 100))).
    assert (Ec : forall h, composition (fun _ => [1]) [1] h = 1) by (intros h; unfold composition, plain_sum; cbn; ring).
    assert (Ew : forall h, w h = 100) by (intros h; unfold w; rewrite Ec; field).
    replace (vdot _ _) with 0 by (unfold vdot, vsub; cbn; ring).
    assert (Ea : forall h p target len, ask_interaction (level_media (1 / 100) (1 / 100)) (fun _ => [1]) [1] (Some 1) (mkv 1 0 0) h p target len =
      inverse_with (const_medium (1 / 100)) p (mkv 1 0 0) (1 / 100) (target / 100) len).
    { intros h p target len. unfold ask_interaction. cbv zeta. rewrite Ec. destruct (Req_EM_T 1 0); [lra|].
      replace (1 / (1 / (1 / 100) * 1)) with (1 / 100) by field. replace (target / 100 / 1) with (target / 100) by field.
      unfold level_media. destruct (Z.eqb h 1); reflexivity. }
    cbn [feed]. unfold distance_cb at 1. cbn [shift dist eltb]. destruct (Rlt_dec 0 (0 + 1 * 0)); [lra|].
    unfold distance_cb at 1. cbn [shift dist eltb hier fst]. destruct (Rlt_dec 0 (0 + 1 * 1)); [|lra].
    assert (E1 : emax (emax (Fin (0 + 1 * 0)) (Fin 0)) (Fin (0 + 1 * 0)) = Fin 0) by (try change (emax MInf (Fin 0)) with (Fin 0); rewrite !emax_fin; f_equal; unfold Rmax; repeat destruct (Rle_dec _ _); lra).
    rewrite E1. cbn [minus]. rewrite Ea. cbn [const_medium inverse_with]. unfold const_inverse_constant, quotient.
    destruct (Req_EM_T (1 / 100 + 1 / 100) 0); [lra|].
    replace ((4 - 0) / 100 / (1 / 100 + 1 / 100)) with 2 by field. destruct (Rlt_dec (0 + 1 * 1 - 0) 2); [|lra]. destruct (Rle_dec 0 (-1)); [lra|].
    unfold distance_cb at 1. cbn [shift dist eltb hier fst].
    assert (E2 : emax (emax MInf (Fin 0)) (Fin (0 + 1 * 1)) = Fin 1) by (try change (emax MInf (Fin 0)) with (Fin 0); rewrite !emax_fin; f_equal; unfold Rmax; repeat destruct (Rle_dec _ _); lra).
    rewrite E2. cbn [minus]. cbn [level_media const_medium integral Z.eqb Pos.eqb option_map add_opt]. rewrite Ew, Ea. unfold const_integral. cbn [const_medium inverse_with]. unfold quotient.
    destruct (Req_EM_T (1 / 100 + 1 / 100) 0); [lra|].
    match goal with |- context [Rle_dec 0 ?x] => replace x with (3 / 2) by field end. destruct (Rle_dec 0 (3 / 2)); [|lra].
    cbn [feed]. do 2 f_equal. lra.
Qed.
Print Assumptions C30_decay_refuted.

(** Over at most 0.01 mm the matter on the way is not counted. *)
Theorem C30_short_refuted : exists media dens l ss fractions sigma K p0 p1 I,
  (forall h, lawful (l_direction l) (dens h) (media h)) /\ sees l ss MInf PInf /\
  describes l ss (fun h q => dens h q * weighted (fractions h) sigma) K /\ on l MInf PInf p0 /\ on l MInf PInf p1 /\
  along K p0 p1 I /\ 0 < I /\ interaction_depth media fractions sigma None l p0 p1 = Ok (Some 0).
Proof.
  exists (level_media 1 1), (level_dens 1 1), two_line, two_sectors, (fun _ => [1]), [1], (fun _ => 1), (mkv 0 0 0), (mkv (0 + threshold) 0 0), threshold.
  assert (Ht : 0 < threshold) by (unfold threshold; apply Rdiv_lt_0_compat; [lra|apply pow_lt; lra]).
  destruct (x_axis threshold 0) as [X1 X2]; [lra|].
  split; [intros; apply two_lawful|]. split; [apply two_sees|]. split.
  { intros z h _. unfold level_dens. cbn. destruct (Z.eqb h 1); ring. }
  split; [apply two_on|]. split; [apply two_on|]. split; [|split; [auto|]].
  - eapply to_along; [exact X1|exact X2|]. evar_last; [apply @is_RInt_const|]. unfold scal; cbn; unfold mult; cbn. ring.
  - unfold interaction_depth. rewrite X2. destruct (Rle_dec threshold threshold); [reflexivity|lra].
Qed.
Print Assumptions C30_short_refuted.

(** Two sectors, two targets: the hypotheses of the theorems hold. *)
Example C30_case :
  (forall h, lawful (l_direction two_line) (level_dens 1 2 h) (level_media 1 2 h)) /\
  (forall h, invertible 0 (l_direction two_line) (level_dens 1 2 h) (level_media 1 2 h)) /\
  sees two_line two_sectors MInf PInf /\
  describes two_line two_sectors (fun h q => level_dens 1 2 h q * weighted (if Z.eqb h 1 then [3; 4] else [1; 0]) [1; 2]) (two_field (1 * 1) (2 * 11)) /\
  threshold < vmag (vsub (mkv (0 + 5) 0 0) (mkv 0 0 0)).
Proof.
  split; [intros; apply two_lawful|]. split.
  { intros h. unfold level_media, level_dens. destruct (Z.eqb h 1); apply const_invertible; lra. }
  split; [apply two_sees|]. split.
  - intros z h Hz. rewrite (two_describes 1 2 1 11 z h Hz). unfold level_dens. destruct (Z.eqb h 1); cbn; ring.
  - destruct (x_axis 5 0) as [_ X2]; [lra|]. rewrite X2. unfold threshold. lra.
Qed.

(** ** C31: distances to a point *)

(** In geometry coordinates: the distance is that of a path that ends at the point. *)
Theorem C31_to_point : forall media dens g eps l ss a b p dir X,
  (forall h, lawful (l_direction l) (dens h) (media h)) -> (forall h, invertible eps (l_direction l) (dens h) (media h)) ->
  sees l ss a b -> describes l ss dens g -> on l a b p -> dir = l_direction l \/ dir = vneg (l_direction l) -> 0 < X ->
  (exists L, 0 <= L /\ on l a b (vsub p (vscale L dir)) /\ column_depth media l (vsub p (vscale L dir)) p = Ok (Some X)) ->
  exists L Y, column_distance_to media l p dir X = Ok (Fin L) /\ 0 <= L /\
    column_depth media l (vsub p (vscale L dir)) p = Ok (Some Y) /\ Rabs (Y - X) <= 100 * eps.
Proof.
  intros media dens g eps l ss a b p dir X Hm Hi Hs Hd H0 Hh HX (L0 & HL0 & Ho0 & E0).
  assert (Ev : forall L, vsub p (vscale L dir) = vadd p (vscale L (vneg dir))) by (intros L; unfold vsub, vadd, vscale, vneg; vsolve).
  destruct (C29_inverse media dens g eps l ss a b p (vneg dir) X Hm Hi Hs Hd H0) as (L & Y & R1 & R2 & R3 & R4 & R5); auto.
  - destruct Hh as [->| ->]; [right; reflexivity|left; apply vneg_neg].
  - exists L0. rewrite <- Ev. split; [auto|split; [auto|]]. rewrite <- E0. eapply C28_symmetric; eauto.
  - exists L, Y. split; [exact R1|]. split; [auto|]. rewrite Ev. split; [|auto]. rewrite <- R4. rewrite <- Ev in R3 |- *. eapply C28_symmetric; eauto.
Qed.
Print Assumptions C31_to_point.

(** The distances to a point are those from the point in the reversed direction. *)
Theorem C31_reversed : forall media fractions sigma lambda l p dir X,
  column_distance_to media l p dir X = column_distance media l p (vneg dir) X /\
  interaction_distance_to media fractions sigma lambda l p dir X = interaction_distance media fractions sigma lambda l p (vneg dir) X.
Proof. split; reflexivity. Qed.
Print Assumptions C31_reversed.

Definition same_frame : frame Datatypes.unit := mkframe tt (mkv 0 0 0) qone.
Lemma same_geo p : to_geo same_frame p = p.
Proof. unfold to_geo, same_frame. cbn [ds_rotation ds_origin]. rewrite QuatPlace.qone_rotate. apply vec_ext; cbn; ring. Qed.
Lemma same_geo_dir d : to_geo_dir same_frame d = d.
Proof. unfold to_geo_dir, same_frame. cbn [ds_rotation]. apply QuatPlace.qone_rotate. Qed.

Lemma two_forward : column_distance (level_media 1 2) two_line (mkv 0 0 0) (mkv 1 0 0) 100 = Ok (Fin (1 / 2)).
Proof.
  unfold column_distance. cbv zeta. destruct (Rlt_dec (100 / 100) 0); [lra|].
  replace (backward two_line (mkv 1 0 0)) with false by (symmetry; apply (backward_ok true two_line); unfold vdot; cbn; ring). cbn [negb].
  change (l_hits two_line) with two_hits. rewrite (C26_any_callback _ _ _ _ _ _ _ two_cbs).
  replace (vdot _ _) with 0 by (unfold vdot, vsub; cbn; ring).
  cbn [feed]. unfold distance_cb at 1. cbn [shift dist eltb]. destruct (Rlt_dec 0 (0 + 1 * 0)); [lra|].
  unfold distance_cb at 1. cbn [shift dist eltb hier fst]. destruct (Rlt_dec 0 (0 + 1 * 1)); [|lra].
  assert (E1 : emax (emax (Fin (0 + 1 * 0)) (Fin 0)) (Fin (0 + 1 * 0)) = Fin 0) by (try change (emax MInf (Fin 0)) with (Fin 0); rewrite !emax_fin; f_equal; unfold Rmax; repeat destruct (Rle_dec _ _); lra).
  rewrite E1. cbn [minus]. cbn [level_media const_medium inverse Z.eqb Pos.eqb]. unfold const_inverse, quotient.
  destruct (Req_EM_T 2 0); [lra|]. replace ((100 / 100 - 0) / 2) with (1 / 2) by field. destruct (Rlt_dec (0 + 1 * 1 - 0) (1 / 2)); [lra|].
  destruct (Rle_dec 0 (1 / 2)); [|lra]. do 2 f_equal. ring.
Qed.

Lemma two_backward : column_distance (level_media 1 2) two_line (mkv 0 0 0) (vneg (mkv 1 0 0)) 100 = Ok (Fin 1).
Proof.
  unfold column_distance. cbv zeta. destruct (Rlt_dec (100 / 100) 0); [lra|].
  change (vneg (mkv 1 0 0)) with (dirn false (l_direction two_line)).
  rewrite (backward_ok false two_line) by (unfold vdot; cbn; ring). cbn [negb].
  change (l_hits two_line) with two_hits. rewrite (C26_any_callback _ _ _ _ _ _ _ two_cbs_rev).
  replace (vdot _ _) with 0 by (unfold vdot, vsub; cbn; ring).
  cbn [feed]. unfold distance_cb at 1. cbn [shift dist eltb]. destruct (Rlt_dec 0 (0 + -1 * 1)); [lra|].
  unfold distance_cb at 1. cbn [shift dist eltb]. destruct (Rlt_dec 0 (0 + -1 * 0)); [lra|].
  unfold distance_cb at 1. cbn [shift dist eltb hier fst].
  assert (E1 : emax (emax MInf (Fin 0)) (Fin (0 + -1 * 0)) = Fin 0) by (try change (emax MInf (Fin 0)) with (Fin 0); rewrite !emax_fin; f_equal; unfold Rmax; repeat destruct (Rle_dec _ _); lra).
  rewrite E1. cbn [minus]. cbn [level_media const_medium inverse Z.eqb Pos.eqb]. unfold quotient.
  destruct (Req_EM_T 1 0); [lra|]. replace ((100 / 100 - 0) / 1) with 1 by field.
  destruct (Rle_dec 0 1); [|lra]. cbn [feed]. do 2 f_equal. ring.
Qed.

(** In detector coordinates the direction is not reversed: 0.5 m instead of 1 m. *)
Theorem C31_detector_refuted : exists media l (m : frame Datatypes.unit) p dir X, 0 < X /\
  column_distance_to_det media m l p dir X = Ok (Fin (1 / 2)) /\
  column_distance_to media l (to_geo m p) (to_geo_dir m dir) X = Ok (Fin 1) /\
  column_distance_det media m l p (vneg dir) X = Ok (Fin 1).
Proof.
  exists (level_media 1 2), two_line, same_frame, (mkv 0 0 0), (mkv 1 0 0), 100. split; [lra|].
  unfold column_distance_to_det, column_distance_to, column_distance_det. rewrite !same_geo, !same_geo_dir.
  split; [apply two_forward|]. split; apply two_backward.
Qed.
Print Assumptions C31_detector_refuted.


Lemma two_forward_interaction : interaction_distance (level_media 1 2) (fun _ => [1]) [1] None two_line (mkv 0 0 0) (mkv 1 0 0) 100 = Ok (Fin (1 / 2)).
Proof.
  unfold interaction_distance. cbv zeta. destruct (Rlt_dec 100 0); [lra|].
  assert (Ec : forall h, composition (fun _ => [1]) [1] h = 1) by (intros h; unfold composition, plain_sum; cbn; ring).
  replace (backward two_line (mkv 1 0 0)) with false by (symmetry; apply (backward_ok true two_line); unfold vdot; cbn; ring). cbn [negb].
  change (l_hits two_line) with two_hits. rewrite (C26_any_callback _ _ _ _ _ _ _ two_cbs).
  replace (vdot _ _) with 0 by (unfold vdot, vsub; cbn; ring).
  cbn [feed]. unfold distance_cb at 1. cbn [shift dist eltb]. destruct (Rlt_dec 0 (0 + 1 * 0)); [lra|].
  unfold distance_cb at 1. cbn [shift dist eltb hier fst]. destruct (Rlt_dec 0 (0 + 1 * 1)); [|lra].
  assert (E1 : emax (emax (Fin (0 + 1 * 0)) (Fin 0)) (Fin (0 + 1 * 0)) = Fin 0) by (try change (emax MInf (Fin 0)) with (Fin 0); rewrite !emax_fin; f_equal; unfold Rmax; repeat destruct (Rle_dec _ _); lra).
  rewrite E1. cbn [minus]. unfold ask_interaction. cbv zeta. rewrite Ec. destruct (Req_EM_T 1 0); [lra|].
  cbn [level_media const_medium inverse Z.eqb Pos.eqb]. unfold const_inverse, quotient.
  destruct (Req_EM_T 2 0); [lra|]. replace ((100 - 0) / 100 / 1 / 2) with (1 / 2) by field. destruct (Rlt_dec (0 + 1 * 1 - 0) (1 / 2)); [lra|].
  destruct (Rle_dec 0 (1 / 2)); [|lra]. do 2 f_equal. ring.
Qed.

Lemma two_backward_interaction : interaction_distance (level_media 1 2) (fun _ => [1]) [1] None two_line (mkv 0 0 0) (vneg (mkv 1 0 0)) 100 = Ok (Fin 1).
Proof.
  unfold interaction_distance. cbv zeta. destruct (Rlt_dec 100 0); [lra|].
  assert (Ec : forall h, composition (fun _ => [1]) [1] h = 1) by (intros h; unfold composition, plain_sum; cbn; ring).
  change (vneg (mkv 1 0 0)) with (dirn false (l_direction two_line)).
  rewrite (backward_ok false two_line) by (unfold vdot; cbn; ring). cbn [negb].
  change (l_hits two_line) with two_hits. rewrite (C26_any_callback _ _ _ _ _ _ _ two_cbs_rev).
  replace (vdot _ _) with 0 by (unfold vdot, vsub; cbn; ring).
  cbn [feed]. unfold distance_cb at 1. cbn [shift dist eltb]. destruct (Rlt_dec 0 (0 + -1 * 1)); [lra|].
  unfold distance_cb at 1. cbn [shift dist eltb]. destruct (Rlt_dec 0 (0 + -1 * 0)); [lra|].
  unfold distance_cb at 1. cbn [shift dist eltb hier fst].
  assert (E1 : emax (emax MInf (Fin 0)) (Fin (0 + -1 * 0)) = Fin 0) by (try change (emax MInf (Fin 0)) with (Fin 0); rewrite !emax_fin; f_equal; unfold Rmax; repeat destruct (Rle_dec _ _); lra).
  rewrite E1. cbn [minus]. unfold ask_interaction. cbv zeta. rewrite Ec. destruct (Req_EM_T 1 0); [lra|].
  cbn [level_media const_medium inverse Z.eqb Pos.eqb]. unfold quotient.
  destruct (Req_EM_T 1 0); [lra|]. replace ((100 - 0) / 100 / 1 / 1) with 1 by field.
  destruct (Rle_dec 0 1); [|lra]. cbn [feed]. do 2 f_equal. ring.
Qed.

Theorem C31_detector_interaction_refuted : exists media fractions sigma l (m : frame Datatypes.unit) p dir X, 0 < X /\
  interaction_distance_to_det media fractions sigma None m l p dir X = Ok (Fin (1 / 2)) /\
  interaction_distance_to media fractions sigma None l (to_geo m p) (to_geo_dir m dir) X = Ok (Fin 1) /\
  interaction_distance_det media fractions sigma None m l p (vneg dir) X = Ok (Fin 1).
Proof.
  exists (level_media 1 2), (fun _ => [1]), [1], two_line, same_frame, (mkv 0 0 0), (mkv 1 0 0), 100. split; [lra|].
  unfold interaction_distance_to_det, interaction_distance_to, interaction_distance_det. rewrite !same_geo, !same_geo_dir.
  split; [apply two_forward_interaction|]. split; apply two_backward_interaction.
Qed.
Print Assumptions C31_detector_interaction_refuted.

(** The hypotheses of the theorems on distances hold for the two sectors: depth 100 is
    reached after 0.5 m one way and 1 m the other way. *)
Example C29_case :
  (forall h, invertible 0 (l_direction two_line) (level_dens 1 2 h) (level_media 1 2 h)) /\
  column_distance (level_media 1 2) two_line (mkv 0 0 0) (mkv 1 0 0) 100 = Ok (Fin (1 / 2)) /\
  column_distance (level_media 1 2) two_line (mkv 0 0 0) (vneg (mkv 1 0 0)) 100 = Ok (Fin 1) /\
  column_distance (level_media 1 2) two_line (mkv 0 0 0) (mkv 1 0 0) (- (100)) = Ok (Fin (- 1)).
Proof.
  split. { intros h. unfold level_media, level_dens. destruct (Z.eqb h 1); apply const_invertible; lra. }
  split; [apply two_forward|]. split; [apply two_backward|].
  rewrite C29_negative, two_backward by lra. reflexivity.
Qed.
Example C31_case : column_distance_to (level_media 1 2) two_line (mkv 0 0 0) (mkv 1 0 0) 100 = Ok (Fin 1).
Proof. apply two_backward. Qed.
