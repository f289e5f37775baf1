(** Property C110, second part: column depths of [DetectorModel] along paths. *)
From Coquelicot Require Import Coquelicot.
From Coq Require Import Reals Lra List Bool ZArith Permutation.
From Verif Require Import TraversalModel TraversalSpec VectorModel QuatModel QuatSpec QuatProofs QuatPlace DensityProofs DepthModel DepthSpec DepthProofs DepthMain DepthProps
  PathModel PathSpec PathProofs PathMain PathProps PathDepthSpec PathDepthProofs PathDepthProps.
Import ListNotations.
Open Scope R_scope.

(** The detector of [column_detector] with [DistanceForColumnDepthFromPoint], DetectorModel.cxx:1050-1104; for infinite depths
    and points, which are not considered, the answer is NaN. *)
Definition column_reach (media : Z -> medium) : Datatypes.unit -> line -> pt -> vec -> num -> num :=
  fun _ l p e x => match p, x with
                   | At u, Num X => match column_distance media l u e X with Ok r => from_ext r | _ => NaN end
                   | _, _ => NaN
                   end.

(** A hundred times the line integral of the density. *)
Definition column (g : vec -> R) (_ : Datatypes.unit) (u v : vec) : R :=
  100 * RInt (fun t => vmag (vsub v u) * g (vadd u (vscale t (vsub v u)))) 0 1.

Lemma column_along g q u v I : along g u v I -> column g q u v = 100 * I.
Proof. intros H. unfold column. f_equal. exact (is_RInt_unique _ _ _ _ H). Qed.

Lemma mag_zero v : vmag v = 0 -> v = mkv 0 0 0.
Proof.
  intros H. destruct v as [x y z]. unfold vmag in H. cbn in H. apply sqrt_eq_0 in H; [|nra]. assert (x = 0) by nra. assert (y = 0) by nra. assert (z = 0) by nra. subst. reflexivity.
Qed.

(** Along every line, from any point, the crossings are those of sectors within one that is everywhere. *)
Definition everywhere (cast : pt -> vec -> line) (media : Z -> medium) (dens : Z -> vec -> R) (g : vec -> R) (eps : R) : Prop :=
  forall a d, vdot d d = 1 -> l_position (cast (At a) d) = a /\ l_direction (cast (At a) d) = d /\
    (forall h, lawful d (dens h) (media h)) /\ (forall h, invertible eps d (dens h) (media h)) /\
    exists ss, sees (cast (At a) d) ss MInf PInf /\ describes (cast (At a) d) ss dens g.

Section Column.
Variable f : frame Datatypes.unit.
Variable cast : pt -> vec -> line.
Variable media : Z -> medium.
Variable dens : Z -> vec -> R.
Variable g : vec -> R.
Variable eps : R.
Hypothesis E : everywhere cast media dens g eps.
Hypothesis G : forall v, 0 <= g v.

Lemma on_cast a d t : vdot d d = 1 -> on (cast (At a) d) MInf PInf (along_by a d t).
Proof. intros U. destruct (E a d U) as (E1 & E2 & _). exists t. rewrite E1, E2. split; [reflexivity|]. split; reflexivity. Qed.

Lemma has_integral u v : exists I, along g u v I.
Proof.
  destruct (Req_EM_T (vmag (vsub v u)) 0) as [Z|Z]; [exists 0; apply along_zero, Z|].
  assert (N : vsub v u <> mkv 0 0 0). { intros K. apply Z. rewrite K. unfold vmag. cbn. replace (0 * 0 + 0 * 0 + 0 * 0) with 0 by ring. apply sqrt_0. }
  destruct (normalized_unit _ N) as [U _]. set (d := vnormalized (vsub v u)) in *.
  destruct (E u d U) as (E1 & E2 & HL & _ & ss & S1 & D1).
  assert (V : v = along_by u d (vmag (vsub v u))). { unfold along_by, d. rewrite normalized_back by exact N. destruct u, v; unfold vadd, vsub; cbn; f_equal; ring. }
  destruct (C28_depth media dens g (cast (At u) d) ss MInf PInf u v) as (I & _ & A); auto.
  - intros h. rewrite E2. apply HL.
  - pose proof (on_cast u d 0 U) as O. rewrite along_0 in O. exact O.
  - pose proof (on_cast u d (vmag (vsub v u)) U) as O. rewrite <- V in O. exact O.
  - exists I. exact A.
Qed.

Lemma column_split q u d s t : 0 <= s -> 0 <= t -> column g q u (along_by u d (s + t)) = column g q u (along_by u d s) + column g q (along_by u d s) (along_by u d (s + t)).
Proof.
  intros S T. destruct (has_integral u (along_by u d s)) as [I A]. destruct (has_integral (along_by u d s) (along_by u d (s + t))) as [J B].
  rewrite (column_along _ _ _ _ _ A), (column_along _ _ _ _ _ B).
  destruct (Req_EM_T (s + t) 0) as [Z|Z].
  - assert (s = 0) by lra. assert (t = 0) by lra. subst s t. rewrite Rplus_0_r in *. rewrite along_0 in *.
    assert (Z0 : along g u u 0) by (apply along_zero; unfold vmag, vsub; cbn; match goal with |- sqrt ?e = 0 => replace e with 0 by ring end; apply sqrt_0).
    rewrite (column_along _ _ _ _ _ Z0). rewrite (along_unique _ _ _ _ _ A Z0), (along_unique _ _ _ _ _ B Z0). ring.
  - rewrite (column_along g q u _ (I + J)); [ring|]. set (v := along_by u d (s + t)).
    assert (P : along_by u d s = point u (vsub v u) (s / (s + t))).
    { unfold v, along_by, point. destruct u, d; unfold vadd, vsub, vscale; cbn. f_equal; field; exact Z. }
    apply (along_split g u v (s / (s + t))).
    + split; [apply Rdiv_le_0_compat; lra|]. apply Rmult_le_reg_r with (s + t); [lra|]. replace (s / (s + t) * (s + t)) with s by (field; exact Z). lra.
    + rewrite <- P. exact A.
    + rewrite <- P. exact B.
Qed.

Lemma column_measures : measures (column_detector f cast media (column_reach media)) (column g).
Proof.
  split; [|split; [|split; [|split]]].
  - intros q a d s t U. cbn. destruct (E a d U) as (E1 & E2 & HL & _ & ss & S1 & D1).
    destruct (C28_depth media dens g (cast (At a) d) ss MInf PInf (along_by a d s) (along_by a d t)) as (I & C & A); auto using on_cast.
    { intros h. rewrite E2. apply HL. }
    rewrite C, (column_along _ _ _ _ _ A). reflexivity.
  - intros q u v. destruct (has_integral u v) as [I A]. rewrite (column_along _ _ _ _ _ A). pose proof (along_nonneg g u v I G A). lra.
  - intros q u. rewrite (column_along g q u u 0); [ring|]. apply along_zero. unfold vmag, vsub; cbn. match goal with |- sqrt ?e = 0 => replace e with 0 by ring end. apply sqrt_0.
  - intros q u v. destruct (has_integral u v) as [I A]. rewrite (column_along _ _ _ _ _ A), (column_along _ _ _ _ _ (along_sym _ _ _ _ A)). reflexivity.
  - intros q u d s t S T. apply column_split; auto.
Qed.

Lemma column_forward a d s e X : vdot d d = 1 -> e = d \/ e = vneg d -> 0 < X -> let u := along_by a d s in
  (exists t, column_distance media (cast (At a) d) u e X = Ok (Fin t) /\ 0 <= t /\ Rabs (column g tt u (along_by u e t) - X) <= 100 * eps) \/
  (column_distance media (cast (At a) d) u e X = Ok PInf /\ forall t, 0 <= t -> column g tt u (along_by u e t) < X).
Proof.
  intros U De PX u. destruct (E a d U) as (E1 & E2 & HL & HI & ss & S1 & D1). set (l := cast (At a) d) in *.
  assert (O : forall t, on l MInf PInf (along_by u e t)). { intros t. destruct De as [->| ->]; unfold u; [rewrite along_back|rewrite PathDepthProofs.along_neg, along_back]; apply on_cast, U. }
  assert (O0 : on l MInf PInf u) by (pose proof (O 0) as O0; rewrite along_0 in O0; exact O0).
  unfold column_distance. cbv zeta. destruct (Rlt_dec (X / 100) 0); [lra|].
  destruct (from_ok media dens l ss MInf PInf (fun _ => 1) (fun h p target len => inverse (media h) p e target len) eps (X / 100) g u e) as (t & res & R1 & R2).
  - intros h. rewrite E2. apply HL.
  - exact S1.
  - apply describes_one, D1.
  - exact O0.
  - rewrite E2. exact De.
  - lra.
  - intros h p target len Ht Hl. pose proof (HI h p e target len De Ht Hl) as F.
    assert (Ef : forall L I, is_RInt (fun s => dens h (point p e s) * 1) 0 L I -> is_RInt (fun s => dens h (point p e s)) 0 L I).
    { intros L I. apply is_RInt_ext. intros x _. apply Rmult_1_r. }
    destruct F as [(q & F1 & F2 & F3 & F4)|(F1 & F2)]; [left|right].
    + exists q. split; [auto|split; [auto|split; [auto|]]]. intros I HI'. apply F4. apply Ef; auto.
    + split; auto. intros L I HL' Hle HI'. apply (F2 L I); auto.
  - rewrite R1. destruct R2 as [(L & I & -> & A1 & A2 & A3 & A4)|(B1 & B2)]; [left|right].
    + exists L. split; [reflexivity|]. split; [exact A1|]. change (along_by u e L) with (point u e L). rewrite (column_along _ _ _ _ _ A3).
      replace (100 * I - X) with (100 * (I - X / 100)) by field. rewrite Rabs_mult, (Rabs_right 100) by lra. lra.
    + rewrite (B2 eq_refl eq_refl). split; [reflexivity|]. intros z Hz. destruct (has_integral u (along_by u e z)) as [I A]. rewrite (column_along _ _ _ _ _ A). pose proof (B1 z I Hz (O z) A). lra.
Qed.

Lemma column_locates : locates (column_detector f cast media (column_reach media)) (column g) (100 * eps).
Proof.
  intros [] a d s e X U De. cbv zeta. cbn [d_reach column_detector column_reach d_cast]. set (u := along_by a d s). split; intros N.
  - destruct (column_forward a d s e X U De N) as [(t & A & B & C)|(A & B)]; fold u in A; rewrite A; cbn [from_ext]; [left|right]; [exists t|]; auto.
  - assert (De' : vneg e = d \/ vneg e = vneg d) by (destruct De as [->| ->]; [right; reflexivity|left; apply neg_neg]).
    pose proof (C29_negative media (cast (At a) d) u e (- X) ltac:(lra)) as K. rewrite Ropp_involutive in K. rewrite K.
    destruct (column_forward a d s (vneg e) (- X) U De' ltac:(lra)) as [(t & A & B & C)|(A & B)]; fold u in A; rewrite A; cbn [from_ext negate]; [left|right].
    + exists (- t). split; [reflexivity|]. split; [lra|]. rewrite PathDepthProofs.along_neg in C. fold u in C. replace (column g tt u (along_by u e (- t)) + X) with (column g tt u (along_by u e (- t)) - - X) by ring. exact C.
    + split; [reflexivity|]. intros t T. specialize (B (- t) ltac:(lra)). rewrite PathDepthProofs.along_neg, Ropp_involutive in B. exact B.
Qed.
End Column.

(** Column depths and the distances for them are as the theorems C110 need them. *)
Theorem C110_column : forall f cast media dens g eps, everywhere cast media dens g eps -> (forall v, 0 <= g v) ->
  let m := column_detector f cast media (column_reach media) in measures m (column g) /\ locates m (column g) (100 * eps).
Proof. intros f cast media dens g eps E G. split; [eapply column_measures|eapply column_locates]; eauto. Qed.
Print Assumptions C110_column.

(** ** A uniform detector of density 2 *)
Definition open_sectors : list (sector ext) := [mksector 0%Z [(MInf, PInf)]].
Definition open_cast (p : pt) (d : vec) : line := mkline (place_of p) d [mkix MInf 0%Z true; mkix PInf 0%Z false].
Definition uniform : detector Datatypes.unit := column_detector home open_cast (fun _ => const_medium 2) (column_reach (fun _ => const_medium 2)).

Lemma open_everywhere : everywhere open_cast (fun _ => const_medium 2) (fun _ _ => 2) (fun _ => 2) 0.
Proof.
  intros a d U. split; [reflexivity|]. split; [reflexivity|]. split; [intros _; apply const_lawful|]. split; [intros _; apply const_invertible; lra|].
  exists open_sectors. split; [|intros z h _; reflexivity]. split; [exact U|]. split; [|split].
  - split; [|repeat constructor; cbn; intuition discriminate]. repeat constructor.
  - exists (mksector 0%Z [(MInf, PInf)]). split; [|reflexivity]. split; [left; reflexivity|].
    exists MInf, PInf. split; [reflexivity|]. intros s iv _ _. unfold leT, elt. split; [destruct (fst iv)|destruct (snd iv)]; cbn; discriminate.
  - exists (crossings open_sectors). split; [reflexivity|]. reflexivity.
Qed.
Lemma uniform_proper : proper uniform.
Proof. split; [apply unit_nonzero, qone_unit|split; [left; apply qone_unit|]]. intros a d. split; reflexivity. Qed.
Lemma uniform_column u v : column (fun _ => 2) tt u v = 200 * vmag (vsub v u).
Proof.
  unfold column. replace (200 * vmag (vsub v u)) with (100 * (vmag (vsub v u) * 2)) by ring. f_equal.
  apply is_RInt_unique. evar_last; [apply @is_RInt_const|]. unfold scal; cbn; unfold mult; cbn. ring.
Qed.
Lemma uniform_along u d t : vdot d d = 1 -> column (fun _ => 2) tt u (along_by u d t) = 200 * Rabs t.
Proof.
  intros U. rewrite uniform_column. f_equal. replace (vsub (along_by u d t) u) with (vscale t d).
  - rewrite vmag_scale, unit_mag by exact U. ring.
  - destruct u, d; unfold along_by, vadd, vsub, vscale; cbn; f_equal; ring.
Qed.

(** From 0 to 3: 600, and 800 once 200 are added at either end. *)
Example C110_case : exists p, proper uniform /\ measures uniform (column (fun _ => 2)) /\ locates uniform (column (fun _ => 2)) 0 /\ history uniform p /\ set_geo p = true /\
  first (get_geo_ends p) = At (mkv 0 0 0) /\ get_distance p = Num 3 /\ (exists p1, depth_in_bounds tt p = Ok (p1, Num 600)) /\
  (exists p', fair uniform (ExtendEndBy tt (Num 200)) p /\ extend_end_by tt (Num 200) p = Ok p' /\ exists p2, depth_in_bounds tt p' = Ok (p2, Num 800)) /\
  (exists p2, depth_start_reverse tt (Num 2) p = Ok (p2, Num 400)).
Proof.
  pose proof (ray_history uniform 0 1 3 ltac:(lra) ltac:(lra)) as H. set (p := stretch _ _ _ _ _ _ _ _ _) in H. exists p.
  destruct (C110_column home open_cast _ _ _ 0 open_everywhere ltac:(intros; lra)) as [M L]. fold uniform in M, L. rewrite Rmult_0_r in L.
  assert (F : first (get_geo_ends p) = At (mkv 0 0 0)) by reflexivity.
  assert (La : last (get_geo_ends p) = At (along_by (mkv 0 0 0) ex 3)) by reflexivity.
  assert (D : exists p1, depth_in_bounds tt p = Ok (p1, Num 600)).
  { destruct (C110_split Datatypes.unit uniform _ p tt 0 _ _ 3 uniform_proper M H eq_refl F La eq_refl ltac:(lra)) as (p0 & _ & _ & _ & _ & A & _). exists p0. rewrite A.
    rewrite uniform_along by apply ex_unit. rewrite Rabs_pos_eq by lra. do 3 f_equal. lra. }
  split; [exact uniform_proper|]. split; [exact M|]. split; [exact L|]. split; [exact H|]. split; [reflexivity|]. split; [exact F|]. split; [reflexivity|]. split; [exact D|]. split.
  - assert (R : exists r t, reach_end_along tt (Num 200) p = Ok (r, Num t) /\ sound uniform r /\ set_geo r = true /\ last_inf r = false).
    { pose proof (history_sound uniform uniform_proper p H) as S.
      destruct (finite_ready uniform p _ _ uniform_proper S eq_refl F La) as (r & a0 & d0 & x & PR & Sr & Gr & Mr & EG & EL & X0 & Eb & I1 & I2 & SC & EC & U & De & DN & A & [s B]).
      destruct (L tt a0 d0 s (dir (geo r)) 200 U De) as [Q1 _]. cbv zeta in Q1. rewrite <- B in Q1. destruct (Q1 ltac:(lra)) as [(t & T & _)|(_ & T)].
      - exists r, t. split; [|auto]. unfold reach_end_along. rewrite PR. cbn [bind]. unfold require. rewrite I2. cbn [bind]. unfold ask. rewrite Mr, EC. rewrite EG, La, <- EG, T. reflexivity.
      - exfalso. specialize (T 1 ltac:(lra)). rewrite uniform_along, Rabs_R1 in T; [lra|]. destruct De as [->| ->]; [exact U|apply unit_neg, U]. }
    destruct R as (r & t & R & Sr & Gr & I2). destruct (extend_end_ok uniform t r Sr Gr I2) as [p' E]. exists p'.
    assert (FA : fair uniform (ExtendEndBy tt (Num 200)) p). { split; [intros _; eauto|]. intros r' R'. rewrite R in R'. injection R' as <-. exists t. reflexivity. }
    assert (EB : extend_end_by tt (Num 200) p = Ok p') by (unfold extend_end_by; rewrite R; exact E).
    split; [exact FA|]. split; [exact EB|]. destruct D as [p1 D].
    destruct (C110_by Datatypes.unit uniform _ 0 p tt 200 _ _ p1 600 p' uniform_proper M L H eq_refl F La ltac:(lra) D) as (C & _).
    destruct (C FA EB) as (p2 & D' & E2 & B). exists p2. rewrite E2. do 3 f_equal. apply abs_between in B. rewrite Rmax_right in B by lra. lra.
  - destruct (C110_from_start Datatypes.unit uniform _ p tt 2 _ uniform_proper M H eq_refl F) as (_ & (p2 & E) & _). exists p2. rewrite E. rewrite uniform_along by apply ex_unit.
    rewrite Rabs_Ropp, Rabs_pos_eq by lra. unfold signed. destruct (Rlt_dec 2 0); [lra|]. do 3 f_equal. lra.
Qed.
