(** Property theorems on the ordering of distributions (C60) and geometries (C79). *)
From Coq Require Import List Bool ZArith Lia Arith Reals Lra.
From Verif Require Import OrderModel OrderSpec OrderProofs RankModel RankDistModel RankSpec RankProofs RankDistProofs.
Import ListNotations.

(** ** C79: geometries *)
Theorem C79_ordered : forall D (dc : cmp D) (type_order : class -> Z), ordered dc ->
  (forall i j, type_order i = type_order j -> i = j) -> ordered (geometry_cmp D dc type_order).
Proof. exact geometry_ordered. Qed.
Print Assumptions C79_ordered.

(** Equal geometries have the same members, at every level. *)
Theorem C79_equality : forall D (dc : cmp D), (forall a b, eq_ dc a b = true <-> a = b) ->
  forall type_order g h, eq_ (geometry_cmp D dc type_order) g h = true <-> g = h.
Proof. intros D dc H t g h. exact (geometry_same D dc H g h). Qed.
Print Assumptions C79_equality.

Definition unplaced (x : Z) : placement Z := mkplacement Z (mkv3 Z x 0 0 0 0 0) (mkq4 Z 0 0 0 1).
Definition cube (w x : Z) : geometry Z := Geometry Z [98%Z] (unplaced x) (IsBox Z (mkbox Z w w w)).
Definition joined (a b : geometry Z) : geometry Z := Geometry Z [98%Z] (unplaced 0) (IsBoolean Z 1 (Some a) (Some b)).
Definition class_order (c : class) : Z :=
  match c with
  | ClassBox => 0 | ClassConeSolid => 1 | ClassCutTube => 2 | ClassCylinder => 3 | ClassEllipsoid => 4 | ClassEllipticalTube => 5
  | ClassExtrPoly => 6 | ClassGenericPolycone => 7 | ClassPara => 8 | ClassPolycone => 9 | ClassPolyhedra => 10 | ClassSphere => 11
  | ClassTorus => 12 | ClassTrap => 13 | ClassTrd => 14 | ClassMesh => 15 | ClassBoolean => 16
  end.
Lemma class_order_inj i j : class_order i = class_order j -> i = j.
Proof. destruct i, j; cbn; intros E; try discriminate E; auto. Qed.

Example C79_case : let c := geometry_cmp Z int_cmp class_order in
  ordered int_cmp /\ (forall i j, class_order i = class_order j -> i = j) /\
  lt_ c (joined (cube 1 0) (cube 2 3)) (joined (cube 1 0) (cube 2 4)) = true /\
  eq_ c (joined (cube 1 0) (cube 2 3)) (joined (cube 1 0) (cube 2 3)) = true /\
  lt_ c (cube 5 5) (joined (cube 1 0) (cube 1 0)) = true.
Proof. split; [exact int_ordered|]. split; [exact class_order_inj|]. repeat split. Qed.

(** The spherical coordinates, set only on request, take part: the same place is not
    always equal. *)
Theorem C79_place_refuted : exists (g h : geometry Z),
  eq_ (geometry_cmp Z int_cmp class_order) g h = false /\
  (let v (g : geometry Z) := pl_position Z (g_place Z g) in
   v3_x Z (v g) = v3_x Z (v h) /\ v3_y Z (v g) = v3_y Z (v h) /\ v3_z Z (v g) = v3_z Z (v h)) /\
  g_name Z g = g_name Z h /\ g_body Z g = g_body Z h.
Proof.
  exists (Geometry Z [] (mkplacement Z (mkv3 Z 1 0 0 0 0 0) (mkq4 Z 0 0 0 1)) (IsBox Z (mkbox Z 1 1 1))),
         (Geometry Z [] (mkplacement Z (mkv3 Z 1 0 0 1 0 0) (mkq4 Z 0 0 0 1)) (IsBox Z (mkbox Z 1 1 1))).
  repeat split.
Qed.
Print Assumptions C79_place_refuted.

(** ** C60: distributions *)
Open Scope R_scope.
(** All classes whose two operators look at the same members, together. *)
Theorem C60_ordered : forall D (dc : cmp D) aligned (solid_order : class -> Z) (type_order : nat -> Z), ordered dc ->
  (forall i j, solid_order i = solid_order j -> i = j) -> (forall i j, type_order i = type_order j -> i = j) ->
  ordered (on (@proj1_sig _ (fun d => comparable D d = true))
              (distribution_cmp D dc (geometry_cmp D dc solid_order) aligned type_order)).
Proof. intros D dc al so ty H S T. apply comparable_ordered; auto. apply geometry_ordered; auto. Qed.
Print Assumptions C60_ordered.

(** Equal distributions only differ in their normalization. *)
Theorem C60_distinct : forall D (dc : cmp D) aligned solid_order type_order, (forall a b, eq_ dc a b = true <-> a = b) ->
  forall n a b, complete D a = true -> complete D b = true ->
  eq_ (distribution_cmp D dc (geometry_cmp D dc solid_order) aligned type_order) a b = true <->
  renormalized D n a = renormalized D n b.
Proof. intros D dc al so ty H n a b A B. apply (equal_same D dc); auto. exact (geometry_same D dc H). Qed.
Print Assumptions C60_distinct.

(** Normalization constants among themselves. *)
Theorem C60_constants : forall D (dc : cmp D) sc aligned type_order, ordered dc ->
  ordered (on (NormalizationConstant D) (distribution_cmp D dc sc aligned type_order)).
Proof. intros. apply constant_ordered; auto. Qed.
Print Assumptions C60_constants.

(** The position distributions whose [less] leaves out a member: an order where that
    member is the same for all. Missing: different radii, origins and range functions
    (refuted below). *)
Theorem C60_column_partial : forall D (dc : cmp D) sc aligned type_order r, ordered dc ->
  ordered (on (fun p => ColumnDepthPosition D r (fst p) (snd p)) (distribution_cmp D dc sc aligned type_order)).
Proof. intros. apply column_ordered; auto. Qed.
Print Assumptions C60_column_partial.
Theorem C60_decay_partial : forall D (dc : cmp D) sc aligned type_order r, ordered dc ->
  ordered (on (fun p => DecayRangePosition D r (fst p) (snd p)) (distribution_cmp D dc sc aligned type_order)).
Proof. intros. apply decay_ordered; auto. Qed.
Print Assumptions C60_decay_partial.
Theorem C60_source_partial : forall D (dc : cmp D) sc aligned type_order o, ordered dc ->
  ordered (on (PointSource D o) (distribution_cmp D dc sc aligned type_order)).
Proof. intros. apply source_ordered; auto. Qed.
Print Assumptions C60_source_partial.
Theorem C60_range_partial : forall D (dc : cmp D) sc aligned type_order r f, ordered dc ->
  ordered (on (fun p => RangePosition D r (fst p) f (snd p)) (distribution_cmp D dc sc aligned type_order)).
Proof. intros. apply range_position_ordered; auto. Qed.
Print Assumptions C60_range_partial.

Definition real_cmp : cmp (distribution R) :=
  distribution_cmp R num_cmp (geometry_cmp R num_cmp class_order) near Z.of_nat.

Lemma num_lt x y : (x < y)%R -> lt_ num_cmp x y = true.
Proof. intros L. cbn. destruct (Rlt_dec x y); auto; contradiction. Qed.
Lemma num_eq x : eq_ num_cmp x x = true.
Proof. apply num_same. auto. Qed.
Lemma num_neq x y : x <> y -> eq_ num_cmp x y = false.
Proof. intros N. cbn. destruct (Req_EM_T x y); auto; contradiction. Qed.
Lemma num_irr x : lt_ num_cmp x x = false.
Proof. apply (ord_irrefl _ num_ordered). Qed.

Example C60_case : ordered num_cmp /\ (forall i j, class_order i = class_order j -> i = j) /\ (forall i j, Z.of_nat i = Z.of_nat j -> i = j) /\
  comparable R (PowerLaw R 1 1 10 2) = true /\ complete R (PowerLaw R 1 1 10 2) = true /\
  lt_ real_cmp (PowerLaw R 1 1 10 2) (PowerLaw R 1 1 10 3) = true /\ lt_ real_cmp (Monoenergetic R 1 7) (PowerLaw R 1 1 10 2) = true.
Proof.
  split; [exact num_ordered|]. split; [exact class_order_inj|]. split; [exact Nat2Z.inj|]. split; [auto|]. split; [auto|]. split; [|reflexivity].
  unfold real_cmp. cbn [lt_ distribution_cmp kind Nat.eqb less]. unfold nums. cbn [vec lt_ list_lt]. rewrite !num_irr.
  rewrite num_lt by lra. auto.
Qed.

(** [less] of the masses tests equality: every mass is less than itself, and different
    masses are not ordered. *)
Theorem C60_mass_refuted : exists a b : distribution R,
  lt_ real_cmp a a = true /\ eq_ real_cmp a b = false /\ lt_ real_cmp a b = false /\ lt_ real_cmp b a = false.
Proof.
  exists (PrimaryMass R 1), (PrimaryMass R 2). unfold real_cmp. cbn [lt_ eq_ distribution_cmp kind Nat.eqb less equal].
  rewrite num_eq, !num_neq by lra. auto.
Qed.
Print Assumptions C60_mass_refuted.

(** Fixed directions are never less than one another. *)
Lemma never_less : forall a b, lt_ real_cmp (FixedDirection R a) (FixedDirection R b) = false.
Proof.
  intros a b. unfold real_cmp. cbn [lt_ distribution_cmp kind Nat.eqb less]. destruct (near a b); auto.
  apply (ord_irrefl _ (nums_ordered R num_cmp num_ordered)).
Qed.

Definition axis (x y z : R) : vector3 R := mkv3 R x y z 0 0 0.

Theorem C60_direction_refuted : exists a b : distribution R,
  eq_ real_cmp a b = false /\ lt_ real_cmp a b = false /\ lt_ real_cmp b a = false.
Proof.
  exists (FixedDirection R (axis 0 0 1)), (FixedDirection R (axis 1 0 0)). split; [|split; apply never_less].
  cbn. unfold near, scalar; cbn. destruct (Rlt_dec _ _) as [L|]; auto. exfalso. rewrite Rabs_right in L by lra. lra.
Qed.
Print Assumptions C60_direction_refuted.

(** Equality of directions is not reflexive on copies (a direction is not normalized). *)
Theorem C60_copy_refuted : exists d : vector3 R, eq_ real_cmp (FixedDirection R d) (FixedDirection R d) = false.
Proof.
  exists (axis 0 0 2). cbn. unfold near, scalar; cbn. destruct (Rlt_dec _ _) as [L|]; auto. exfalso.
  rewrite Rabs_left in L by lra. lra.
Qed.
Print Assumptions C60_copy_refuted.

(** Nor transitive on directions of length one. *)
Theorem C60_tolerance_refuted : exists a b c : vector3 R, scalar a a = 1%R /\ scalar b b = 1%R /\ scalar c c = 1%R /\
  eq_ real_cmp (FixedDirection R a) (FixedDirection R b) = true /\ eq_ real_cmp (FixedDirection R b) (FixedDirection R c) = true /\
  eq_ real_cmp (FixedDirection R a) (FixedDirection R c) = false.
Proof.
  set (t := (2 / 10 ^ 5)%R). set (c := ((1 - t * t) / (1 + t * t))%R). set (s := (2 * t / (1 + t * t))%R).
  assert (T : (t * t = 4 / 10 ^ 10)%R) by (unfold t; lra).
  assert (N : (1 + t * t <> 0)%R) by lra.
  assert (C1 : (1 - c = 2 * (t * t) / (1 + t * t))%R) by (unfold c; field; auto).
  assert (S1 : (c * c + s * s = 1)%R) by (unfold c, s; field; auto).
  assert (B1 : (0 < 1 - c < 1 / 10 ^ 9)%R).
  { rewrite C1, T. split; [apply Rdiv_lt_0_compat; lra|]. apply (Rmult_lt_reg_r (1 + 4 / 10 ^ 10)); [lra|].
    unfold Rdiv at 1. rewrite Rmult_assoc, Rinv_l by lra. lra. }
  assert (B2 : (7 / 10 ^ 10 < 1 - c)%R).
  { rewrite C1, T. apply (Rmult_lt_reg_r (1 + 4 / 10 ^ 10)); [lra|]. unfold Rdiv at 3. rewrite Rmult_assoc, Rinv_l by lra. lra. }
  exists (axis c s 0), (axis 1 0 0), (axis c (- s) 0). unfold scalar; cbn [axis v3_x v3_y v3_z].
  split; [lra|]. split; [lra|]. split; [lra|]. cbn [real_cmp eq_ distribution_cmp equal]. unfold near, scalar; cbn [axis v3_x v3_y v3_z].
  split; [destruct (Rlt_dec _ _) as [|n]; auto; exfalso; apply n; rewrite Rabs_right; lra|].
  split; [destruct (Rlt_dec _ _) as [|n]; auto; exfalso; apply n; rewrite Rabs_right; lra|].
  destruct (Rlt_dec _ _) as [L|]; auto. exfalso. replace (1 - (c * c + s * - s + 0 * 0))%R with (2 * (1 - c) * (1 + c))%R in L by nra.
  rewrite Rabs_right in L by nra. nra.
Qed.
Print Assumptions C60_tolerance_refuted.

(** Cones about the same axis are never less, whatever their angles. *)
Theorem C60_cone_refuted : exists a b : distribution R,
  eq_ real_cmp a b = false /\ lt_ real_cmp a b = false /\ lt_ real_cmp b a = false.
Proof.
  exists (ConeDirection R (axis 0 0 1) 1), (ConeDirection R (axis 0 0 1) 2). unfold real_cmp. cbn [lt_ eq_ distribution_cmp kind Nat.eqb less equal].
  rewrite num_neq by lra. rewrite andb_false_r. replace (near (axis 0 0 1) (axis 0 0 1)) with true; auto.
  unfold near, scalar; cbn. destruct (Rlt_dec _ _) as [|n]; auto. exfalso; apply n. rewrite Rabs_pos_eq; lra.
Qed.
Print Assumptions C60_cone_refuted.

(** The radius, or the origin, is compared with itself. *)
Theorem C60_radius_refuted : exists a b a' b' a'' b'' : distribution R,
  (a, b) = (ColumnDepthPosition R 1 5 None, ColumnDepthPosition R 2 5 None) /\
  (a', b') = (DecayRangePosition R 1 5 None, DecayRangePosition R 2 5 None) /\
  (a'', b'') = (PointSource R (axis 0 0 0) 5, PointSource R (axis 1 0 0) 5) /\
  forall x y, In (x, y) [(a, b); (a', b'); (a'', b'')] ->
  eq_ real_cmp x y = false /\ lt_ real_cmp x y = false /\ lt_ real_cmp y x = false.
Proof.
  do 6 eexists. split; [reflexivity|]. split; [reflexivity|]. split; [reflexivity|]. intros x y [E|[E|[E|[]]]]; injection E as <- <-;
    unfold real_cmp; cbn [lt_ eq_ distribution_cmp kind Nat.eqb less equal]; rewrite ?(two_lt R num_cmp num_ordered), ?num_irr.
  - rewrite num_neq by lra. auto.
  - rewrite num_neq by lra. auto.
  - unfold pair_cmp. cbn [lt_ tie tie_lt on fst snd]. rewrite !(ord_irrefl _ (vector_ordered R num_cmp num_ordered)), !num_irr.
    unfold vector_cmp. cbn [eq_ tie tie_eq on axis v3_x]. rewrite num_neq by lra. auto.
Qed.
Print Assumptions C60_radius_refuted.

(** Two range distributions, each less than the other. *)
Theorem C60_range_refuted : exists a b : distribution R, lt_ real_cmp a b = true /\ lt_ real_cmp b a = true.
Proof.
  exists (RangePosition R 1 5 (Some (mkrange R 1 1 1 2)) [1%Z]), (RangePosition R 1 5 (Some (mkrange R 1 1 1 1)) [2%Z]).
  unfold real_cmp. cbn [lt_ distribution_cmp kind Nat.eqb less pointer_cmp]. unfold pair_cmp at 1 3. cbn [lt_ tie tie_lt on fst snd].
  rewrite !(two_lt R num_cmp num_ordered), !num_irr. unfold range_cmp. cbn [lt_ tie tie_lt on rf_particle_mass rf_decay_width rf_multiplier rf_max_distance].
  rewrite !num_irr, (num_lt 1 2) by lra. assert (E : lt_ num_cmp 2 1 = false) by (apply (ord_asym _ num_ordered), num_lt; lra). rewrite E. cbn [negb andb orb]. rewrite ?andb_false_r, ?orb_false_r. split; [rewrite (two_lt R num_cmp num_ordered), !num_irr; reflexivity|reflexivity].
Qed.
Print Assumptions C60_range_refuted.

(** A normalization constant equals any distribution with its normalization, but not the
    other way around, and it is ordered before or after it. *)
Theorem C60_constant_refuted : exists a b : distribution R,
  eq_ real_cmp a b = true /\ eq_ real_cmp b a = false /\ lt_ real_cmp a b = true.
Proof.
  exists (NormalizationConstant R 1), (PowerLaw R 1 1 10 2). unfold real_cmp. cbn [lt_ eq_ distribution_cmp kind Nat.eqb equal normalization_of].
  rewrite num_eq. auto.
Qed.
Print Assumptions C60_constant_refuted.

(** What equality does not see: the fiducial volume and the normalization. *)
Theorem C60_fiducial_refuted : exists g : solid R,
  eq_ real_cmp (SecondaryBounded R 1 None) (SecondaryBounded R 1 (Some g)) = true /\
  eq_ real_cmp (FixedTargetPosition R g None) (FixedTargetPosition R g (Some g)) = true.
Proof.
  exists (Geometry R [] (mkplacement R (axis 0 0 0) (mkq4 R 0 0 0 1)) (IsBox R (mkbox R 1 1 1))). split; [apply num_eq|].
  apply (geometry_same R num_cmp num_same). reflexivity.
Qed.
Print Assumptions C60_fiducial_refuted.
Theorem C60_normalization_refuted : exists a b : distribution R, normalization_of R a <> normalization_of R b /\ eq_ real_cmp a b = true.
Proof.
  exists (PowerLaw R 1 1 10 2), (PowerLaw R 5 1 10 2). split; [cbn; intros E; injection E as E; lra|].
  apply (C60_distinct R num_cmp near class_order Z.of_nat num_same 0); reflexivity.
Qed.
Print Assumptions C60_normalization_refuted.
