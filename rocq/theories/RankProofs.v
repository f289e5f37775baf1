(** Lemmas on the ordering of geometries. *)
From Coq Require Import List Bool ZArith Lia Arith.
From Verif Require Import OrderModel OrderSpec OrderProofs RankModel RankDistModel.
Import ListNotations.
Open Scope Z_scope.

Lemma pointer_ordered {A} (c : cmp A) : ordered c -> ordered (pointer_cmp c).
Proof.
  intros H. split; cbn.
  - intros [x|]; auto. apply (ord_irrefl _ H).
  - intros [x|] [y|] [z|]; try discriminate; auto. apply (ord_trans _ H).
  - intros [x|] [y|]; try (intuition discriminate). apply (ord_eq _ H).
  - intros [x|] [y|] [z|]; try discriminate; auto. apply (ord_eq_trans _ H).
Qed.

Section Rank.
Variable D : Type.
Variable dc : cmp D.
Variable type_order : class -> Z.
Hypothesis Hdc : ordered dc.
Hypothesis Hto : forall i j, type_order i = type_order j -> i = j.

Ltac tied := apply tie_ordered; repeat (constructor; [apply on_ordered|]); auto 8 using vec_ordered, int_ordered, bool_ordered, string_ordered.

Lemma vector_ordered : ordered (vector_cmp D dc). Proof. tied. Qed.
Lemma quaternion_ordered : ordered (quaternion_cmp D dc). Proof. tied. Qed.
Lemma placement_ordered : ordered (placement_cmp D dc). Proof. tied; auto using vector_ordered, quaternion_ordered. Qed.
Lemma zsection_ordered : ordered (zsection_cmp D dc). Proof. tied. Qed.

Lemma box_ordered : ordered (box_cmp D dc). Proof. tied; auto using vector_ordered, zsection_ordered, vec_ordered. Qed.
Lemma cone_solid_ordered : ordered (cone_solid_cmp D dc). Proof. tied; auto using vector_ordered, zsection_ordered, vec_ordered. Qed.
Lemma cut_tube_ordered : ordered (cut_tube_cmp D dc). Proof. tied; auto using vector_ordered, zsection_ordered, vec_ordered. Qed.
Lemma cylinder_ordered : ordered (cylinder_cmp D dc). Proof. tied; auto using vector_ordered, zsection_ordered, vec_ordered. Qed.
Lemma ellipsoid_ordered : ordered (ellipsoid_cmp D dc). Proof. tied; auto using vector_ordered, zsection_ordered, vec_ordered. Qed.
Lemma elliptical_tube_ordered : ordered (elliptical_tube_cmp D dc). Proof. tied; auto using vector_ordered, zsection_ordered, vec_ordered. Qed.
Lemma extr_poly_ordered : ordered (extr_poly_cmp D dc). Proof. tied; auto using vector_ordered, zsection_ordered, vec_ordered. Qed.
Lemma generic_polycone_ordered : ordered (generic_polycone_cmp D dc). Proof. tied; auto using vector_ordered, zsection_ordered, vec_ordered. Qed.
Lemma para_ordered : ordered (para_cmp D dc). Proof. tied; auto using vector_ordered, zsection_ordered, vec_ordered. Qed.
Lemma polycone_ordered : ordered (polycone_cmp D dc). Proof. tied; auto using vector_ordered, zsection_ordered, vec_ordered. Qed.
Lemma polyhedra_ordered : ordered (polyhedra_cmp D dc). Proof. tied; auto using vector_ordered, zsection_ordered, vec_ordered. Qed.
Lemma sphere_ordered : ordered (sphere_cmp D dc). Proof. tied; auto using vector_ordered, zsection_ordered, vec_ordered. Qed.
Lemma torus_ordered : ordered (torus_cmp D dc). Proof. tied; auto using vector_ordered, zsection_ordered, vec_ordered. Qed.
Lemma trap_ordered : ordered (trap_cmp D dc). Proof. tied; auto using vector_ordered, zsection_ordered, vec_ordered. Qed.
Lemma trd_ordered : ordered (trd_cmp D dc). Proof. tied; auto using vector_ordered, zsection_ordered, vec_ordered. Qed.
Lemma mesh_ordered : ordered (mesh_cmp D dc). Proof. tied; auto using vector_ordered, zsection_ordered, vec_ordered. Qed.

(** The body as one optional value per class. *)
Definition as_box (s : shape D) : option (box D) := match s with IsBox _ b => Some b | _ => None end.
Definition as_cone_solid (s : shape D) : option (cone_solid D) := match s with IsConeSolid _ b => Some b | _ => None end.
Definition as_cut_tube (s : shape D) : option (cut_tube D) := match s with IsCutTube _ b => Some b | _ => None end.
Definition as_cylinder (s : shape D) : option (cylinder D) := match s with IsCylinder _ b => Some b | _ => None end.
Definition as_ellipsoid (s : shape D) : option (ellipsoid D) := match s with IsEllipsoid _ b => Some b | _ => None end.
Definition as_elliptical_tube (s : shape D) : option (elliptical_tube D) := match s with IsEllipticalTube _ b => Some b | _ => None end.
Definition as_extr_poly (s : shape D) : option (extr_poly D) := match s with IsExtrPoly _ b => Some b | _ => None end.
Definition as_generic_polycone (s : shape D) : option (generic_polycone D) := match s with IsGenericPolycone _ b => Some b | _ => None end.
Definition as_para (s : shape D) : option (para D) := match s with IsPara _ b => Some b | _ => None end.
Definition as_polycone (s : shape D) : option (polycone D) := match s with IsPolycone _ b => Some b | _ => None end.
Definition as_polyhedra (s : shape D) : option (polyhedra D) := match s with IsPolyhedra _ b => Some b | _ => None end.
Definition as_sphere (s : shape D) : option (sphere D) := match s with IsSphere _ b => Some b | _ => None end.
Definition as_torus (s : shape D) : option (torus D) := match s with IsTorus _ b => Some b | _ => None end.
Definition as_trap (s : shape D) : option (trap D) := match s with IsTrap _ b => Some b | _ => None end.
Definition as_trd (s : shape D) : option (trd D) := match s with IsTrd _ b => Some b | _ => None end.
Definition as_mesh (s : shape D) : option (mesh D) := match s with IsMesh _ b => Some b | _ => None end.

Definition plain_cmp : cmp (shape D) :=
  tie [on as_box (pointer_cmp (box_cmp D dc));
       on as_cone_solid (pointer_cmp (cone_solid_cmp D dc));
       on as_cut_tube (pointer_cmp (cut_tube_cmp D dc));
       on as_cylinder (pointer_cmp (cylinder_cmp D dc));
       on as_ellipsoid (pointer_cmp (ellipsoid_cmp D dc));
       on as_elliptical_tube (pointer_cmp (elliptical_tube_cmp D dc));
       on as_extr_poly (pointer_cmp (extr_poly_cmp D dc));
       on as_generic_polycone (pointer_cmp (generic_polycone_cmp D dc));
       on as_para (pointer_cmp (para_cmp D dc));
       on as_polycone (pointer_cmp (polycone_cmp D dc));
       on as_polyhedra (pointer_cmp (polyhedra_cmp D dc));
       on as_sphere (pointer_cmp (sphere_cmp D dc));
       on as_torus (pointer_cmp (torus_cmp D dc));
       on as_trap (pointer_cmp (trap_cmp D dc));
       on as_trd (pointer_cmp (trd_cmp D dc));
       on as_mesh (pointer_cmp (mesh_cmp D dc))].

Lemma plain_ordered : ordered plain_cmp.
Proof.
  apply tie_ordered.
  constructor. { apply on_ordered, pointer_ordered, box_ordered. } constructor. { apply on_ordered, pointer_ordered, cone_solid_ordered. } constructor. { apply on_ordered, pointer_ordered, cut_tube_ordered. } constructor. { apply on_ordered, pointer_ordered, cylinder_ordered. } constructor. { apply on_ordered, pointer_ordered, ellipsoid_ordered. } constructor. { apply on_ordered, pointer_ordered, elliptical_tube_ordered. } constructor. { apply on_ordered, pointer_ordered, extr_poly_ordered. } constructor. { apply on_ordered, pointer_ordered, generic_polycone_ordered. } constructor. { apply on_ordered, pointer_ordered, para_ordered. } constructor. { apply on_ordered, pointer_ordered, polycone_ordered. } constructor. { apply on_ordered, pointer_ordered, polyhedra_ordered. } constructor. { apply on_ordered, pointer_ordered, sphere_ordered. } constructor. { apply on_ordered, pointer_ordered, torus_ordered. } constructor. { apply on_ordered, pointer_ordered, trap_ordered. } constructor. { apply on_ordered, pointer_ordered, trd_ordered. } constructor. { apply on_ordered, pointer_ordered, mesh_ordered. } constructor.
Qed.

Definition is_boolean (s : shape D) : bool := match s with IsBoolean _ _ _ _ => true | _ => false end.

Lemma plain_agree (s t : shape D) : class_of D s = class_of D t ->
  lt_ plain_cmp s t = plain_less D dc s t /\ (is_boolean s = false -> eq_ plain_cmp s t = plain_equal D dc s t).
Proof.
  intros E. destruct s, t; try discriminate E; cbn [plain_cmp plain_less plain_equal tie lt_ eq_ tie_lt tie_eq on pointer_cmp
    as_box as_cone_solid as_cut_tube as_cylinder as_ellipsoid as_elliptical_tube as_extr_poly as_generic_polycone as_para as_polycone as_polyhedra as_sphere as_torus as_trap as_trd as_mesh is_boolean];
    (split; [try (rewrite ?orb_false_r, ?orb_false_l, ?andb_false_r; cbn [negb andb]; rewrite ?orb_false_r, ?andb_false_r, ?orb_false_r; reflexivity)
            |try discriminate; intros _; rewrite ?andb_true_r; reflexivity]).
Qed.

Lemma plain_other (s t : shape D) : class_of D s <> class_of D t -> plain_equal D dc s t = false.
Proof. intros N. destruct s, t; cbn; auto; exfalso; apply N; reflexivity. Qed.

(** One level of the comparison over that of the operands. *)
Definition g_name (g : geometry D) := let (n, _, _) := g in n.
Definition g_place (g : geometry D) := let (_, p, _) := g in p.
Definition g_body (g : geometry D) := let (_, _, s) := g in s.
Definition g_type (g : geometry D) := type_order (class_of D (g_body g)).
Definition g_op (g : geometry D) := match g_body g with IsBoolean _ o _ _ => o | _ => 0 end.
Definition g_left (g : geometry D) := match g_body g with IsBoolean _ _ l _ => l | _ => None end.
Definition g_right (g : geometry D) := match g_body g with IsBoolean _ _ _ r => r | _ => None end.

Definition level (c : cmp (geometry D)) : cmp (geometry D) :=
  tie [on g_type int_cmp; on g_name string_cmp; on g_place (placement_cmp D dc); on g_body plain_cmp; on g_op int_cmp;
       on g_left (pointer_cmp c); on g_right (pointer_cmp c)].

Fixpoint approx (n : nat) : cmp (geometry D) :=
  match n with O => mkcmp (fun _ _ => false) (fun _ _ => true) | S n => level (approx n) end.

Lemma approx_ordered n : ordered (approx n).
Proof.
  induction n as [|n IH]; [split; cbn; auto; intuition discriminate|]. cbn [approx]. apply tie_ordered.
  repeat (constructor; [apply on_ordered|]); auto using int_ordered, string_ordered, placement_ordered, plain_ordered, pointer_ordered.
Qed.

Fixpoint depth (g : geometry D) : nat :=
  match g with
  | Geometry _ _ _ (IsBoolean _ _ l r) =>
      S (Nat.max (match l with Some a => depth a | None => 0 end) (match r with Some a => depth a | None => 0 end))
  | _ => 1
  end%nat.

(** [lt] of a tie of lawful comparisons, read as the code does. *)
Lemma tie_lt_if {A} (c : cmp A) l x y : ordered c -> tie_lt (c :: l) x y = if negb (eq_ c x y) then lt_ c x y else tie_lt l x y.
Proof.
  intros H. cbn. destruct (eq_ c x y) eqn:E.
  - apply (ord_eq _ H) in E. destruct E as [-> ->]. reflexivity.
  - cbn. destruct (lt_ c x y) eqn:L; auto. destruct (lt_ c y x) eqn:L2; auto.
    enough (eq_ c x y = true) by congruence. apply (ord_eq _ H). auto.
Qed.

Lemma pointer_agree (c d : cmp (geometry D)) x y :
  (forall a b, x = Some a -> y = Some b -> lt_ c a b = lt_ d a b /\ eq_ c a b = eq_ d a b) ->
  lt_ (pointer_cmp c) x y = lt_ (pointer_cmp d) x y /\ eq_ (pointer_cmp c) x y = eq_ (pointer_cmp d) x y.
Proof. intros H. destruct x, y; cbn; auto. Qed.

Notation gc := (geometry_cmp D dc type_order).

Lemma approx_agree n : forall g h, (depth g <= n)%nat -> (depth h <= n)%nat ->
  lt_ gc g h = lt_ (approx n) g h /\ eq_ gc g h = eq_ (approx n) g h.
Proof.
  induction n as [|n IH]; intros g h Dg Dh.
  { destruct g as [a b []]; cbn in Dg; lia. }
  assert (PL : forall x y, (x = g_left g /\ y = g_left h) \/ (x = g_right g /\ y = g_right h) ->
     lt_ (pointer_cmp gc) x y = lt_ (pointer_cmp (approx n)) x y /\ eq_ (pointer_cmp gc) x y = eq_ (pointer_cmp (approx n)) x y).
  { intros x y O. apply pointer_agree. intros a b -> ->.
    destruct g as [n1 p1 s1], h as [n2 p2 s2]. apply IH; destruct O as [[O1 O2]|[O1 O2]]; destruct s1, s2; cbn in *; try discriminate; inversion O1; inversion O2; subst; cbn in *; lia. }
  pose proof (pointer_ordered _ (approx_ordered n)) as PO.
  assert (LT : lt_ (approx (S n)) g h =
    if negb (g_type g =? g_type h) then g_type g <? g_type h
    else if negb (eq_ string_cmp (g_name g) (g_name h)) then lt_ string_cmp (g_name g) (g_name h)
    else if negb (eq_ (placement_cmp D dc) (g_place g) (g_place h)) then lt_ (placement_cmp D dc) (g_place g) (g_place h)
    else if negb (eq_ plain_cmp (g_body g) (g_body h)) then lt_ plain_cmp (g_body g) (g_body h)
    else if negb (g_op g =? g_op h) then g_op g <? g_op h
    else if negb (eq_ (pointer_cmp gc) (g_left g) (g_left h)) then lt_ (pointer_cmp gc) (g_left g) (g_left h)
    else lt_ (pointer_cmp gc) (g_right g) (g_right h)).
  { destruct (PL _ _ (or_introl (conj eq_refl eq_refl))) as [-> ->]. destruct (PL _ _ (or_intror (conj eq_refl eq_refl))) as [-> _].
    change (lt_ (approx (S n))) with (tie_lt [on g_type int_cmp; on g_name string_cmp; on g_place (placement_cmp D dc); on g_body plain_cmp; on g_op int_cmp;
       on g_left (pointer_cmp (approx n)); on g_right (pointer_cmp (approx n))]).
    do 6 rewrite tie_lt_if by (apply on_ordered; auto using int_ordered, string_ordered, placement_ordered, plain_ordered).
    change (tie_lt [on g_right (pointer_cmp (approx n))] g h) with
      (lt_ (on g_right (pointer_cmp (approx n))) g h || (negb (lt_ (on g_right (pointer_cmp (approx n))) h g) && false)).
    rewrite andb_false_r, orb_false_r. reflexivity. }
  assert (EQ : eq_ (approx (S n)) g h =
    (g_type g =? g_type h) && (eq_ string_cmp (g_name g) (g_name h) && (eq_ (placement_cmp D dc) (g_place g) (g_place h) &&
    (eq_ plain_cmp (g_body g) (g_body h) && ((g_op g =? g_op h) && (eq_ (pointer_cmp gc) (g_left g) (g_left h) && (eq_ (pointer_cmp gc) (g_right g) (g_right h) && true))))))).
  { destruct (PL _ _ (or_introl (conj eq_refl eq_refl))) as [_ ->]. destruct (PL _ _ (or_intror (conj eq_refl eq_refl))) as [_ ->]. reflexivity. }
  rewrite LT, EQ. clear LT EQ PO PL IH. destruct g as [n1 p1 s1], h as [n2 p2 s2].
  unfold g_type; cbn [g_name g_place g_body]. destruct (type_order (class_of D s1) =? type_order (class_of D s2)) eqn:T; cbn [negb andb].
  - apply Z.eqb_eq, Hto in T. destruct (plain_agree s1 s2 T) as [PL PE].
    destruct (is_boolean s1) eqn:B.
    + destruct s1; try discriminate. destruct s2; try discriminate T. unfold g_op, g_left, g_right. cbn [g_body].
      change (eq_ plain_cmp (IsBoolean D operation left right) (IsBoolean D operation0 left0 right0)) with true. cbn [negb andb].
      cbn [lt_ eq_ gc geometry_cmp geometry_lt geometry_eq class_of]. rewrite Z.eqb_refl.
      destruct (eq_ string_cmp n1 n2), (eq_ (placement_cmp D dc) p1 p2), (operation =? operation0); cbn [negb orb andb]; auto.
      rewrite andb_true_r. split; [|destruct left, left0, right, right0; cbn; rewrite ?andb_true_r; auto].
      destruct left, left0, right, right0; cbn; auto; destruct (geometry_eq D dc _ _); auto.
    + specialize (PE eq_refl). rewrite PL, PE. cbn [lt_ eq_ gc geometry_cmp geometry_lt geometry_eq].
      replace (type_order (class_of D s1) =? type_order (class_of D s2)) with true by (rewrite T; symmetry; apply Z.eqb_refl).
      assert (O : g_op (Geometry D n1 p1 s1) = 0 /\ g_left (Geometry D n1 p1 s1) = None /\ g_right (Geometry D n1 p1 s1) = None /\
                  g_op (Geometry D n2 p2 s2) = 0 /\ g_left (Geometry D n2 p2 s2) = None /\ g_right (Geometry D n2 p2 s2) = None)
        by (clear - B T; destruct s1, s2; try discriminate; cbn; auto 8).
      destruct O as (-> & -> & -> & -> & -> & ->). cbn [pointer_cmp lt_ eq_ Z.eqb andb negb].
      assert (M1 : forall X Y : bool, match s1, s2 with IsBoolean _ _ _ _, IsBoolean _ _ _ _ => X | _, _ => Y end = Y) by (intros; clear - B; destruct s1; try discriminate; auto).
      destruct (eq_ string_cmp n1 n2), (eq_ (placement_cmp D dc) p1 p2); cbn [negb orb andb]; auto. rewrite ?andb_true_r.
      split.
      * transitivity (plain_less D dc s1 s2); [clear - B; destruct s1; try discriminate; reflexivity|].
        destruct (plain_equal D dc s1 s2) eqn:E; cbn; auto. apply (ord_eq _ plain_ordered) in PE. rewrite <- PL. tauto.
      * clear - B; destruct s1; try discriminate; reflexivity.
  - cbn [lt_ eq_ gc geometry_cmp geometry_lt geometry_eq]. rewrite T. split; auto.
    assert (N : class_of D s1 <> class_of D s2) by (intros E; rewrite E, Z.eqb_refl in T; discriminate).
    destruct (negb _ || _); auto. pose proof (plain_other s1 s2 N). clear - N H. destruct s1, s2; cbn in *; auto; exfalso; apply N; reflexivity.
Qed.

Lemma geometry_ordered : ordered gc.
Proof.
  split.
  - intros x. destruct (approx_agree (depth x) x x) as [-> _]; auto. apply (ord_irrefl _ (approx_ordered _)).
  - intros x y z. set (n := Nat.max (depth x) (Nat.max (depth y) (depth z))).
    destruct (approx_agree n x y) as [-> _]; [lia..|]. destruct (approx_agree n y z) as [-> _]; [lia..|]. destruct (approx_agree n x z) as [-> _]; [lia..|].
    apply (ord_trans _ (approx_ordered _)).
  - intros x y. set (n := Nat.max (depth x) (depth y)).
    destruct (approx_agree n x y) as [-> ->]; [lia..|]. destruct (approx_agree n y x) as [-> _]; [lia..|]. apply (ord_eq _ (approx_ordered _)).
  - intros x y z. set (n := Nat.max (depth x) (Nat.max (depth y) (depth z))).
    destruct (approx_agree n x y) as [_ ->]; [lia..|]. destruct (approx_agree n y z) as [_ ->]; [lia..|]. destruct (approx_agree n x z) as [_ ->]; [lia..|].
    apply (ord_eq_trans _ (approx_ordered _)).
Qed.
End Rank.

(** Equality of geometries is identity of the members. *)
Section Same.
Variable D : Type.
Variable dc : cmp D.
Hypothesis Hdc : forall a b, eq_ dc a b = true <-> a = b.

Lemma vec_same {A} (c : cmp A) : (forall a b, eq_ c a b = true <-> a = b) -> forall a b, eq_ (vec c) a b = true <-> a = b.
Proof.
  intros H. cbn. induction a as [|x r IH]; destruct b as [|y s]; cbn; try (intuition discriminate).
  rewrite andb_true_iff, H, IH. split; [intros [-> ->]; auto|intros E; inversion E; auto].
Qed.
Lemma bool_same a b : eq_ bool_cmp a b = true <-> a = b. Proof. apply eqb_true_iff. Qed.
Lemma int_same a b : eq_ int_cmp a b = true <-> a = b. Proof. apply Z.eqb_eq. Qed.
Lemma string_same a b : eq_ string_cmp a b = true <-> a = b. Proof. apply vec_same, int_same. Qed.

Ltac same := let a := fresh "a" in let b := fresh "b" in intros a b; destruct a, b; cbn [tie eq_ tie_eq on  v3_x v3_y v3_z v3_radius v3_azimuth v3_zenith q4_x q4_y q4_z q4_w pl_position pl_quaternion zs_zpos zs_scale zs_offset0 zs_offset1 full_width_x full_width_y full_width_z cs_rmin1 cs_rmax1 cs_rmin2 cs_rmax2 cs_z cs_start_phi cs_delta_phi cs_has_phi_cut ct_rmin ct_rmax ct_dz ct_low_norm ct_high_norm ct_start_phi ct_delta_phi ct_has_phi_cut cy_radius cy_inner_radius cy_z cy_start_phi cy_delta_phi cy_has_phi_cut el_ax el_by el_cz el_zcut1 el_zcut2 et_dx et_dy et_dz ep_polygon ep_zsections gp_r gp_z gp_start_phi gp_delta_phi pa_dx pa_dy pa_dz pa_alpha pa_theta pa_phi pc_z_planes pc_rmin pc_rmax pc_start_phi pc_delta_phi ph_num_sides ph_start_phi ph_delta_phi ph_z_planes ph_rmin ph_rmax sp_radius sp_inner_radius sp_start_phi sp_delta_phi sp_start_theta sp_delta_theta to_rtor to_rmax to_rmin to_start_phi to_delta_phi tp_dz tp_theta tp_phi tp_dy1 tp_dx1 tp_dx2 tp_alpha1 tp_dy2 tp_dx3 tp_dx4 tp_alpha2 td_dx1 td_dx2 td_dy1 td_dy2 td_dz me_triangles];
  rewrite ?andb_true_iff.
Ltac done := split; [intros E; repeat match goal with H : _ /\ _ |- _ => destruct H end; subst; auto|intros E; inversion E; subst; repeat split; auto].

Lemma vector_same : forall a b, eq_ (vector_cmp D dc) a b = true <-> a = b.
Proof. unfold vector_cmp; same; rewrite ?Hdc; done. Qed.
Lemma quaternion_same : forall a b, eq_ (quaternion_cmp D dc) a b = true <-> a = b.
Proof. unfold quaternion_cmp; same; rewrite ?Hdc; done. Qed.
Lemma placement_same : forall a b, eq_ (placement_cmp D dc) a b = true <-> a = b.
Proof. unfold placement_cmp; same; rewrite ?vector_same, ?quaternion_same; done. Qed.
Lemma zsection_same : forall a b, eq_ (zsection_cmp D dc) a b = true <-> a = b.
Proof. unfold zsection_cmp; same; rewrite ?Hdc; done. Qed.
Let v1 := vec_same dc Hdc.
Let v2 := vec_same _ v1.
Let v3 := vec_same _ v2.
Let vz := vec_same _ zsection_same.

Lemma box_same : forall a b, eq_ (box_cmp D dc) a b = true <-> a = b.
Proof. unfold box_cmp; same; rewrite ?v3, ?v2, ?v1, ?vz, ?vector_same, ?bool_same, ?int_same, ?Hdc; done. Qed.
Lemma cone_solid_same : forall a b, eq_ (cone_solid_cmp D dc) a b = true <-> a = b.
Proof. unfold cone_solid_cmp; same; rewrite ?v3, ?v2, ?v1, ?vz, ?vector_same, ?bool_same, ?int_same, ?Hdc; done. Qed.
Lemma cut_tube_same : forall a b, eq_ (cut_tube_cmp D dc) a b = true <-> a = b.
Proof. unfold cut_tube_cmp; same; rewrite ?v3, ?v2, ?v1, ?vz, ?vector_same, ?bool_same, ?int_same, ?Hdc; done. Qed.
Lemma cylinder_same : forall a b, eq_ (cylinder_cmp D dc) a b = true <-> a = b.
Proof. unfold cylinder_cmp; same; rewrite ?v3, ?v2, ?v1, ?vz, ?vector_same, ?bool_same, ?int_same, ?Hdc; done. Qed.
Lemma ellipsoid_same : forall a b, eq_ (ellipsoid_cmp D dc) a b = true <-> a = b.
Proof. unfold ellipsoid_cmp; same; rewrite ?v3, ?v2, ?v1, ?vz, ?vector_same, ?bool_same, ?int_same, ?Hdc; done. Qed.
Lemma elliptical_tube_same : forall a b, eq_ (elliptical_tube_cmp D dc) a b = true <-> a = b.
Proof. unfold elliptical_tube_cmp; same; rewrite ?v3, ?v2, ?v1, ?vz, ?vector_same, ?bool_same, ?int_same, ?Hdc; done. Qed.
Lemma extr_poly_same : forall a b, eq_ (extr_poly_cmp D dc) a b = true <-> a = b.
Proof. unfold extr_poly_cmp; same; rewrite ?v3, ?v2, ?v1, ?vz, ?vector_same, ?bool_same, ?int_same, ?Hdc; done. Qed.
Lemma generic_polycone_same : forall a b, eq_ (generic_polycone_cmp D dc) a b = true <-> a = b.
Proof. unfold generic_polycone_cmp; same; rewrite ?v3, ?v2, ?v1, ?vz, ?vector_same, ?bool_same, ?int_same, ?Hdc; done. Qed.
Lemma para_same : forall a b, eq_ (para_cmp D dc) a b = true <-> a = b.
Proof. unfold para_cmp; same; rewrite ?v3, ?v2, ?v1, ?vz, ?vector_same, ?bool_same, ?int_same, ?Hdc; done. Qed.
Lemma polycone_same : forall a b, eq_ (polycone_cmp D dc) a b = true <-> a = b.
Proof. unfold polycone_cmp; same; rewrite ?v3, ?v2, ?v1, ?vz, ?vector_same, ?bool_same, ?int_same, ?Hdc; done. Qed.
Lemma polyhedra_same : forall a b, eq_ (polyhedra_cmp D dc) a b = true <-> a = b.
Proof. unfold polyhedra_cmp; same; rewrite ?v3, ?v2, ?v1, ?vz, ?vector_same, ?bool_same, ?int_same, ?Hdc; done. Qed.
Lemma sphere_same : forall a b, eq_ (sphere_cmp D dc) a b = true <-> a = b.
Proof. unfold sphere_cmp; same; rewrite ?v3, ?v2, ?v1, ?vz, ?vector_same, ?bool_same, ?int_same, ?Hdc; done. Qed.
Lemma torus_same : forall a b, eq_ (torus_cmp D dc) a b = true <-> a = b.
Proof. unfold torus_cmp; same; rewrite ?v3, ?v2, ?v1, ?vz, ?vector_same, ?bool_same, ?int_same, ?Hdc; done. Qed.
Lemma trap_same : forall a b, eq_ (trap_cmp D dc) a b = true <-> a = b.
Proof. unfold trap_cmp; same; rewrite ?v3, ?v2, ?v1, ?vz, ?vector_same, ?bool_same, ?int_same, ?Hdc; done. Qed.
Lemma trd_same : forall a b, eq_ (trd_cmp D dc) a b = true <-> a = b.
Proof. unfold trd_cmp; same; rewrite ?v3, ?v2, ?v1, ?vz, ?vector_same, ?bool_same, ?int_same, ?Hdc; done. Qed.
Lemma mesh_same : forall a b, eq_ (mesh_cmp D dc) a b = true <-> a = b.
Proof. unfold mesh_cmp; same; rewrite ?v3, ?v2, ?v1, ?vz, ?vector_same, ?bool_same, ?int_same, ?Hdc; done. Qed.

Lemma plain_same (s t : shape D) : is_boolean D s = false -> plain_equal D dc s t = true <-> s = t.
Proof.
  intros B. destruct s; try discriminate; destruct t; cbn [plain_equal]; try (split; discriminate);
  rewrite ?box_same, ?cone_solid_same, ?cut_tube_same, ?cylinder_same, ?ellipsoid_same, ?elliptical_tube_same, ?extr_poly_same, ?generic_polycone_same, ?para_same, ?polycone_same, ?polyhedra_same, ?sphere_same, ?torus_same, ?trap_same, ?trd_same, ?mesh_same; (split; [intros ->; auto|intros E; inversion E; auto]).
Qed.

Lemma geometry_same_depth n : forall g h : geometry D, (depth D g <= n)%nat -> geometry_eq D dc g h = true <-> g = h.
Proof.
  induction n as [|n IH]; intros [n1 p1 s1] [n2 p2 s2] Dg.
  { destruct s1; cbn in Dg; lia. }
  cbn [geometry_eq]. destruct (eq_ string_cmp n1 n2) eqn:E1.
  2: { cbn. split; [discriminate|]. intros E. inversion E; subst. rewrite (proj2 (string_same n2 n2) eq_refl) in E1. discriminate. }
  destruct (eq_ (placement_cmp D dc) p1 p2) eqn:E2.
  2: { cbn. split; [discriminate|]. intros E. inversion E; subst. rewrite (proj2 (placement_same p2 p2) eq_refl) in E2. discriminate. }
  apply string_same in E1. apply placement_same in E2. subst. cbn [negb orb].
  destruct (is_boolean D s1) eqn:B.
  - destruct s1; try discriminate. destruct s2; try (split; discriminate).
    assert (O : forall x y : option (geometry D), (match x with Some a => (depth D a <= n)%nat | None => True end) ->
      (match x, y with Some a, Some b => geometry_eq D dc a b | None, None => true | _, _ => false end) = true <-> x = y).
    { intros [a|] [b|] K; try (split; auto; discriminate). rewrite IH by auto. split; [intros ->; auto|intros E; inversion E; auto]. }
    destruct (operation =? operation0) eqn:E3; cbn [negb].
    2: { split; [discriminate|]. intros E. inversion E; subst. rewrite Z.eqb_refl in E3. discriminate. }
    apply Z.eqb_eq in E3. subst. rewrite andb_true_iff, !O; [|destruct right; auto; cbn in Dg; destruct left; lia|destruct left; auto; cbn in Dg; destruct right; lia].
    split; [intros [-> ->]; auto|intros E; inversion E; auto].
  - transitivity (plain_equal D dc s1 s2 = true); [destruct s1; try discriminate; reflexivity|]. rewrite plain_same by auto.
    split; [intros ->; auto|intros E; inversion E; auto].
Qed.

Lemma geometry_same (g h : geometry D) : geometry_eq D dc g h = true <-> g = h.
Proof. apply (geometry_same_depth (depth D g)). auto. Qed.
End Same.
