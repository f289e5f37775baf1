(** Comparison operators of the distributions.
    Sources: projects/distributions/private (Distributions.cxx and the files of the
    classes). An object is the members its operators look at. The test for the same
    object in [operator==] (Distributions.cxx:43-44) is left out: the model compares an
    object with a copy. *)
From Coq Require Import List Bool ZArith Reals.
From Verif Require Import OrderModel RankModel.
Import ListNotations.

(** A shared pointer to a value compared by value: null before everything else, as in
    ColumnDepthPositionDistribution.cxx:214-226. *)
Definition pointer_cmp {A} (c : cmp A) : cmp (option A) :=
  mkcmp (fun x y => match x, y with None, Some _ => true | Some a, Some b => lt_ c a b | _, None => false end)
        (fun x y => match x, y with Some a, Some b => eq_ c a b | None, None => true | _, _ => false end).

Section Dist.
(** The floating-point numbers and their comparison. Distributions.cxx:42-54. *)
Variable D : Type.
(** Distributions.cxx:42-54, comparison of doubles. *)
Variable dc : cmp D.

(** DecayRangeFunction.h:27-30. *)
Record range_function := mkrange { rf_particle_mass : D; rf_decay_width : D; rf_multiplier : D; rf_max_distance : D }.

(** DecayRangeFunction.cxx:57-76 through RangeFunction.cxx:19-31. The only class deriving
    from [RangeFunction], so that the cast succeeds. *)
Definition range_cmp : cmp range_function :=
  tie [on rf_particle_mass dc; on rf_decay_width dc; on rf_multiplier dc; on rf_max_distance dc].

(** LeptonDepthFunction.h:27-33; the set of types is its sequence in order. *)
Record depth_function := mkdepth { df_mu_alpha : D; df_mu_beta : D; df_tau_alpha : D; df_tau_beta : D;
  df_scale : D; df_max_depth : D; df_tau_primaries : list Z }.

(** LeptonDepthFunction.cxx:75-97 through DepthFunction.cxx:20-32; again the only class
    deriving from [DepthFunction]. *)
Definition depth_cmp : cmp depth_function :=
  tie [on df_mu_alpha dc; on df_mu_beta dc; on df_tau_alpha dc; on df_tau_beta dc;
       on df_scale dc; on df_max_depth dc; on df_tau_primaries (vec int_cmp)].

(** projects/utilities/public/SIREN/utilities/Interpolator.h:31-34, kept by an
    [Interpolator1D] as original_table. *)
Record table1 := mktable1 { t1_x : list D; t1_f : list D }.
(** Interpolator.h:37-44, 353-360. *)
Definition table1_cmp : cmp table1 := tie [on t1_x (vec dc); on t1_f (vec dc)].

(** Interpolator.h:57-61. *)
Record table2 := mktable2 { t2_x : list D; t2_y : list D; t2_f : list D }.
(** Interpolator.h:64-71, 489-496. *)
Definition table2_cmp : cmp table2 := tie [on t2_x (vec dc); on t2_y (vec dc); on t2_f (vec dc)].

(** Geometry members. For example CylinderVolumePositionDistribution.h. *)
Definition solid := geometry D.
(** Vector members. For example FixedDirection.h. *)
Definition spot := vector3 D.

(** The concrete classes with the members that are compared, and (first member, named
    normalization) the one of [PhysicallyNormalizedDistribution], Distributions.h:45-75,
    where the class derives from it. *)
Inductive distribution :=
| NormalizationConstant (normalization : D)                                              (* Distributions.h:106 *)
| NeutrinoHelicity                                                                       (* PrimaryNeutrinoHelicityDistribution.h:26 *)
| PiDARNuE (normalization : D)                                                           (* PiDARNuEDistribution.h:29 *)
| MoyalExponential (normalization energy_min energy_max mu sigma a l b : D)              (* ModifiedMoyalPlusExponentialEnergyDistribution.h:33-39 *)
| Monoenergetic (normalization energy : D)                                               (* Monoenergetic.h:32 *)
| PowerLaw (normalization energy_min energy_max index : D)                               (* PowerLaw.h:33-35 *)
| TabulatedFlux (normalization energy_min energy_max : D) (flux : table1)                (* TabulatedFluxDistribution.h:37-42 *)
| Tabulated2DFlux (normalization energy_min energy_max cos_min cos_max : D) (flux : table2) (* Tabulated2DFluxDistribution.h:39-46 *)
| FixedTargetArea (cylinder : solid)                                                     (* FixedTargetAreaDistribution.h:33 *)
| FixedTargetPosition (cylinder : solid) (fiducial : option solid)                       (* FixedTargetPositionDistribution.h:33-34 *)
| SphereVolume (sphere : solid)                                                          (* SphereVolumePositionDistribution.h:35 *)
| CylinderVolume (cylinder : solid)                                                      (* CylinderVolumePositionDistribution.h:35 *)
| RangePosition (radius endcap : D) (range : option range_function) (targets : list Z)   (* RangePositionDistribution.h:36-39 *)
| DecayRangePosition (radius endcap : D) (range : option range_function)                 (* DecayRangePositionDistribution.h:35-37 *)
| ColumnDepthPosition (radius endcap : D) (depth : option depth_function)                (* ColumnDepthPositionDistribution.h:38-40 *)
| PointSource (origin : spot) (max_distance : D)                                         (* PointSourcePositionDistribution.h:35-36 *)
| PrimaryBounded (max_length : D) (fiducial : option solid)                              (* PrimaryBoundedVertexDistribution.h:38-39 *)
| PrimaryPhysical                                                                        (* PrimaryPhysicalVertexDistribution.h:35 *)
| SecondaryBounded (max_length : D) (fiducial : option solid)                            (* SecondaryBoundedVertexDistribution.h:38-39 *)
| SecondaryPhysical                                                                      (* SecondaryPhysicalVertexDistribution.h:35 *)
| PrimaryMass (mass : D)                                                                 (* PrimaryMass.h:32 *)
| PrimaryExternal (energy_min : D) (keys : list (list Z)) (data : list (list D))         (* PrimaryExternalDistribution.h:36-41 *)
| IsotropicDirection                                                                     (* IsotropicDirection.h:31 *)
| FixedDirection (direction : spot)                                                      (* FixedDirection.h:33 *)
| ConeDirection (direction : spot) (opening_angle : D).                                  (* Cone.h:33-35 *)

(** The dynamic type, [typeid]: Distributions.cxx:50. *)
Definition kind (d : distribution) : nat :=
  match d with
  | NormalizationConstant _ => 0 | NeutrinoHelicity => 1 | PiDARNuE _ => 2 | MoyalExponential _ _ _ _ _ _ _ _ => 3
  | Monoenergetic _ _ => 4 | PowerLaw _ _ _ _ => 5 | TabulatedFlux _ _ _ _ => 6 | Tabulated2DFlux _ _ _ _ _ _ => 7
  | FixedTargetArea _ => 8 | FixedTargetPosition _ _ => 9 | SphereVolume _ => 10 | CylinderVolume _ => 11
  | RangePosition _ _ _ _ => 12 | DecayRangePosition _ _ _ => 13 | ColumnDepthPosition _ _ _ => 14 | PointSource _ _ => 15
  | PrimaryBounded _ _ => 16 | PrimaryPhysical => 17 | SecondaryBounded _ _ => 18 | SecondaryPhysical => 19
  | PrimaryMass _ => 20 | PrimaryExternal _ _ _ => 21 | IsotropicDirection => 22 | FixedDirection _ => 23 | ConeDirection _ _ => 24
  end%nat.

(** [dynamic_cast<PhysicallyNormalizedDistribution const *>] and [GetNormalization]:
    Distributions.cxx:26-28, 79-81; PrimaryEnergyDistribution.h:27 and
    PrimaryEnergyDirectionDistribution.h:28 derive from the class. *)
Definition normalization_of (d : distribution) : option D :=
  match d with
  | NormalizationConstant n | PiDARNuE n | MoyalExponential n _ _ _ _ _ _ _ | Monoenergetic n _ | PowerLaw n _ _ _
  | TabulatedFlux n _ _ _ | Tabulated2DFlux n _ _ _ _ _ => Some n
  | _ => None
  end.

(** [std::tie] of numbers. For example Distributions.cxx:78-88. *)
Definition nums : cmp (list D) := vec dc.

(** The comparison of geometries (RankModel.v), and whether two directions are within the
    tolerance of FixedDirection.cxx:53 and Cone.cxx:74 (instance below). *)
Variable solid_cmp : cmp solid.
(** FixedDirection.cxx:53, Cone.cxx:74. *)
Variable aligned : spot -> spot -> bool.

(** The [equal] of each class: Distributions.cxx:78-82; PrimaryNeutrinoHelicityDistribution.cxx:64-71;
    PiDARNuEDistribution.cxx:102-109; ModifiedMoyalPlusExponentialEnergyDistribution.cxx:107-117;
    Monoenergetic.cxx:48-58; PowerLaw.cxx:63-73; TabulatedFluxDistribution.cxx:287-297;
    Tabulated2DFluxDistribution.cxx:343-353; FixedTargetAreaDistribution.cxx:83-90;
    FixedTargetPositionDistribution.cxx:268-275; SphereVolumePositionDistribution.cxx:105-112;
    CylinderVolumePositionDistribution.cxx:90-97; RangePositionDistribution.cxx:200-213;
    DecayRangePositionDistribution.cxx:126-139; ColumnDepthPositionDistribution.cxx:206-219;
    PointSourcePositionDistribution.cxx:173-181; PrimaryBoundedVertexDistribution.cxx:231-238;
    PrimaryPhysicalVertexDistribution.cxx:171-178; SecondaryBoundedVertexDistribution.cxx:230-237;
    SecondaryPhysicalVertexDistribution.cxx:168-175; PrimaryMass.cxx:56-63;
    PrimaryExternalDistribution.cxx:200-207; IsotropicDirection.cxx:43-50; FixedDirection.cxx:47-54;
    Cone.cxx:68-76. *)
Definition equal (a b : distribution) : bool :=
  match a, b with
  | NormalizationConstant n, _ => match normalization_of b with Some n' => eq_ dc n n' | None => false end
  | NeutrinoHelicity, NeutrinoHelicity => true
  | PiDARNuE _, PiDARNuE _ => true
  | MoyalExponential _ x0 x1 x2 x3 x4 x5 x6, MoyalExponential _ y0 y1 y2 y3 y4 y5 y6 => eq_ nums [x0; x1; x2; x3; x4; x5; x6] [y0; y1; y2; y3; y4; y5; y6]
  | Monoenergetic _ e, Monoenergetic _ e' => eq_ dc e e'
  | PowerLaw _ x0 x1 i, PowerLaw _ y0 y1 j => eq_ nums [x0; x1; i] [y0; y1; j]
  | TabulatedFlux _ x0 x1 t, TabulatedFlux _ y0 y1 u => eq_ (pair_cmp nums table1_cmp) ([x0; x1], t) ([y0; y1], u)
  | Tabulated2DFlux _ x0 x1 x2 x3 t, Tabulated2DFlux _ y0 y1 y2 y3 u => eq_ (pair_cmp nums table2_cmp) ([x0; x1; x2; x3], t) ([y0; y1; y2; y3], u)
  | FixedTargetArea c, FixedTargetArea c' => eq_ solid_cmp c c'
  | FixedTargetPosition c _, FixedTargetPosition c' _ => eq_ solid_cmp c c'
  | SphereVolume s, SphereVolume s' => eq_ solid_cmp s s'
  | CylinderVolume c, CylinderVolume c' => eq_ solid_cmp c c'
  | RangePosition r e f t, RangePosition r' e' f' t' =>
      eq_ dc r r' && eq_ dc e e' && eq_ (pointer_cmp range_cmp) f f' && eq_ (vec int_cmp) t t'
  | DecayRangePosition r e f, DecayRangePosition r' e' f' => eq_ dc r r' && eq_ dc e e' && eq_ (pointer_cmp range_cmp) f f'
  | ColumnDepthPosition r e f, ColumnDepthPosition r' e' f' => eq_ dc r r' && eq_ dc e e' && eq_ (pointer_cmp depth_cmp) f f'
  | PointSource o m, PointSource o' m' => eq_ (vector_cmp D dc) o o' && eq_ dc m m'
  | PrimaryBounded m f, PrimaryBounded m' f' => eq_ dc m m' && eq_ (pointer_cmp solid_cmp) f f'
  | PrimaryPhysical, PrimaryPhysical => true
  | SecondaryBounded m _, SecondaryBounded m' _ => eq_ dc m m'
  | SecondaryPhysical, SecondaryPhysical => true
  | PrimaryMass m, PrimaryMass m' => eq_ dc m m'
  | PrimaryExternal e k d, PrimaryExternal e' k' d' => eq_ dc e e' && eq_ (vec string_cmp) k k' && eq_ (vec nums) d d'
  | IsotropicDirection, IsotropicDirection => true
  | FixedDirection d, FixedDirection d' => aligned d d'
  | ConeDirection d a, ConeDirection d' a' => aligned d d' && eq_ dc a a'
  | _, _ => false
  end.

(** The [less] of each class, called with an object of the same class (the cast of
    another one would give a null pointer): Distributions.cxx:84-88;
    PrimaryNeutrinoHelicityDistribution.cxx:73-75; PiDARNuEDistribution.cxx:111-114;
    ModifiedMoyalPlusExponentialEnergyDistribution.cxx:119-125; Monoenergetic.cxx:60-66;
    PowerLaw.cxx:75-81; TabulatedFluxDistribution.cxx:299-305; Tabulated2DFluxDistribution.cxx:355-363;
    FixedTargetAreaDistribution.cxx:92-95; FixedTargetPositionDistribution.cxx:277-280;
    SphereVolumePositionDistribution.cxx:114-117; CylinderVolumePositionDistribution.cxx:99-102;
    RangePositionDistribution.cxx:215-226; DecayRangePositionDistribution.cxx:141-152;
    ColumnDepthPositionDistribution.cxx:221-232; PointSourcePositionDistribution.cxx:183-189;
    PrimaryBoundedVertexDistribution.cxx:240-253; PrimaryPhysicalVertexDistribution.cxx:180-182;
    SecondaryBoundedVertexDistribution.cxx:239-245; SecondaryPhysicalVertexDistribution.cxx:177-180;
    PrimaryMass.cxx:65-68; PrimaryExternalDistribution.cxx:209-215; IsotropicDirection.cxx:52-54;
    FixedDirection.cxx:56-72; Cone.cxx:78-85. *)
Definition less (a b : distribution) : bool :=
  match a, b with
  | NormalizationConstant n, _ => match normalization_of b with Some n' => lt_ dc n n' | None => false end
  | MoyalExponential _ x0 x1 x2 x3 x4 x5 x6, MoyalExponential _ y0 y1 y2 y3 y4 y5 y6 => lt_ nums [x0; x1; x2; x3; x4; x5; x6] [y0; y1; y2; y3; y4; y5; y6]
  | Monoenergetic _ e, Monoenergetic _ e' => lt_ dc e e'
  | PowerLaw _ x0 x1 i, PowerLaw _ y0 y1 j => lt_ nums [x0; x1; i] [y0; y1; j]
  | TabulatedFlux _ x0 x1 t, TabulatedFlux _ y0 y1 u => lt_ (pair_cmp nums table1_cmp) ([x0; x1], t) ([y0; y1], u)
  | Tabulated2DFlux _ x0 x1 x2 x3 t, Tabulated2DFlux _ y0 y1 y2 y3 u => lt_ (pair_cmp nums table2_cmp) ([x0; x1; x2; x3], t) ([y0; y1; y2; y3], u)
  | FixedTargetArea c, FixedTargetArea c' => lt_ solid_cmp c c'
  | FixedTargetPosition c _, FixedTargetPosition c' _ => lt_ solid_cmp c c'
  | SphereVolume s, SphereVolume s' => lt_ solid_cmp s s'
  | CylinderVolume c, CylinderVolume c' => lt_ solid_cmp c c'
  | RangePosition r e f t, RangePosition _ e' f' t' =>
      let range_less := lt_ (pointer_cmp range_cmp) f f' in
      lt_ (pair_cmp (pair_cmp nums bool_cmp) (vec int_cmp)) (([r; e], false), t) (([r; e'], range_less), t')
  | DecayRangePosition r e f, DecayRangePosition _ e' f' =>
      let range_less := lt_ (pointer_cmp range_cmp) f f' in
      lt_ (pair_cmp nums bool_cmp) ([r; e], false) ([r; e'], range_less)
  | ColumnDepthPosition r e f, ColumnDepthPosition _ e' f' =>
      let depth_less := lt_ (pointer_cmp depth_cmp) f f' in
      lt_ (pair_cmp nums bool_cmp) ([r; e], false) ([r; e'], depth_less)
  | PointSource o m, PointSource _ m' => lt_ (pair_cmp (vector_cmp D dc) dc) (o, m) (o, m')
  | PrimaryBounded m f, PrimaryBounded m' f' =>
      if negb (eq_ dc m m') then lt_ dc m m'
      else match f, f' with
           | Some s, Some s' => lt_ solid_cmp s s'
           | None, Some _ => true
           | _, None => false
           end
  | SecondaryBounded m _, SecondaryBounded m' _ => lt_ dc m m'
  | PrimaryMass m, PrimaryMass m' => eq_ dc m m'
  | PrimaryExternal e k d, PrimaryExternal e' k' d' =>
      lt_ (pair_cmp (pair_cmp dc (vec string_cmp)) (vec nums)) ((e, k), d) ((e', k'), d')
  | FixedDirection d, FixedDirection d' =>
      if aligned d d' then false
      else lt_ nums [v3_x D d; v3_y D d; v3_z D d] [v3_x D d; v3_y D d; v3_z D d]
  | ConeDirection d a, ConeDirection d' a' => if aligned d d' then false else lt_ dc a a'
  | _, _ => false
  end.

(** The order of [std::type_index], fixed by the implementation. Distributions.cxx:53. *)
Variable type_order : nat -> Z.

(** Distributions.cxx:42-54. *)
Definition distribution_cmp : cmp distribution :=
  mkcmp (fun a b => if Nat.eqb (kind a) (kind b) then less a b else (type_order (kind a) <? type_order (kind b))%Z)
        (fun a b => equal a b).
End Dist.

(** [<] and [==] of [double], without NaNs and infinities. For example Distributions.cxx:78-88. *)
Definition num_cmp : cmp R :=
  mkcmp (fun x y => if Rlt_dec x y then true else false) (fun x y => if Req_EM_T x y then true else false).

(** Vector3D.cxx:238-241, [scalar_product]. *)
Definition scalar (a b : vector3 R) : R := (v3_x R a * v3_x R b + v3_y R a * v3_y R b + v3_z R a * v3_z R b)%R.

(** FixedDirection.cxx:53, Cone.cxx:74: [abs] taken as the one of [double]. *)
Definition near (a b : vector3 R) : bool := if Rlt_dec (Rabs (1 - scalar a b)) (1 / 10 ^ 9) then true else false.
