(** Comparison operators of the geometries.
    Sources: projects/geometry (private/*.cxx, private/GeometryMacros.h, the class
    headers), projects/math/private/Vector3D.cxx and Quaternion.cxx.
    An object is the members its operators look at; the tests for the same object
    ([this == &other], [this != &other]) are left out: they return what the member
    comparison returns, unless a member is a NaN. *)
From Coq Require Import List Bool ZArith.
From Verif Require Import OrderModel.
Import ListNotations.
Open Scope Z_scope.

Section Rank.
(** The floating-point numbers and their comparison. Geometry.cxx:98-109. *)
Variable D : Type.
(** Geometry.cxx:98-109, comparison of doubles. *)
Variable dc : cmp D.

(** projects/math/public/SIREN/math/Vector3D.h:187-188: the cartesian coordinates and
    the spherical ones, which are set only on request. *)
Record vector3 := mkv3 { v3_x : D; v3_y : D; v3_z : D; v3_radius : D; v3_azimuth : D; v3_zenith : D }.

(** Vector3D.cxx:79-102. *)
Definition vector_cmp : cmp vector3 :=
  tie [on v3_x dc; on v3_y dc; on v3_z dc; on v3_radius dc; on v3_azimuth dc; on v3_zenith dc].

(** projects/math/public/SIREN/math/Quaternion.h:114-117. *)
Record quaternion := mkq4 { q4_x : D; q4_y : D; q4_z : D; q4_w : D }.

(** Quaternion.cxx:102-121. *)
Definition quaternion_cmp : cmp quaternion := tie [on q4_x dc; on q4_y dc; on q4_z dc; on q4_w dc].

(** projects/geometry/public/SIREN/geometry/Placement.h:77-84. *)
Record placement := mkplacement { pl_position : vector3; pl_quaternion : quaternion }.

(** Placement.cxx:94-112. *)
Definition placement_cmp : cmp placement := tie [on pl_position vector_cmp; on pl_quaternion quaternion_cmp].

(** ExtrPoly.h:30-37. *)
Record zsection := mkzsection { zs_zpos : D; zs_scale : D; zs_offset0 : D; zs_offset1 : D }.

(** ExtrPoly.h:44-55. *)
Definition zsection_cmp : cmp zsection := tie [on zs_zpos dc; on zs_scale dc; on zs_offset0 dc; on zs_offset1 dc].

(** Box.h:72-74, compared by Box.cxx:30-31 (GeometryMacros.h:98-110). *)
Record box := mkbox { full_width_x : D; full_width_y : D; full_width_z : D }.
(** Box.cxx:30-31. *)
Definition box_cmp : cmp box :=
  tie [on full_width_x dc; on full_width_y dc; on full_width_z dc].

(** Cone.h:80-87, compared by Cone.cxx:68-69 (GeometryMacros.h:98-110). *)
Record cone_solid := mkcone_solid { cs_rmin1 : D; cs_rmax1 : D; cs_rmin2 : D; cs_rmax2 : D; cs_z : D; cs_start_phi : D; cs_delta_phi : D; cs_has_phi_cut : bool }.
(** Cone.cxx:68-69. *)
Definition cone_solid_cmp : cmp cone_solid :=
  tie [on cs_rmin1 dc; on cs_rmax1 dc; on cs_rmin2 dc; on cs_rmax2 dc; on cs_z dc; on cs_start_phi dc; on cs_delta_phi dc; on cs_has_phi_cut bool_cmp].

(** CutTube.h:82-89, compared by CutTube.cxx:104-105 (GeometryMacros.h:98-110). *)
Record cut_tube := mkcut_tube { ct_rmin : D; ct_rmax : D; ct_dz : D; ct_low_norm : vector3; ct_high_norm : vector3; ct_start_phi : D; ct_delta_phi : D; ct_has_phi_cut : bool }.
(** CutTube.cxx:104-105. *)
Definition cut_tube_cmp : cmp cut_tube :=
  tie [on ct_rmin dc; on ct_rmax dc; on ct_dz dc; on ct_low_norm vector_cmp; on ct_high_norm vector_cmp; on ct_start_phi dc; on ct_delta_phi dc; on ct_has_phi_cut bool_cmp].

(** Cylinder.h:80-85, compared by Cylinder.cxx:56-57 (GeometryMacros.h:98-110). *)
Record cylinder := mkcylinder { cy_radius : D; cy_inner_radius : D; cy_z : D; cy_start_phi : D; cy_delta_phi : D; cy_has_phi_cut : bool }.
(** Cylinder.cxx:56-57. *)
Definition cylinder_cmp : cmp cylinder :=
  tie [on cy_radius dc; on cy_inner_radius dc; on cy_z dc; on cy_start_phi dc; on cy_delta_phi dc; on cy_has_phi_cut bool_cmp].

(** Ellipsoid.h:75-79, compared by Ellipsoid.cxx:54-55 (GeometryMacros.h:98-110). *)
Record ellipsoid := mkellipsoid { el_ax : D; el_by : D; el_cz : D; el_zcut1 : D; el_zcut2 : D }.
(** Ellipsoid.cxx:54-55. *)
Definition ellipsoid_cmp : cmp ellipsoid :=
  tie [on el_ax dc; on el_by dc; on el_cz dc; on el_zcut1 dc; on el_zcut2 dc].

(** EllipticalTube.h:66-68, compared by EllipticalTube.cxx:34-35 (GeometryMacros.h:98-110). *)
Record elliptical_tube := mkelliptical_tube { et_dx : D; et_dy : D; et_dz : D }.
(** EllipticalTube.cxx:34-35. *)
Definition elliptical_tube_cmp : cmp elliptical_tube :=
  tie [on et_dx dc; on et_dy dc; on et_dz dc].

(** ExtrPoly.h:139-140, compared by ExtrPoly.cxx:39-40 (GeometryMacros.h:98-110). *)
Record extr_poly := mkextr_poly { ep_polygon : list (list D); ep_zsections : list zsection }.
(** ExtrPoly.cxx:39-40. *)
Definition extr_poly_cmp : cmp extr_poly :=
  tie [on ep_polygon (vec (vec dc)); on ep_zsections (vec zsection_cmp)].

(** GenericPolycone.h:82-85, compared by GenericPolycone.cxx:83-84 (GeometryMacros.h:98-110). *)
Record generic_polycone := mkgeneric_polycone { gp_r : list D; gp_z : list D; gp_start_phi : D; gp_delta_phi : D }.
(** GenericPolycone.cxx:83-84. *)
Definition generic_polycone_cmp : cmp generic_polycone :=
  tie [on gp_r (vec dc); on gp_z (vec dc); on gp_start_phi dc; on gp_delta_phi dc].

(** Para.h:77-82, compared by Para.cxx:118-119 (GeometryMacros.h:98-110). *)
Record para := mkpara { pa_dx : D; pa_dy : D; pa_dz : D; pa_alpha : D; pa_theta : D; pa_phi : D }.
(** Para.cxx:118-119. *)
Definition para_cmp : cmp para :=
  tie [on pa_dx dc; on pa_dy dc; on pa_dz dc; on pa_alpha dc; on pa_theta dc; on pa_phi dc].

(** Polycone.h:92-96, compared by Polycone.cxx:78-79 (GeometryMacros.h:98-110). *)
Record polycone := mkpolycone { pc_z_planes : list D; pc_rmin : list D; pc_rmax : list D; pc_start_phi : D; pc_delta_phi : D }.
(** Polycone.cxx:78-79. *)
Definition polycone_cmp : cmp polycone :=
  tie [on pc_z_planes (vec dc); on pc_rmin (vec dc); on pc_rmax (vec dc); on pc_start_phi dc; on pc_delta_phi dc].

(** Polyhedra.h:117-123, compared by Polyhedra.cxx:106-107 (GeometryMacros.h:98-110). *)
Record polyhedra := mkpolyhedra { ph_num_sides : Z; ph_start_phi : D; ph_delta_phi : D; ph_z_planes : list D; ph_rmin : list D; ph_rmax : list D }.
(** Polyhedra.cxx:106-107. *)
Definition polyhedra_cmp : cmp polyhedra :=
  tie [on ph_num_sides int_cmp; on ph_start_phi dc; on ph_delta_phi dc; on ph_z_planes (vec dc); on ph_rmin (vec dc); on ph_rmax (vec dc)].

(** Sphere.h:84-89, compared by Sphere.cxx:78-79 (GeometryMacros.h:98-110). *)
Record sphere := mksphere { sp_radius : D; sp_inner_radius : D; sp_start_phi : D; sp_delta_phi : D; sp_start_theta : D; sp_delta_theta : D }.
(** Sphere.cxx:78-79. *)
Definition sphere_cmp : cmp sphere :=
  tie [on sp_radius dc; on sp_inner_radius dc; on sp_start_phi dc; on sp_delta_phi dc; on sp_start_theta dc; on sp_delta_theta dc].

(** Torus.h:87-91, compared by Torus.cxx:204-205 (GeometryMacros.h:98-110). *)
Record torus := mktorus { to_rtor : D; to_rmax : D; to_rmin : D; to_start_phi : D; to_delta_phi : D }.
(** Torus.cxx:204-205. *)
Definition torus_cmp : cmp torus :=
  tie [on to_rtor dc; on to_rmax dc; on to_rmin dc; on to_start_phi dc; on to_delta_phi dc].

(** Trap.h:96-106, compared by Trap.cxx:214-215 (GeometryMacros.h:98-110). *)
Record trap := mktrap { tp_dz : D; tp_theta : D; tp_phi : D; tp_dy1 : D; tp_dx1 : D; tp_dx2 : D; tp_alpha1 : D; tp_dy2 : D; tp_dx3 : D; tp_dx4 : D; tp_alpha2 : D }.
(** Trap.cxx:214-215. *)
Definition trap_cmp : cmp trap :=
  tie [on tp_dz dc; on tp_theta dc; on tp_phi dc; on tp_dy1 dc; on tp_dx1 dc; on tp_dx2 dc; on tp_alpha1 dc; on tp_dy2 dc; on tp_dx3 dc; on tp_dx4 dc; on tp_alpha2 dc].

(** Trd.h:73-77, compared by Trd.cxx:36-37 (GeometryMacros.h:98-110). *)
Record trd := mktrd { td_dx1 : D; td_dx2 : D; td_dy1 : D; td_dy2 : D; td_dz : D }.
(** Trd.cxx:36-37. *)
Definition trd_cmp : cmp trd :=
  tie [on td_dx1 dc; on td_dx2 dc; on td_dy1 dc; on td_dy2 dc; on td_dz dc].

(** GeometryMesh.h:78, compared by GeometryMesh.cxx:236-246. *)
Record mesh := mkmesh { me_triangles : list (list (list D)) }.
(** GeometryMesh.cxx:236-246. *)
Definition mesh_cmp : cmp mesh :=
  tie [on me_triangles (vec (vec (vec dc)))].

(** Geometry.h:211-212 and the classes deriving from it, all of them directly. The
    operation of a boolean is BooleanGeometry.h:71, its operands are shared pointers
    (72-73) which may be null. *)
Inductive geometry :=
| Geometry (name : list Z) (place : placement) (body : shape)
with shape :=
| IsBox (b : box)
| IsConeSolid (b : cone_solid)
| IsCutTube (b : cut_tube)
| IsCylinder (b : cylinder)
| IsEllipsoid (b : ellipsoid)
| IsEllipticalTube (b : elliptical_tube)
| IsExtrPoly (b : extr_poly)
| IsGenericPolycone (b : generic_polycone)
| IsPara (b : para)
| IsPolycone (b : polycone)
| IsPolyhedra (b : polyhedra)
| IsSphere (b : sphere)
| IsTorus (b : torus)
| IsTrap (b : trap)
| IsTrd (b : trd)
| IsMesh (b : mesh)
| IsBoolean (operation : Z) (left right : option geometry).

(** The dynamic type, [typeid]. Geometry.cxx:100. *)
Inductive class :=
| ClassBox
| ClassConeSolid
| ClassCutTube
| ClassCylinder
| ClassEllipsoid
| ClassEllipticalTube
| ClassExtrPoly
| ClassGenericPolycone
| ClassPara
| ClassPolycone
| ClassPolyhedra
| ClassSphere
| ClassTorus
| ClassTrap
| ClassTrd
| ClassMesh
| ClassBoolean.

(** [typeid(geometry)]: Geometry.cxx:100. *)
Definition class_of (s : shape) : class :=
  match s with
  | IsBox _ => ClassBox
  | IsConeSolid _ => ClassConeSolid
  | IsCutTube _ => ClassCutTube
  | IsCylinder _ => ClassCylinder
  | IsEllipsoid _ => ClassEllipsoid
  | IsEllipticalTube _ => ClassEllipticalTube
  | IsExtrPoly _ => ClassExtrPoly
  | IsGenericPolycone _ => ClassGenericPolycone
  | IsPara _ => ClassPara
  | IsPolycone _ => ClassPolycone
  | IsPolyhedra _ => ClassPolyhedra
  | IsSphere _ => ClassSphere
  | IsTorus _ => ClassTorus
  | IsTrap _ => ClassTrap
  | IsTrd _ => ClassTrd
  | IsMesh _ => ClassMesh
  | IsBoolean _ _ _ => ClassBoolean
  end.

(** [equal] of the classes without operands: the macro SIREN_GEOMETRY_EQUAL
    (GeometryMacros.h:98-103), false when the cast fails. Booleans are handled below. *)
Definition plain_equal (s t : shape) : bool :=
  match s, t with
  | IsBox a, IsBox b => eq_ box_cmp a b
  | IsConeSolid a, IsConeSolid b => eq_ cone_solid_cmp a b
  | IsCutTube a, IsCutTube b => eq_ cut_tube_cmp a b
  | IsCylinder a, IsCylinder b => eq_ cylinder_cmp a b
  | IsEllipsoid a, IsEllipsoid b => eq_ ellipsoid_cmp a b
  | IsEllipticalTube a, IsEllipticalTube b => eq_ elliptical_tube_cmp a b
  | IsExtrPoly a, IsExtrPoly b => eq_ extr_poly_cmp a b
  | IsGenericPolycone a, IsGenericPolycone b => eq_ generic_polycone_cmp a b
  | IsPara a, IsPara b => eq_ para_cmp a b
  | IsPolycone a, IsPolycone b => eq_ polycone_cmp a b
  | IsPolyhedra a, IsPolyhedra b => eq_ polyhedra_cmp a b
  | IsSphere a, IsSphere b => eq_ sphere_cmp a b
  | IsTorus a, IsTorus b => eq_ torus_cmp a b
  | IsTrap a, IsTrap b => eq_ trap_cmp a b
  | IsTrd a, IsTrd b => eq_ trd_cmp a b
  | IsMesh a, IsMesh b => eq_ mesh_cmp a b
  | _, _ => false
  end.

(** [less] of the same classes: SIREN_GEOMETRY_LESS (GeometryMacros.h:105-110). *)
Definition plain_less (s t : shape) : bool :=
  match s, t with
  | IsBox a, IsBox b => lt_ box_cmp a b
  | IsConeSolid a, IsConeSolid b => lt_ cone_solid_cmp a b
  | IsCutTube a, IsCutTube b => lt_ cut_tube_cmp a b
  | IsCylinder a, IsCylinder b => lt_ cylinder_cmp a b
  | IsEllipsoid a, IsEllipsoid b => lt_ ellipsoid_cmp a b
  | IsEllipticalTube a, IsEllipticalTube b => lt_ elliptical_tube_cmp a b
  | IsExtrPoly a, IsExtrPoly b => lt_ extr_poly_cmp a b
  | IsGenericPolycone a, IsGenericPolycone b => lt_ generic_polycone_cmp a b
  | IsPara a, IsPara b => lt_ para_cmp a b
  | IsPolycone a, IsPolycone b => lt_ polycone_cmp a b
  | IsPolyhedra a, IsPolyhedra b => lt_ polyhedra_cmp a b
  | IsSphere a, IsSphere b => lt_ sphere_cmp a b
  | IsTorus a, IsTorus b => lt_ torus_cmp a b
  | IsTrap a, IsTrap b => lt_ trap_cmp a b
  | IsTrd a, IsTrd b => lt_ trd_cmp a b
  | IsMesh a, IsMesh b => lt_ mesh_cmp a b
  | _, _ => false
  end.

(** Geometry.cxx:89-95 with BooleanGeometry.cxx:42-60. *)
Fixpoint geometry_eq (g h : geometry) {struct g} : bool :=
  match g, h with
  | Geometry n p s, Geometry n' p' s' =>
      if negb (eq_ string_cmp n n') || negb (eq_ placement_cmp p p') then false
      else match s, s' with
           | IsBoolean o l r, IsBoolean o' l' r' =>
               if negb (o =? o') then false
               else
                 let same (x y : option geometry) :=
                   match x, y with
                   | Some a, Some b => geometry_eq a b
                   | None, None => true
                   | _, _ => false
                   end in
                 same l l' && same r r'
           | _, _ => plain_equal s s'
           end
  end.

(** The order of [std::type_index], fixed by the implementation. Geometry.cxx:108. *)
Variable type_order : class -> Z.

(** Geometry.cxx:98-109 with BooleanGeometry.cxx:63-85. *)
Fixpoint geometry_lt (g h : geometry) {struct g} : bool :=
  match g, h with
  | Geometry n p s, Geometry n' p' s' =>
      if type_order (class_of s) =? type_order (class_of s') then
        if negb (eq_ string_cmp n n') then lt_ string_cmp n n'
        else if negb (eq_ placement_cmp p p') then lt_ placement_cmp p p'
        else match s, s' with
             | IsBoolean o l r, IsBoolean o' l' r' =>
                 if negb (o =? o') then o <? o'
                 else
                   let right :=
                     match r, r' with
                     | Some a, Some b => geometry_lt a b
                     | None, Some _ => true
                     | _, None => false
                     end in
                   match l, l' with
                   | Some a, Some b => if negb (geometry_eq a b) then geometry_lt a b else right
                   | None, Some _ => true
                   | Some _, None => false
                   | None, None => right
                   end
             | _, _ => plain_less s s'
             end
      else type_order (class_of s) <? type_order (class_of s')
  end.

(** Geometry.cxx:98-109, both operators. *)
Definition geometry_cmp : cmp geometry := mkcmp geometry_lt geometry_eq.
End Rank.
