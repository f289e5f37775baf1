(** Model of the constructors and the box of a cone. Source: projects/geometry/private/Cone.cxx. Doubles are real numbers. *)
From Coq Require Import Reals List Bool.
From Verif Require Import VectorModel GeometryModel FrusModel.
Open Scope R_scope.

(** Cone.cxx:33-34, 41-42, 51-52, 58-59: the radii at one end are exchanged if the inner is the larger. *)
Definition in_order (rmin rmax : R) : R * R := if Rlt_dec rmax rmin then (rmax, rmin) else (rmin, rmax).

(** Cone.cxx:31-37, 48-54 and the part of 38-46, 55-63 on lengths; [None] is an exception. *)
Definition make_cone (rmin1 rmax1 rmin2 rmax2 z : R) : option cone :=
  if Rle_dec z 0 then None
  else
    let '(rmin1, rmax1) := in_order rmin1 rmax1 in
    let '(rmin2, rmax2) := in_order rmin2 rmax2 in
    if (if Rle_dec rmax1 0 then if Rle_dec rmax2 0 then true else false else false) then None
    else Some (mkcone z rmin1 rmin2 rmax1 rmax2).

(** Cone.cxx:448-455, [GetBoundingBox], as its two corners. *)
Definition cone_box (c : cone) : vec * vec :=
  let max_r := Rmax (co_max1 c) (co_max2 c) in
  let hz := co_z c * (1 / 2) in
  (mkv (- max_r) (- max_r) (- hz), mkv max_r max_r hz).
