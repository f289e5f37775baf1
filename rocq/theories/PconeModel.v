(** Model of polycones: the reading of their planes and azimuths, the checks of the constructor, and
    the crossings of a line with a polycone of full rotation. Sources:
    projects/detector/private/gdml/GDMLReadUtils.cxx, projects/detector/private/gdml/GDMLSolidParser.cxx,
    projects/geometry/private/Polycone.cxx. Doubles are real numbers. *)
From Coq Require Import Reals List Bool.
From Verif Require Import VectorModel GeometryModel.
Import ListNotations.
Open Scope R_scope.

(** One entry of [z_planes_], [rmin_] and [rmax_], Polycone.cxx:22-28. *)
Record plane := mkplane { pl_z : R; pl_min : R; pl_max : R }.

(** GDMLReadUtils.cxx:152-156, Polycone.cxx:34-38: the two flags over consecutive heights. *)
Fixpoint flags (z : list R) (ascending descending : bool) : bool * bool :=
  match z with
  | a :: ((b :: _) as t) => flags t (if Rlt_dec b a then false else ascending) (if Rlt_dec a b then false else descending)
  | _ => (ascending, descending)
  end.

(** GDMLReadUtils.cxx:148-158, [ValidateZPlaneMonotonicity]. *)
Definition z_monotone (z : list R) : bool :=
  if Nat.ltb (length z) 2 then false else let '(a, d) := flags z true true in a || d.

(** Polycone.cxx:47-54: the radii of each plane. *)
Definition radii_ok (l : list plane) : bool :=
  forallb (fun p => if Rlt_dec (pl_min p) 0 then false else if Rlt_dec (pl_max p) 0 then false
                    else if Rlt_dec (pl_max p) (pl_min p) then false else true) l.

(** The planes that the three vectors describe, Polycone.cxx:23-28. *)
Fixpoint zip (z a b : list R) : list plane :=
  match z, a, b with
  | z :: zs, a :: as_, b :: bs => mkplane z a b :: zip zs as_ bs
  | _, _, _ => []
  end.

(** Polycone.cxx:22-55, [validate]; [None] is an exception. The three vectors afterwards are given as one list. *)
Definition validate (z rmin rmax : list R) : option (list plane) :=
  if Nat.ltb (length z) 2 then None
  else if negb (Nat.eqb (length z) (length rmin)) || negb (Nat.eqb (length z) (length rmax)) then None
  else let '(ascending, descending) := flags z true true in
    if negb ascending && negb descending then None
    else
      let l := if descending && negb ascending then zip (rev z) (rev rmin) (rev rmax) else zip z rmin rmax in
      if radii_ok l then Some l else None.

(** A polycone, Polycone.cxx:61-66: planes, first azimuth, range, [has_phi_cut_]. *)
Record polycone := mkpoly { po_planes : list plane; po_start : R; po_delta : R; po_cut : bool }.

(** Polycone.cxx:61-66, the constructor. *)
Definition make_polycone (z rmin rmax : list R) (start delta : R) : option polycone :=
  match validate z rmin rmax with
  | None => None
  | Some l =>
      if Rle_dec delta 0 then None
      else
        let delta := if Rlt_dec (2 * PI) delta then 2 * PI else delta in
        Some (mkpoly l start delta (if Rlt_dec delta (2 * PI - 1 / 10 ^ 9) then true else false))
  end.

(** GDMLReadUtils.cxx:35-53, [ReadPhiRange]; [None] is an attribute that is absent or empty, the numbers are the values of the expressions. *)
Definition phi_range (start delta : option R) (ascale : R) : R * R :=
  (match start with Some x => x * ascale | None => 0 end, match delta with Some x => x * ascale | None => 2 * PI end).

(** What a parser of solids returns, GDMLSolidParser.cxx:163-173: nothing, an exception, or the solid. *)
Inductive parsed := Absent | Failed | Solid (s : polycone).

(** GDMLSolidParser.cxx:163-173, [ParsePolycone], with GDMLReadUtils.cxx:134-146, [ReadZPlanes]; the elements
    zplane are given by the values of z, rmin and rmax. *)
Definition parse_polycone (zplanes : list (R * R * R)) (lscale ascale : R) (start delta : option R) : parsed :=
  let '(s, d) := phi_range start delta ascale in
  let z := map (fun e => fst (fst e) * lscale) zplanes in
  let rmin := map (fun e => snd (fst e) * lscale) zplanes in
  let rmax := map (fun e => snd e * lscale) zplanes in
  if Nat.ltb (length z) 2 then Absent
  else if negb (z_monotone z) then Failed
  else match make_polycone z rmin rmax s d with Some p => Solid p | None => Failed end.

(** ** Crossings *)

(** Polycone.cxx:155-158, [entering_cone] at the point [q]. *)
Definition entering_cone (d q : vec) (a b : R) : bool :=
  if Rlt_dec (vx q * vx d + vy q * vy d - b * (a + b * vz q) * vz d) 0 then true else false.

(** Polycone.cxx:210-224, 278-292: a root is moved to zero if little ahead, and kept if it is on the section and on the
    right half of the double cone. *)
Definition cone_hit (p d : vec) (lo hi a b : R) (invert : bool) (t : R) : list hit :=
  let t := snap t in
  let q := point_at p d t in
  if Rle_dec lo (vz q) then if Rlt_dec (vz q) hi then if Rle_dec 0 (a + b * vz q) then
    let e := entering_cone d q a b in [mkhit t (if invert then negb e else e) q]
  else [] else [] else [].

(** Polycone.cxx:182-255 and 259-322: the crossings with the cone between the radii [rlo] at [lo] and [rhi] at [hi];
    [invert] for the inner one. *)
Definition cone_hits (p d : vec) (lo hi rlo rhi : R) (invert : bool) : list hit :=
  let shift := - (vx p * vx d + vy p * vy d + vz p * vz d) in
  let qx := vx p + shift * vx d in let qy := vy p + shift * vy d in let qz := vz p + shift * vz d in
  let b := (rhi - rlo) / (hi - lo) in
  let a := rlo - b * lo in
  let A := vx d * vx d + vy d * vy d - b * b * vz d * vz d in
  let B := 2 * (qx * vx d + qy * vy d - b * vz d * (a + b * qz)) in
  let C := qx * qx + qy * qy - (a + b * qz) * (a + b * qz) in
  if (if Req_EM_T (vx d) 0 then if Req_EM_T (vy d) 0 then if Req_EM_T b 0 then true else false else false else false) then []
  else
    let det := B * B - 4 * A * C in
    if Rlt_dec precision (Rabs A) then
      if Rlt_dec 0 det then
        cone_hit p d lo hi a b invert ((- B + sqrt det) / (2 * A) + shift) ++
        cone_hit p d lo hi a b invert ((- B - sqrt det) / (2 * A) + shift)
      else []
    else if Rlt_dec precision (Rabs B) then cone_hit p d lo hi a b invert (- C / B + shift)
    else [].

(** Polycone.cxx:164-178: sections without height, and those that a level line misses, are passed over. *)
Definition skip_section (p d : vec) (u v : plane) : bool :=
  if Rle_dec (pl_z v) (pl_z u) then true
  else if Rlt_dec (Rabs (vz d)) precision then
    if Rlt_dec (vz p) (pl_z u) then true else if Rle_dec (pl_z v) (vz p) then true else false
  else false.

(** Polycone.cxx:163-323: the sections one after the other. *)
Fixpoint section_hits (p d : vec) (l : list plane) : list hit :=
  match l with
  | u :: ((v :: _) as t) =>
      (if skip_section p d u v then []
       else cone_hits p d (pl_z u) (pl_z v) (pl_max u) (pl_max v) false ++
            (if Rlt_dec 0 (pl_min u) then cone_hits p d (pl_z u) (pl_z v) (pl_min u) (pl_min v) true
             else if Rlt_dec 0 (pl_min v) then cone_hits p d (pl_z u) (pl_z v) (pl_min u) (pl_min v) true else []))
      ++ section_hits p d t
  | _ => []
  end.

(** The point of a plane, Polycone.cxx:330-336, 353-359 and 401-408. *)
Definition plane_time (p d : vec) (z : R) : R := snap ((z - vz p) / vz d).

(** Squared distance of the point from the axis, Polycone.cxx:338, 361 and 410. *)
Definition plane_radius2 (p d : vec) (z : R) : R :=
  let q := point_at p d (plane_time p d z) in vx q * vx q + vy q * vy q.

(** Polycone.cxx:328-348 and 351-371: a lid. *)
Definition lid_hits (p d : vec) (u : plane) (entering : bool) : list hit :=
  let t := plane_time p d (pl_z u) in
  let r2 := plane_radius2 p d (pl_z u) in
  let max2 := pl_max u * pl_max u in let min2 := pl_min u * pl_min u in
  let tol := precision * Rmax 1 max2 in
  if Rle_dec r2 (max2 + tol) then if Rle_dec (min2 - tol) r2 then [mkhit t entering (point_at p d t)] else [] else [].

(** Polycone.cxx:413-422 and 425-434: the ring between the radii below and above; [grows] is the flag of a line upwards. *)
Definition ring_hits (p d : vec) (z below above : R) (grows : bool) : list hit :=
  if Req_EM_T below above then []
  else
    let t := plane_time p d z in
    let r2 := plane_radius2 p d z in
    if Rle_dec (Rmin below above * Rmin below above) r2 then
      if Rle_dec r2 (Rmax below above * Rmax below above) then
        [mkhit t (if Bool.eqb (if Rlt_dec below above then true else false) grows
                  then (if Rlt_dec 0 (vz d) then true else false) else (if Rlt_dec (vz d) 0 then true else false)) (point_at p d t)]
      else []
    else [].

(** Polycone.cxx:381-434: the step from the plane [u] to the plane [v] at the same height. *)
Definition step_hits (p d : vec) (u v : plane) : list hit :=
  ring_hits p d (pl_z u) (pl_max u) (pl_max v) true ++ ring_hits p d (pl_z u) (pl_min u) (pl_min v) false.

(** Polycone.cxx:380-437 from the plane [u]: [v] is the last plane so far at its height; the last plane of the list is left out. *)
Fixpoint group_hits (p d : vec) (u v : plane) (l : list plane) : list hit :=
  match l with
  | [] => []
  | [_] => step_hits p d u v
  | w :: t => if Req_EM_T (pl_z w) (pl_z u) then group_hits p d u w t else step_hits p d u v ++ group_hits p d w w t
  end.

(** Polycone.cxx:378-438. *)
Definition steps (p d : vec) (l : list plane) : list hit :=
  match l with
  | _ :: u :: t => group_hits p d u u t
  | _ => []
  end.

(** Polycone.cxx:99-438: the crossings before they are put in order. *)
Definition polycone_hits (l : list plane) (p d : vec) : list hit :=
  match l with
  | u :: _ :: _ =>
      section_hits p d l ++
      (if Rlt_dec precision (Rabs (vz d)) then
         lid_hits p d u (if Rlt_dec 0 (vz d) then true else false) ++
         lid_hits p d (last l u) (if Rlt_dec (vz d) 0 then true else false) ++ steps p d l
       else [])
  | _ => []
  end.
