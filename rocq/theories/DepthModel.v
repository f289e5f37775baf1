(** Model of column depths, interaction depths and the distances that belong to them.
    Sources: projects/detector/private/DetectorModel.cxx:48-109, 990-1117, 1219-1334,
    1915-2011 and 2053-2161. *)
From Coq Require Import Reals List Bool ZArith.
From Verif Require Import TraversalModel VectorModel QuatModel PolyModel DensityModel.
Import ListNotations.
Open Scope R_scope.

(** A double that is not NaN; the default sector extends to both infinities
    (DetectorModel.cxx:620-628). *)
Inductive ext := MInf | Fin (x : R) | PInf.

(** Comparison of such doubles, for instance at DetectorModel.cxx:1019 and 1026. *)
Definition eltb (a b : ext) : bool :=
  match a, b with
  | MInf, MInf => false
  | MInf, _ => true
  | Fin x, Fin y => if Rlt_dec x y then true else false
  | Fin _, PInf => true
  | _, _ => false
  end.

(** std::min and std::max, DetectorModel.cxx:1016-1018. *)
Definition emin (a b : ext) : ext := if eltb b a then b else a.
(** DetectorModel.cxx:1016-1018, [std::max]. *)
Definition emax (a b : ext) : ext := if eltb a b then b else a.

(** [offset + dot * distance], DetectorModel.cxx:1016-1018, with [dot] 1 or -1. *)
Definition shift (offset : R) (forward : bool) (x : ext) : ext :=
  match x with
  | Fin r => Fin (offset + (if forward then 1 else -1) * r)
  | MInf => if forward then MInf else PInf
  | PInf => if forward then PInf else MInf
  end.

(** [end_point - start_point] for a finite start, DetectorModel.cxx:1020 and 1079. *)
Definition minus (e : ext) (s : R) : ext := match e with Fin x => Fin (x - s) | o => o end.
(** [start_point + segment_length], DetectorModel.cxx:1090. *)
Definition plus (s : R) (e : ext) : ext := match e with Fin x => Fin (s + x) | o => o end.
(** [total_distance *= -1], DetectorModel.cxx:1100. *)
Definition negate (e : ext) : ext := match e with Fin x => Fin (- x) | MInf => PInf | PInf => MInf end.

(** Geometry.h:101-119, [IntersectionList]. *)
Record line := mkline { l_position : vec; l_direction : vec; l_hits : list (ix ext) }.

(** What is used of a sector's density (DensityDistribution.h): [Integral] over a length and
    the two [InverseIntegral]s; [None] is a result that is not finite. DensityDistribution.h:76-89. *)
Record medium := mkmedium {
  integral : vec -> vec -> ext -> option R;
  inverse : vec -> vec -> R -> ext -> option R;
  inverse_with : vec -> vec -> R -> R -> ext -> option R }.

(** ConstantDensityDistribution.h:69-105 for lengths that may be infinite. *)
Definition const_medium (v : R) : medium :=
  mkmedium
    (fun p d len => match len with Fin L => Some (const_integral v p d L) | _ => None end)
    (fun p d target mx => match mx with Fin L => const_inverse v p d target L | _ => quotient target v end)
    (fun p d c target mx => match mx with Fin L => const_inverse_constant v p d c target L | _ => quotient target (v + c) end).

(** CartesianAxisDensityDistribution.h:67-140 for finite lengths. *)
Definition cart_medium (ax : axis) (f : dist1) : medium :=
  mkmedium
    (fun p d len => match len with Fin L => cart_integral ax f p d L | _ => None end)
    (fun p d target mx => match mx with Fin L => cart_inverse ax f p d target L | _ => None end)
    (fun p d c target mx => match mx with Fin L => cart_inverse_constant ax f p d c target L | _ => None end).

(** DetectorModel.cxx:48-73, [accumulate] (compensated summation). *)
Definition accumulate (l : list R) : R :=
  fst (fold_left (fun (st : R * R) x =>
         let '(sum, err) := st in
         let difference := x - err in
         let temp := sum + difference in
         (temp, temp - sum - difference)) l (0, 0)).

(** std::accumulate, DetectorModel.cxx:1965. *)
Definition plain_sum (l : list R) : R := fold_left Rplus l 0.

(** A sum or difference of possibly infinite doubles, DetectorModel.cxx:1023, 1086 and 1978. *)
Definition add_opt (a b : option R) : option R := match a, b with Some x, Some y => Some (x + y) | _, _ => None end.

Section Depth.
(** [GetSector(level).density], DetectorModel.cxx:1021. *)
Variable media : Z -> medium.

(** ** Column depth *)
Section Between.
(** The captured variables of the callback. *)
Variables (p0 direction : vec) (offset distance : R) (forward : bool).

(** DetectorModel.cxx:1016-1023, 1256-1263 and 1314-1320: the integral over the part of a
    segment between the two points, [None] when it is skipped. *)
Definition segment (cur e : ix ext) (last : ext) : option (option R) :=
  let end_point := emin (shift offset forward (dist e)) (Fin distance) in
  let start_point := emax (emax (shift offset forward (dist cur)) (Fin 0)) (shift offset forward last) in
  if eltb (Fin 0) end_point then
    match start_point with
    | Fin s => Some (integral (media (hier cur)) (vadd p0 (vscale s direction)) direction (minus end_point s))
    | _ => Some None
    end
  else None.

(** DetectorModel.cxx:1026, 1270 and 1327: whether the end point is reached. *)
Definition reached_end (e : ix ext) : bool := negb (eltb (shift offset forward (dist e)) (Fin distance)).

(** DetectorModel.cxx:1014-1028, the callback of [GetColumnDepthInCGS]. *)
Definition column_cb (st : option R) (cur e : ix ext) (last : ext) : option R * bool :=
  (match segment cur e last with None => st | Some i => add_opt st i end, reached_end e).

(** DetectorModel.cxx:1254-1272 and 1312-1329: the callbacks of [GetInteractionDepthInCGS]
    and [GetParticleColumnDepth]; [fractions] of a level are those of its material. *)
Definition particles_cb (fractions : Z -> list R) (st : option (list R)) (cur e : ix ext) (last : ext) : option (list R) * bool :=
  (match segment cur e last with
   | None => st
   | Some i =>
       match st, i with
       | Some l, Some i => Some (map (fun x => fst x + (i * 100) * snd x) (combine l (fractions (hier cur))))
       | _, _ => None
       end
   end, reached_end e).
End Between.

(** DetectorModel.cxx:1001-1009, 1241-1249: [dot < 0]. *)
Definition backward (l : line) (direction : vec) : bool := if Rlt_dec (vdot (l_direction l) direction) 0 then true else false.

(** DetectorModel.cxx:990-1033, [GetColumnDepthInCGS]. The assertion at line 1002 is not
    modelled. *)
Definition column_depth (l : line) (p0 p1 : vec) : outcome (option R) :=
  let d := vsub p1 p0 in
  let distance := vmag d in
  if Req_EM_T distance 0 then Ok (Some 0)
  else
    let direction := vnormalized d in
    let offset := vdot (vsub (l_position l) p0) direction in
    match sector_loop (column_cb p0 direction offset distance (negb (backward l direction))) (Some 0) (l_hits l) (backward l direction) with
    | Ok r => Ok (option_map (fun x => x * 100) r)
    | Throw => Throw
    | UB => UB
    end.

(** ** Distance for a column depth *)
Section From.
Variables (p0 direction : vec) (offset : R) (forward : bool).

(** DetectorModel.cxx:1071-1095, 1946-1987: the callback; [ask] is the call of
    [InverseIntegral] for what is still missing, [weight] the factor of the integral. *)
Definition distance_cb (ask : Z -> vec -> R -> ext -> option R) (weight : Z -> R) (goal : R)
    (st : option R * ext) (cur e : ix ext) (last : ext) : (option R * ext) * bool :=
  let end_point := shift offset forward (dist e) in
  if eltb (Fin 0) end_point then
    let start_point := emax (emax (shift offset forward (dist cur)) (Fin 0)) (shift offset forward last) in
    match start_point with
    | Fin s =>
        let length := minus end_point s in
        let p := vadd p0 (vscale s direction) in
        let found := match fst st with None => None | Some total => ask (hier cur) p (goal - total) length end in
        let total := add_opt (fst st) (option_map (fun i => i * weight (hier cur)) (integral (media (hier cur)) p direction length)) in
        match found with
        | Some d => if Rle_dec 0 d then ((total, Fin (s + d)), true) else ((total, plus s length), false)
        | None => ((total, plus s length), false)
        end
    | _ => ((None, start_point), false)
    end
  else (st, false).
End From.

(** DetectorModel.cxx:1050-1104, [DistanceForColumnDepthFromPoint]. *)
Definition column_distance (l : line) (p0 dir : vec) (depth : R) : outcome ext :=
  let depth := depth / 100 in
  let flip := if Rlt_dec depth 0 then true else false in
  let direction := if flip then vneg dir else dir in
  let goal := if flip then depth * -1 else depth in
  let offset := vdot (vsub (l_position l) p0) direction in
  match sector_loop (distance_cb p0 direction offset (negb (backward l direction)) (fun h p target len => inverse (media h) p direction target len) (fun _ => 1) goal)
          (Some 0, Fin 0) (l_hits l) (backward l direction) with
  | Ok (_, d) => Ok (if flip then negate d else d)
  | Throw => Throw
  | UB => UB
  end.

(** DetectorModel.cxx:1111-1113, [DistanceForColumnDepthToPoint]. *)
Definition column_distance_to (l : line) (p0 dir : vec) (depth : R) : outcome ext := column_distance l p0 (vneg dir) depth.

(** DetectorModel.cxx:2061-2063 and 2069-2071: the same in detector coordinates. *)
Definition column_distance_det {A} (m : frame A) (l : line) (p0 dir : vec) (depth : R) : outcome ext := column_distance l (to_geo m p0) (to_geo_dir m dir) depth.
(** DetectorModel.cxx:2069-2071. *)
Definition column_distance_to_det {A} (m : frame A) (l : line) (p0 dir : vec) (depth : R) : outcome ext := column_distance l (to_geo m p0) (to_geo_dir m dir) depth.

(** ** Interaction depth *)
Section Interaction.
(** The materials: GetTargetParticleFraction of a sector's material (MaterialModel.cxx:
    350-361), for the targets in question. *)
Variable fractions : Z -> list R.
(** [total_cross_sections], of the same length as the targets. DetectorModel.cxx:1219-1222. *)
Variable cross_sections : list R.
(** [total_decay_length]; [None] is infinity. DetectorModel.cxx:1219-1222. *)
Variable decay_length : option R.

(** [distance / total_decay_length], DetectorModel.cxx:1234, 1237 and 1282. *)
Definition decays (distance : R) : R := match decay_length with None => 0 | Some x => distance / x end.

(** DetectorModel.h:114, [distance_threshold]. *)
Definition threshold : R := 1 / 10 ^ 5.

(** DetectorModel.cxx:1219-1285, [GetInteractionDepthInCGS]. *)
Definition interaction_depth (l : line) (p0 p1 : vec) : outcome (option R) :=
  let d := vsub p1 p0 in
  let distance := vmag d in
  match cross_sections with
  | [] => Ok (Some (decays distance))
  | _ =>
      if Rle_dec distance threshold then Ok (Some (decays distance))
      else
        let direction := vnormalized d in
        let offset := vdot (vsub (l_position l) p0) direction in
        match sector_loop (particles_cb p0 direction offset distance (negb (backward l direction)) fractions) (Some (map (fun _ => 0) cross_sections)) (l_hits l) (backward l direction) with
        | Ok r => Ok (option_map (fun v => accumulate (map (fun x => fst x * snd x) (combine v cross_sections)) + decays distance) r)
        | Throw => Throw
        | UB => UB
        end
  end.

(** DetectorModel.cxx:1287-1334, [GetParticleColumnDepth]. *)
Definition particle_depth (l : line) (p0 p1 : vec) : outcome (option (list R)) :=
  let d := vsub p1 p0 in
  let distance := vmag d in
  if Req_EM_T distance 0 then Ok (Some (map (fun _ => 0) cross_sections))
  else
    let direction := vnormalized d in
    let offset := vdot (vsub (l_position l) p0) direction in
    sector_loop (particles_cb p0 direction offset distance (negb (backward l direction)) fractions) (Some (map (fun _ => 0) cross_sections)) (l_hits l) (backward l direction).

(** DetectorModel.cxx:1961-1965, [target_composition]. *)
Definition composition (h : Z) : R := plain_sum (map (fun x => fst x * snd x) (combine (fractions h) cross_sections)).

(** DetectorModel.cxx:1960-1974: the call of [InverseIntegral]. A composition of zero makes the
    target infinite or NaN, and no distance is found. *)
Definition ask_interaction (direction : vec) (h : Z) (p : vec) (target : R) (len : ext) : option R :=
  let target := target / 100 in
  let comp := composition h in
  if Req_EM_T comp 0 then None
  else
    match decay_length with
    | None => inverse (media h) p direction (target / comp) len
    | Some x => inverse_with (media h) p direction (1 / (x / (1 / 100) * comp)) (target / comp) len
    end.

(** DetectorModel.cxx:1915-1996, [DistanceForInteractionDepthFromPoint]; [None] targets at
    line 1928. *)
Definition interaction_distance (l : line) (p0 dir : vec) (depth : R) : outcome ext :=
  let flip := if Rlt_dec depth 0 then true else false in
  let direction := if flip then vneg dir else dir in
  let goal := if flip then depth * -1 else depth in
  match cross_sections with
  | [] => Ok (match decay_length with Some x => Fin (goal * x) | None => if Req_EM_T goal 0 then Fin 0 else PInf end)
  | _ =>
      let offset := vdot (vsub (l_position l) p0) direction in
      match sector_loop (distance_cb p0 direction offset (negb (backward l direction)) (ask_interaction direction) (fun h => composition h * (1 / (1 / 100))) goal)
              (Some 0, Fin 0) (l_hits l) (backward l direction) with
      | Ok (_, d) => Ok (if flip then negate d else d)
      | Throw => Throw
      | UB => UB
      end
  end.

(** DetectorModel.cxx:2006-2011, [DistanceForInteractionDepthToPoint]. *)
Definition interaction_distance_to (l : line) (p0 dir : vec) (depth : R) : outcome ext := interaction_distance l p0 (vneg dir) depth.
(** DetectorModel.cxx:2136-2141 and 2150-2155: the same in detector coordinates. *)
Definition interaction_distance_det {A} (m : frame A) (l : line) (p0 dir : vec) (depth : R) : outcome ext := interaction_distance l (to_geo m p0) (to_geo_dir m dir) depth.
(** DetectorModel.cxx:2150-2155. *)
Definition interaction_distance_to_det {A} (m : frame A) (l : line) (p0 dir : vec) (depth : R) : outcome ext := interaction_distance l (to_geo m p0) (to_geo_dir m dir) depth.
End Interaction.
End Depth.
