(** Model of the densities at a point.
    Source: projects/detector/private/DetectorModel.cxx:821-988. *)
From Coq Require Import Reals List Bool ZArith.
From Verif Require Import TraversalModel VectorModel DepthModel.
Import ListNotations.
Open Scope R_scope.

(** DetectorModel.cxx:822-827, 878-883 and 923-928: the direction from the position of the list to the point, or that
    of the list when they are no more than [eps] apart (0, or distance_threshold). *)
Definition toward (eps : R) (l : line) (p0 : vec) : vec :=
  let d := vsub p0 (l_position l) in
  if Rle_dec (vmag d) eps then l_direction l else vnormalized d.

(** The callbacks of DetectorModel.cxx:839-853, 895-910 and 945-964: [value] is what is made of the first sector whose
    segment has the point; the state is [None] for NaN. GetSector of the level cannot fail for the levels of a list. *)
Definition point_cb (value : Z -> R) (offset : R) (forward : bool) (st : option R) (cur e : ix ext) (last : ext) : option R * bool :=
  let end_point := shift offset forward (dist e) in
  let start_point := emax (shift offset forward (dist cur)) (shift offset forward last) in
  if negb (eltb (Fin 0) start_point) && negb (eltb end_point (Fin 0)) then (Some (value (hier cur)), true) else (st, false).

(** DetectorModel.cxx:828-855, 884-912 and 934-966: the loop over the sectors. The assertion on the direction is left out. *)
Definition at_point (eps : R) (value : Z -> R) (l : line) (p0 : vec) : outcome (option R) :=
  let direction := toward eps l p0 in
  let offset := vdot (vsub (l_position l) p0) direction in
  sector_loop (point_cb value offset (negb (backward l direction))) None (l_hits l) (backward l direction).

Section Densities.
(** [GetSector(level).density->Evaluate], DetectorModel.cxx:848, 904 and 954. *)
Variable dens : Z -> vec -> R.

(** [GetMassDensity] of a list and a point, DetectorModel.cxx:821-860. *)
Definition mass_density (l : line) (p0 : vec) : outcome (option R) := at_point 0 (fun h => dens h p0) l p0.

(** [GetParticleDensity] of a list and a point, DetectorModel.cxx:877-917; [fraction] is GetTargetParticleFraction of the
    material of a level. *)
Definition particle_density (fraction : Z -> R) (l : line) (p0 : vec) : outcome (option R) :=
  at_point 0 (fun h => dens h p0 * fraction h) l p0.

(** [1.0 / total_decay_length], DetectorModel.cxx:932 and 970; [None] is infinity. *)
Definition decay_rate (decay_length : option R) : R := match decay_length with None => 0 | Some x => 1 / x end.

(** [GetInteractionDensity] of a list and a point, DetectorModel.cxx:919-973. *)
Definition interaction_density (fractions : Z -> list R) (cross_sections : list R) (decay_length : option R) (l : line) (p0 : vec)
  : outcome (option R) :=
  match cross_sections with
  | [] => Ok (Some (decay_rate decay_length))
  | _ =>
      match at_point threshold
              (fun h => fold_left (fun acc x => acc + dens h p0 * fst x * snd x) (combine (fractions h) cross_sections) 0 * 100) l p0 with
      | Ok r => Ok (option_map (fun x => x + decay_rate decay_length) r)
      | Throw => Throw
      | UB => UB
      end
  end.
End Densities.
