(** Model of the energy sampling of a tabulated flux.
    Source: projects/distributions/private/primary/energy/TabulatedFluxDistribution.cxx.
    Doubles are real numbers. *)
From Coq Require Import Reals List Bool.
From Verif Require Import TraversalModel TableModel.
Import ListNotations.
Open Scope R_scope.

(** TabulatedFluxDistribution.cxx:133-135: the predicate of [copy_if]. *)
Definition strictly_within (emin emax value : R) : bool :=
  if Rlt_dec emin value then if Rlt_dec value emax then true else false else false.

(** TabulatedFluxDistribution.cxx:129-137: the energies at which the density is looked at. *)
Definition flux_energies (emin emax : R) (nodes : list R) : list R :=
  emin :: filter (strictly_within emin emax) nodes ++ [emax].

(** TabulatedFluxDistribution.cxx:160: the step 1e-12 across a part without flux. *)
Definition gap_step : R := / 1000000000000.

(** TabulatedFluxDistribution.cxx:148-167: the loop.  [prev] is [energies[i-1]], [rest] the
    energies from [i] on, [node] and [val] the last elements of [cdf_energy_nodes] and
    [cdf_vector].  The result is what is appended to the two vectors, as pairs. *)
Fixpoint cdf_loop (pdf : R -> R) (prev : R) (rest : list R) (node val : R) : list (R * R) :=
  match rest with
  | [] => []
  | e :: t =>
      let p1 := pdf prev in
      let p2 := pdf e in
      if Rle_dec (p1 + p2) 0 then cdf_loop pdf e t node val
      else if Req_EM_T node prev then
        let v := val + 1/2 * (p1 + p2) * (e - prev) in
        (v, e) :: cdf_loop pdf e t e v
      else
        let w := val + gap_step in
        let v := w + 1/2 * (p1 + p2) * (e - prev) in
        (w, prev) :: (v, e) :: cdf_loop pdf e t e v
  end.

(** TabulatedFluxDistribution.cxx:143-167: the two vectors before the normalisation. *)
Definition cdf_raw (pdf : R -> R) (energies : list R) : list (R * R) :=
  match energies with
  | [] => []
  | e0 :: t => (0, e0) :: cdf_loop pdf e0 t e0 0
  end.

(** TabulatedFluxDistribution.cxx:171-172: the largest element. *)
Definition max_element (l : list R) : R :=
  match l with [] => 0 | a :: t => fold_left Rmax t a end.

(** TabulatedFluxDistribution.cxx:126-186: the table of the inverse, as pairs of cumulative
    value and energy.  The largest value is positive in the theorems; otherwise line 177 would
    divide by zero. *)
Definition cdf_table (pdf : R -> R) (emin emax : R) (nodes : list R) : list (R * R) :=
  let raw := cdf_raw pdf (flux_energies emin emax nodes) in
  let m := max_element (map fst raw) in
  map (fun p => (fst p * (1 / m), snd p)) raw.

(** TabulatedFluxDistribution.h:37-48, the members used here: the bounds, the table of the flux, its
    nodes and values, the integral, the cumulative values, the nodes belonging to them and the
    table of the inverse. *)
Record flux := mkflux {
  f_min : R; f_max : R; f_table : interp; f_nodes : list R; f_values : list R;
  f_integral : R; f_cdf : list R; f_cdf_nodes : list R; f_inverse : interp }.

(** TabulatedFluxDistribution.cxx:102-104 and 118-120: [pdf].  A look-up that throws or reads
    an unset mask has no value (answered by zero here; in the theorems with a concrete flux it
    does not happen). *)
Definition flux_pdf (table : interp) (integral energy : R) : R :=
  match evaluate1 table energy with Ok v => v / integral | _ => 0 end.

(** TabulatedFluxDistribution.cxx:246-257 with 83-100, 33-42 (the branch without Romberg) and
    126-191: the constructor from bounds and vectors of equal length.  Line 144 declares a
    local variable with the name of the member [cdf_energy_nodes]; the member stays as it was,
    empty. *)
Definition make_flux (emin emax : R) (points : list (R * R)) : outcome flux :=
  let nodes := map fst points in
  let values := map snd points in
  let table := add_table points in
  match trapezoid_between nodes values emin emax with
  | Ok integral =>
      let t := cdf_table (flux_pdf table integral) emin emax nodes in
      Ok (mkflux emin emax table nodes values integral (map fst t) [] (add_table t))
  | Throw => Throw
  | UB => UB
  end.

(** TabulatedFluxDistribution.cxx:193-195, [GetCDF]. *)
Definition get_cdf (f : flux) : list R := f_cdf f.

(** TabulatedFluxDistribution.cxx:197-199, [GetCDFEnergyNodes]. *)
Definition get_cdf_nodes (f : flux) : list R := f_cdf_nodes f.

(** TabulatedFluxDistribution.cxx:263-268, [SampleEnergy], with the number drawn at 265. *)
Definition sample_energy (f : flux) (u : R) : outcome R := evaluate1 (f_inverse f) u.

(** TabulatedFluxDistribution.cxx:271-277, [GenerationProbability]. *)
Definition generation_probability (f : flux) (energy : R) : R :=
  if Rlt_dec energy (f_min f) then 0
  else if Rlt_dec (f_max f) energy then 0
  else flux_pdf (f_table f) (f_integral f) energy.
