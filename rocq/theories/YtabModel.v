(** Model of the tabulated dipole upscattering of a neutrino to a heavy neutral lepton: the range of the
    inelasticity, the differential cross section, and the final state.
    Source: projects/interactions/private/HNLDipoleFromTable.cxx. Doubles are real numbers; a division of zero by zero is
    [None]. *)
From Coq Require Import Reals List Bool.
Open Scope R_scope.

(** HNLDipoleFromTable.cxx:74 and 103: the squared energy in the center of mass. *)
Definition square_s (E M : R) : R := 2 * E * M + M * M.

(** HNLDipoleFromTable.cxx:85 and 107, [root_term]. *)
Definition root_term (E m M : R) : R :=
  4 * E * E * (M * M) - 4 * E * M * (m * m) - 4 * (M * M) * (m * m) + m * m * (m * m).

(** HNLDipoleFromTable.cxx:69-95, [DipoleyMin]. *)
Definition y_min (E m M : R) : R :=
  let s := square_s E M in
  let r2 := m * m / s in
  let r4 := m * m * (m * m) / (s * s) in
  let m2 := M * M / s in
  let m4 := M * M * (M * M) / (s * s) in
  let m2sub1sq := (m2 - 1) ^ 2 in
  let costh_bound := 1 / (2 * s) * (2 * E * M - m * m - M * (m * m) / E - sqrt (root_term E m M)) in
  let root := sqrt (m2sub1sq + (r4 - 2 * (1 + m2) * r2)) in
  let y := if Rlt_dec r2 (1 / 10 ^ 6) then s * m2 * r4 / m2sub1sq / (2 * E * M)
           else 1 / 2 * (1 + m4 - r2 - root + m2 * (- (2) - r2 + root)) * s / (2 * E * M) in
  Rmax y costh_bound.

(** HNLDipoleFromTable.cxx:98-111, [DipoleyMax]. *)
Definition y_max (E m M : R) : R :=
  let s := square_s E M in
  let costh_bound := 1 / (2 * s) * (2 * E * M - m * m - M * (m * m) / E) + sqrt (root_term E m M) in
  Rmin costh_bound
    (1 / 2 * (M * M * (M * M) - m * m * s + s * s - M * M * (m * m + 2 * s) +
              (s - M * M) * sqrt (M * M * (M * M) + (m * m - s) ^ 2 - 2 * (M * M) * (m * m + s))) / (s * (2 * E * M))).

(** [Interpolator2D] as used at HNLDipoleFromTable.cxx:209-236: extents and values. *)
Record table := mktable { tb_max_x : R; tb_min_y : R; tb_max_y : R; tb_value : R -> R -> R }.

(** The members of the cross section and its tables for the target, HNLDipoleFromTable.cxx:209-216; [ct_protons] is
    [nprotons] after line 216, [ct_factor] is the reciprocal of the unit of line 238 or one. *)
Record cross := mkcross { ct_hnl : R; ct_coupling : R; ct_z : bool; ct_table : table; ct_proton : R -> R -> R; ct_protons : R; ct_factor : R }.

(** HNLDipoleFromTable.cxx:218-239, [DifferentialCrossSection] for known primaries and targets. *)
Definition differential (c : cross) (E M y thresh : R) : R :=
  let t := ct_table c in
  if Rlt_dec E thresh then 0 else if Rlt_dec (tb_max_x t) E then 0
  else
    let lo := y_min E (ct_hnl c) M in let hi := y_max E (ct_hnl c) M in
    if Rlt_dec y lo then 0 else if Rlt_dec hi y then 0
    else
      let v := if ct_z c then (y - lo) / (hi - lo) else y in
      if Rlt_dec v (tb_min_y t) then 0 else if Rlt_dec (tb_max_y t) v then 0
      else ct_coupling c ^ 2 * ((tb_value t E v + ct_protons c * ct_proton c E v) * ct_factor c).

(** HNLDipoleFromTable.cxx:242-244, [InteractionThreshold]. *)
Definition threshold (m M : R) : R := m + m * m / (2 * M).

(** The fields of an interaction that are read at HNLDipoleFromTable.cxx:164-186; [it_e1] and [it_e3] are the energies of
    the four-vectors of lines 169 and 185. *)
Record interaction := mkint { it_primary_mass : R; it_target_mass : R; it_energy : R; it_e1 : R; it_e3 : R }.

(** HNLDipoleFromTable.cxx:188: the products of the four-vectors with that of a particle of mass [M] at rest. *)
Definition inelasticity (M e1 e3 : R) : option R :=
  if Req_EM_T (M * e1) 0 then None else Some (1 - M * e3 / (M * e1)).

(** HNLDipoleFromTable.cxx:163-193, [DifferentialCrossSection] of an interaction; the mass of the target is set at line 168. *)
Definition differential_of (c : cross) (i : interaction) : option R :=
  let M := it_primary_mass i in
  match inelasticity M (it_e1 i) (it_e3 i) with
  | None => None
  | Some y => Some (differential c (it_energy i) M y (threshold (ct_hnl c) (it_target_mass i)))
  end.

(** HNLDipoleFromTable.cxx:406. *)
Definition final_y (y : R) : R := y + 1 / 10 ^ 16.

(** A four-momentum in a frame with the primary along the first axis, before the rotations of HNLDipoleFromTable.cxx:430-431. *)
Record four := mkfour { f_e : R; f_x : R; f_y : R }.

(** HNLDipoleFromTable.cxx:421-429: the lepton, for the final inelasticity [y]. *)
Definition lepton (E m M y : R) : four :=
  let e3 := E * (1 - y) in
  let sq := e3 * e3 - m * m in
  let x := e3 - M * y - m * m / (2 * E) in
  let t := sqrt (sq - x * x) in
  mkfour (sqrt (x * x + t * t + m * m)) x t.

(** HNLDipoleFromTable.cxx:432: the recoil, for a massless primary. *)
Definition recoil (E m M y : R) : four :=
  let l := lepton E m M y in mkfour (M + (E - f_e l)) (0 + (E - f_x l)) (0 + (0 - f_y l)).
