(** Model of the production of heavy neutral leptons in deep inelastic scattering.
    Sources: projects/interactions/private/HNLDISFromSpline.cxx (by mixing) and
    projects/interactions/private/HNLDipoleDISFromSpline.cxx (by a dipole), which differ in the check of the kinematics.
    Doubles are real numbers, types are PDG codes; [None] is an exception. Energies and target masses are positive. *)
From Coq Require Import Reals List Bool ZArith.
From Verif Require Import RandomModel.
Import ListNotations.
Open Scope R_scope.

(** Constants.h:50-52, [isoscalarMass]. *)
Definition iso_mass : R := / 2 * (938272 / 10 ^ 6 + 939565 / 10 ^ 6).

(** HNLDISFromSpline.cxx:44-57, [kinematicallyAllowed]. For E = m the bound of line 47 is infinite. The root of a
    negative number is a NaN, with which the comparisons of line 56 are false. *)
Definition mixing_allowed (x y E M m : R) : bool :=
  if Rlt_dec 1 x then false
  else if Req_EM_T E m then false
  else if Rlt_dec x (m * m / (2 * M * (E - m))) then false
  else
    let d := 2 * (1 + M * x / (2 * E)) in
    let ad := 1 - m * m * (1 / (2 * M * E * x) + 1 / (2 * E * E)) in
    let term := 1 - m * m / (2 * M * E * x) in
    let arg := term * term - m * m / (E * E) in
    if Rlt_dec arg 0 then false
    else if Rle_dec (ad - sqrt arg) (d * y) then (if Rle_dec (d * y) (ad + sqrt arg) then true else false) else false.

(** HNLDipoleDISFromSpline.cxx:42-59, [kinematicallyAllowed]. For E = m the bound of line 48 is infinite. The comparisons of
    line 56 are false if [b] is a NaN, so that the point is accepted. *)
Definition dipole_allowed (x y E M m : R) : bool :=
  let Q2 := 2 * M * E * x * y in
  let W2 := M * M + Q2 / x * (1 - x) in
  let Er := E * y in
  let term := m * m - W2 - 2 * x * E * M - x * x * M * M + 2 * Er * (x * M + E) in
  if Rle_dec (Er * Er - W2 - term * term / (4 * E * E)) 0 then false
  else if Req_EM_T E m then false
  else if Rlt_dec x (m * m / (2 * M * (E - m))) then false
  else if Rlt_dec 1 x then false
  else
    let a := (1 - m * m * (1 / (2 * M * E * x) + 1 / (2 * E * E))) / (2 * (1 + M * x / (2 * E))) in
    let arg := (1 - m * m / (2 * M * E * x)) ^ 2 - m * m / (E * E) in
    if Rlt_dec arg 0 then true
    else
      let b := sqrt arg / (2 * (1 + M * x / (2 * E))) in
      if Rlt_dec y (a - b) then false else if Rlt_dec (a + b) y then false else true.

(** HNLDISFromSpline.h:44-56 and HNLDipoleDISFromSpline.h:43-58: the members used below. [h_coupling] is [mixing_] or [dipole_coupling_];
    the splines are the functions [ndsplineeval] and [searchcenters] with their extents. *)
Record hdis := mkhdis {
  h_dipole : bool; h_primaries : list Z; h_targets : list Z; h_mass : R; h_coupling : nat -> R;
  h_target_mass : R; h_min_q2 : R; h_unit : R;
  h_lo : R; h_hi : R; h_total : R -> R;
  h_dlo : R; h_dhi : R; h_found : R -> R -> R -> bool; h_diff : R -> R -> R -> R }.

(** The [kinematicallyAllowed] of the class: HNLDISFromSpline.cxx:345, HNLDipoleDISFromSpline.cxx:339. *)
Definition h_allowed (c : hdis) (x y E : R) : bool :=
  (if h_dipole c then dipole_allowed else mixing_allowed) x y E (h_target_mass c) (h_mass c).

(** HNLDISFromSpline.cxx:280-286 and 354-360, HNLDipoleDISFromSpline.cxx:281-287 and 349-355, [norm]. *)
Definition h_norm (c : hdis) (t : Z) : R :=
  if ((t =? 12) || (t =? -12))%Z then h_coupling c 0 ^ 2
  else if ((t =? 14) || (t =? -14))%Z then h_coupling c 1 ^ 2
  else if ((t =? 16) || (t =? -16))%Z then h_coupling c 2 ^ 2
  else 0.

(** HNLDISFromSpline.cxx:364-369, HNLDipoleDISFromSpline.cxx:359-364, [InteractionThreshold]. *)
Definition h_threshold (c : hdis) : R := ((h_mass c + iso_mass) ^ 2 - iso_mass * iso_mass) / (2 * iso_mass).

(** HNLDISFromSpline.cxx:263-288, HNLDipoleDISFromSpline.cxx:264-290, [TotalCrossSection] of type and energy. *)
Definition h_total_xs (c : hdis) (t : Z) (E : R) : option R :=
  if negb (existsb (Z.eqb t) (h_primaries c)) then None
  else if Rlt_dec (log10 E) (h_lo c) then None
  else if Rlt_dec (h_hi c) (log10 E) then None
  else Some (h_norm c t * h_unit c * Rpower 10 (h_total c (log10 E))).

(** HNLDISFromSpline.cxx:252-261, HNLDipoleDISFromSpline.cxx:253-262, [TotalCrossSection] of a record. *)
Definition h_total_record (c : hdis) (t : Z) (E : R) : option R :=
  if Rlt_dec E (h_threshold c) then Some 0 else h_total_xs c t E.

(** HNLDISFromSpline.cxx:323-362, HNLDipoleDISFromSpline.cxx:316-357, [DifferentialCrossSection] of numbers; [None] for
    [Q2] is the NaN of lines 337 and 330. A failed assertion cannot occur, the power of ten being positive. *)
Definition h_diff_xs (c : hdis) (t : Z) (E x y : R) (Q2 : option R) : R :=
  let le := log10 E in
  if Rlt_dec le (h_dlo c) then 0 else if Rlt_dec (h_dhi c) le then 0
  else if Rle_dec x 0 then 0 else if Rle_dec 1 x then 0
  else if Rle_dec y 0 then 0 else if Rle_dec 1 y then 0
  else
    let Q2 := match Q2 with Some q => q | None => 2 * E * h_target_mass c * x * y end in
    if Rlt_dec Q2 (h_min_q2 c) then 0
    else if negb (h_allowed c x y E) then 0
    else if negb (h_found c le (log10 x) (log10 y)) then 0
    else h_norm c t * h_unit c * Rpower 10 (h_diff c le (log10 x) (log10 y)).

(** HNLDISFromSpline.cxx:566-573, HNLDipoleDISFromSpline.cxx:565-572, [FinalStateProbability] for the variables of the record. *)
Definition h_probability (c : hdis) (t : Z) (E x y : R) (Q2 : option R) : option R :=
  let dxs := h_diff_xs c t E x y Q2 in
  match h_total_record c t E with
  | None => None
  | Some txs => Some (if Req_EM_T dxs 0 then 0 else if Req_EM_T txs 0 then 0 else dxs / txs)
  end.

(** InteractionSignature.h:24-26. *)
Record hsig := mkhsig { hs_primary : Z; hs_target : Z; hs_secondaries : list Z }.
(** Particle.cxx:66-72, [isNeutrino]. *)
Definition is_neutrino (t : Z) : bool :=
  ((t =? 12) || (t =? -12) || (t =? 14) || (t =? -14) || (t =? 16) || (t =? -16))%Z.
(** HNLDISFromSpline.cxx:219-250, HNLDipoleDISFromSpline.cxx:221-251, [InitializeSignatures]; the lists are the sets in their
    order, and the map by parents is left out. *)
Fixpoint h_signatures (ps targets : list Z) : option (list hsig) :=
  match ps with
  | [] => Some []
  | p :: r =>
      if negb (is_neutrino p) then None
      else
        let product := if (0 <? p)%Z then 5914%Z else (-5914)%Z in
        match h_signatures r targets with
        | None => None
        | Some l => Some (map (fun t => mkhsig p t [product; (-2000001006)%Z]) targets ++ l)
        end
  end.
