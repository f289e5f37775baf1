(** Model of elastic scattering of a neutrino on an electron.
    Sources: projects/interactions/private/ElasticScattering.cxx,
             projects/interactions/public/SIREN/interactions/ElasticScattering.h.
    Doubles are real numbers; the numbers of the generator are arguments. [None] is an
    exception, a failed assertion or, for the electron, a NaN. *)
From Coq Require Import Reals List Bool.
From Verif Require Import VectorModel RkModel RandomModel TurnModel.
Import ListNotations.
Open Scope R_scope.

(** The particle types the class distinguishes; ElasticScattering.cxx:44-45, 220. *)
Inductive el_type := ElNuE | ElNuMu | ElEMinus | ElOther.
(** ElasticScattering.cxx:56, 123: one of the two neutrinos. *)
Definition el_is_nu (t : el_type) : bool := match t with ElNuE | ElNuMu => true | _ => false end.

(** ElasticScattering.cxx:43-49, 78-84, [CLL]. *)
Definition cll (t : el_type) : option R :=
  match t with ElNuE => Some (7276 / 10000) | ElNuMu => Some (- (2730) / 10000) | _ => None end.
(** ElasticScattering.h:36, [CLR]. *)
Definition clr : R := 2334 / 10000.
(** Constants.h:53, [electronMass]. *)
Definition electron_mass : R := 511 / 10 ^ 6.
(** Constants.h:130, [FermiConstant], in inverse GeV squared. *)
Definition fermi : R := 116639 / 10 ^ 10.
(** Constants.h:126, [invGeVsq_per_cmsq]. *)
Definition inv_gev : R := 2568189461147501 * 10 ^ 12.

(** ElasticScattering.cxx:69-73, 90-94: the formula; [pi] of Constants.h:19 taken for the number. *)
Definition el_formula (cl s m E y : R) : R :=
  let term1 := cl * cl in
  let term2 := clr * clr * (1 - y) * (1 - y) in
  let term3 := - cl * clr * m * y / E in
  Rmax (fermi ^ 2 * s / PI * (term1 + term2 + term3) / inv_gev) 0.

(** ElasticScattering.cxx:77-95, [DifferentialCrossSection] of type, energy and y. *)
Definition dsigma (t : el_type) (E y : R) : option R :=
  match cll t with
  | None => None
  | Some cl => let m := electron_mass in let s := 2 * m * E + m * m in Some (el_formula cl s m E y)
  end.

(** The parts of InteractionRecord used here; InteractionRecord.h:306-323. [er_energy] is
    [primary_momentum[0]]; a secondary is its momentum and its mass. *)
Record el_record := mkel {
  er_type : el_type; er_energy : R; er_p : vec; er_mass : R; er_target_mass : R;
  er_secondary_types : list el_type; er_secondaries : list (vec * R) }.

(** ElasticScattering.cxx:56, 123, [nu_index]. *)
Definition el_nu_index (types : list el_type) : nat := if el_is_nu (nth 0 types ElOther) then 0%nat else 1%nat.
(** ElasticScattering.cxx:57, 124, [electron_index]. *)
Definition el_electron_index (types : list el_type) : nat := (1 - el_nu_index types)%nat.

(** rk_P4.icc:308-315, [invMass] of two. *)
Definition inv_mass (a b : p4) : option R :=
  let msq := pm a * pm a + pm b * pm b + 2 * p4_dot a b in
  if Rlt_dec msq 0 then None else Some (sqrt msq).

(** ElasticScattering.cxx:50-64: y computed from a record. *)
Definition el_record_y (r : el_record) : R :=
  let p1 := p4_of (er_p r) (er_mass r) in
  let p2 := p4_of (mkv 0 0 0) (er_target_mass r) in
  let '(v3, m3) := nth (el_nu_index (er_secondary_types r)) (er_secondaries r) (mkv 0 0 0, 0) in
  let p3 := p4_of v3 m3 in
  1 - p4_dot p2 p3 / p4_dot p2 p1.

(** ElasticScattering.cxx:41-74, [DifferentialCrossSection] of a record. *)
Definition dsigma_record (r : el_record) : option R :=
  match cll (er_type r) with
  | None => None
  | Some cl =>
      let p1 := p4_of (er_p r) (er_mass r) in
      let p2 := p4_of (mkv 0 0 0) (er_target_mass r) in
      match inv_mass p1 p2 with
      | None => None
      | Some im =>
          let types := er_secondary_types r in
          if Nat.eqb (length types) 2 && (el_is_nu (nth 0 types ElOther) || el_is_nu (nth 1 types ElOther)) then
            let y := el_record_y r in
            let m := snd (nth (el_electron_index types) (er_secondaries r) (mkv 0 0 0, 0)) in
            Some (el_formula cl (im ^ 2) m (er_energy r) y)
          else None
      end
  end.

(** ElasticScattering.cxx:271-281, [FinalStateProbability]; the total cross section, a Romberg
    integral of [dsigma] (lines 97-114), is an argument. *)
Definition el_probability (txs : R) (r : el_record) : option R :=
  match dsigma_record r with
  | None => None
  | Some dxs => Some (if Req_EM_T dxs 0 then 0 else if Req_EM_T txs 0 then 0 else dxs / txs)
  end.

(** ElasticScattering.cxx:134, [yMin]. *)
Definition el_ymin : R := / 10 ^ 15.
(** ElasticScattering.cxx:109, 135, [yMax]. *)
Definition el_ymax (E : R) : R := 2 * E / (2 * E + electron_mass).
(** ElasticScattering.cxx:148, 161: a proposal. *)
Definition el_proposal (E u : R) : R := Rpower 10 (uniform (log10 el_ymin) (log10 (el_ymax E)) u).

(** ElasticScattering.cxx:159-176: one round; the state is [y] and [cross_section], a round
    two numbers of the generator, the second drawn only if needed. *)
Definition el_round (t : el_type) (E : R) (s : option (R * R)) (r : R * R) : option (R * R) :=
  match s with
  | None => None
  | Some (y, xs) =>
      let test_y := el_proposal E (fst r) in
      match dsigma t E test_y with
      | None => None
      | Some txs =>
          if Rle_dec txs 0 then Some (y, xs)
          else
            let odds := txs / xs in
            if Req_EM_T xs 0 then Some (test_y, txs)
            else if Rlt_dec 1 odds then Some (test_y, txs)
            else if Rlt_dec (uniform 0 1 (snd r)) odds then Some (test_y, txs)
            else Some (y, xs)
      end
  end.

(** ElasticScattering.cxx:140-176: the chain; [y] starts at 0, [cross_section] at the one of
    the first proposal. The code makes 41 rounds. *)
Definition el_chain (t : el_type) (E u0 : R) (rounds : list (R * R)) : option (R * R) :=
  fold_left (el_round t E) rounds (match dsigma t E (el_proposal E u0) with Some xs => Some (0, xs) | None => None end).

(** ElasticScattering.cxx:177, [final_y]. *)
Definition el_final (y : R) : R := y + / 10 ^ 16.

(** ElasticScattering.cxx:183-202: the electron. [E] is [primary_energy]. *)
Definition el_electron (o : abs_overload) (p : vec) (E y u : R) : option p4 :=
  let m3 := electron_mass in
  let E3 := E * y + m3 in
  let psq := E3 * E3 - m3 * m3 in
  let costh := (m3 + E) / E * sqrt ((E3 - m3) / (E3 + m3)) in
  let px := costh * sqrt psq in
  let rest := psq - px * px in
  if Rlt_dec rest 0 then None else Some (turn o p u (p4_of (mkv px (sqrt rest) 0) m3)).

(** ElasticScattering.cxx:116-216, [SampleFinalState]: the final y, the record and the two
    secondaries put into it; [p1] the primary (line 125), the outgoing neutrino of line 204. *)
Definition el_sample (o : abs_overload) (r : el_record) (u0 : R) (rounds : list (R * R)) (uphi : R)
  : option (R * el_record * p4 * p4) :=
  let E := er_energy r in
  match el_chain (er_type r) E u0 rounds with
  | None => None
  | Some (y, _) =>
      let fy := el_final y in
      match el_electron o (er_p r) E fy uphi with
      | None => None
      | Some e =>
          let nu := p4_of (er_p r) (er_mass r) in
          let es := (pp e, pm e) in let ns := (pp nu, pm nu) in
          let secs := if Nat.eqb (el_nu_index (er_secondary_types r)) 0 then [ns; es] else [es; ns] in
          Some (fy, mkel (er_type r) E (er_p r) (er_mass r) (er_target_mass r) (er_secondary_types r) secs, e, nu)
      end
  end.
