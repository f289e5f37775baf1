(** Model of deep inelastic scattering with cross sections from splines.
    Source: projects/interactions/private/DISFromSpline.cxx. Doubles are real numbers; the
    numbers of the generator are a list. [None] is an exception, a failed assertion, a NaN or a
    loop that goes on after the end of the list. *)
From Coq Require Import Reals List Bool ZArith.
From Verif Require Import VectorModel RkModel RandomModel TurnModel.
Import ListNotations.
Open Scope R_scope.

(** Comparisons of doubles in the conditions of DISFromSpline.cxx:40-53, 459-460. *)
Definition rltb (a b : R) : bool := if Rlt_dec a b then true else false.
(** DISFromSpline.cxx:52. *)
Definition rleb (a b : R) : bool := if Rle_dec a b then true else false.

(** DISFromSpline.cxx:40-53, [kinematicallyAllowed]; E is not m. The root of a negative number
    is a NaN and its comparisons false. *)
Definition allowed (x y E M m : R) : bool :=
  if Rlt_dec 1 x then false
  else if Rlt_dec x (m * m / (2 * M * (E - m))) then false
  else
    let d := 2 * (1 + M * x / (2 * E)) in
    let ad := 1 - m * m * (1 / (2 * M * E * x) + 1 / (2 * E * E)) in
    let term := 1 - m * m / (2 * M * E * x) in
    let arg := term * term - m * m / (E * E) in
    if Rlt_dec arg 0 then false
    else let bd := sqrt arg in rleb (ad - bd) (d * y) && rleb (d * y) (ad + bd).

(** Constants.h:53-55: electron, muon, tau. *)
Definition electron_m : R := 511 / 10 ^ 6.
(** Constants.h:54, [muonMass]. *)
Definition muon_m : R := 105658374 / 10 ^ 9.
(** Constants.h:55, [tauMass]. *)
Definition tau_m : R := 177686 / 10 ^ 5.
(** Constants.h:57, [Pi0Mass]. *)
Definition pi0_m : R := 134977 / 10 ^ 6.

(** DISFromSpline.cxx:162-186, [GetLeptonMass]; a type is its PDG code. *)
Definition lepton_mass (t : Z) : option R :=
  match Z.abs t with
  | 11 => Some electron_m
  | 13 => Some muon_m
  | 15 => Some tau_m
  | 12 => Some 0%R
  | 14 => Some 0%R
  | 16 => Some 0%R
  | _ => None
  end%Z.
(** Particle.cxx:75-82, [isLepton]. *)
Definition is_lepton (t : Z) : bool := (11 <=? Z.abs t)%Z && (Z.abs t <=? 16)%Z.

(** The parts of photospline's tables used in DISFromSpline.cxx:342-378 and 445-520: extents,
    [searchcenters] and [ndsplineeval] ([None]: NaN). *)
Record spline := mkspline {
  sp_ndim : nat; sp_lo : nat -> R; sp_hi : nat -> R;
  sp_found : R -> R -> R -> bool; sp_eval : R -> R -> R -> option R }.

(** DISFromSpline.h, class [DISFromSpline]: the members used in DISFromSpline.cxx:286-592;
    [d_total] is the logarithm of the total cross section, [d_lo] and [d_hi] its extents. *)
Record dis := mkdis {
  d_spline : spline; d_lo : R; d_hi : R; d_total : R -> R; d_primaries : list Z;
  d_target_mass : R; d_min_q2 : R; d_min_w2 : R; d_unit : R }.

(** DISFromSpline.cxx:279-284, [SetMinimumW2]. *)
Definition set_min_w2 (M : R) : option R := if Rle_dec M 0 then None else Some ((M + pi0_m) ^ 2).

(** pow(10., v) as in DISFromSpline.cxx:458. *)
Definition ten (v : R) : R := Rpower 10 v.

(** DISFromSpline.cxx:342-378, [DifferentialCrossSection] of numbers; [None] for [Q2] is the
    NaN of line 356. E is positive. *)
Definition dis_xs (c : dis) (E x y m : R) (Q2 : option R) : option R :=
  let sp := d_spline c in
  let le := log10 E in
  if rltb le (sp_lo sp 0) || rltb (sp_hi sp 0) le then Some 0
  else if rleb x 0 || rleb 1 x then Some 0
  else if rleb y 0 || rleb 1 y then Some 0
  else
    let Q2 := match Q2 with Some q => q | None => 2 * E * d_target_mass c * x * y end in
    if Rlt_dec Q2 (d_min_q2 c) then Some 0
    else
      let W2 := d_target_mass c ^ 2 + Q2 / x * (1 - x) in
      if Rlt_dec W2 (d_min_w2 c) then Some 0
      else if negb (allowed x y E (d_target_mass c) m) then Some 0
      else if negb (sp_found sp le (log10 x) (log10 y)) then Some 0
      else match sp_eval sp le (log10 x) (log10 y) with
           | None => None
           | Some v => Some (d_unit c * ten v)
           end.

(** The parts of InteractionRecord used here; InteractionRecord.h:306-323. [dr_energy] is
    [primary_momentum[0]]; a secondary is its momentum and its mass. *)
Record dis_record := mkdr {
  dr_primary : Z; dr_energy : R; dr_p : vec; dr_mass : R; dr_target_mass : R;
  dr_types : list Z; dr_secondaries : list (vec * R) }.

(** DISFromSpline.cxx:324, 408, [lepton_index]. *)
Definition dis_lepton_index (types : list Z) : nat := if is_lepton (nth 0 types 0%Z) then 0%nat else 1%nat.

(** DISFromSpline.cxx:318-340, [DifferentialCrossSection] of a record. *)
Definition dis_xs_record (c : dis) (r : dis_record) : option R :=
  let p1 := p4_of (dr_p r) (dr_mass r) in
  let p2 := p4_of (mkv 0 0 0) (dr_target_mass r) in
  if negb (Nat.eqb (length (dr_types r)) 2) then None
  else
    let i := dis_lepton_index (dr_types r) in
    let '(v3, m3) := nth i (dr_secondaries r) (mkv 0 0 0, 0) in
    let p3 := p4_of v3 m3 in
    let q := p4_sub p1 p3 in
    let Q2 := - p4_dot q q in
    let y := 1 - p4_dot p2 p3 / p4_dot p2 p1 in
    let x := Q2 / (2 * p4_dot p2 q) in
    match lepton_mass (nth i (dr_types r) 0%Z) with
    | None => None
    | Some m => dis_xs c (dr_energy r) x y m (Some Q2)
    end.

(** DISFromSpline.cxx:297-316, [TotalCrossSection] of type and energy; 286-295 and 380-383: of
    a record it is the same for energies from 0. *)
Definition dis_total (c : dis) (t : Z) (E : R) : option R :=
  if negb (existsb (Z.eqb t) (d_primaries c)) then None
  else
    let le := log10 E in
    if rltb le (d_lo c) || rltb (d_hi c) le then None
    else Some (d_unit c * ten (d_total c le)).

(** DISFromSpline.cxx:584-592, [FinalStateProbability]. *)
Definition dis_probability (c : dis) (r : dis_record) : option R :=
  match dis_xs_record c r, dis_total c (dr_primary r) (dr_energy r) with
  | Some dxs, Some txs => Some (if Req_EM_T dxs 0 then 0 else dxs / txs)
  | _, _ => None
  end.

(** ** The sampler *)

(** DISFromSpline.cxx:458-460, 497-499: a point that ends the inner loops; [lx], [ly] are
    the logarithms of x and y. *)
Definition dis_cuts (c : dis) (E1 E2 m lx ly : R) : bool :=
  let q := 2 * E1 * E2 * ten (lx + ly) in
  let w := d_target_mass c ^ 2 + q / ten lx * (1 - ten lx) in
  negb (rltb q (d_min_q2 c)) && negb (rltb w (d_min_w2 c)) && allowed (ten lx) (ten ly) E1 (d_target_mass c) m.

(** DISFromSpline.cxx:464-477, 502-513: inside the table. *)
Definition dis_in_table (sp : spline) (le lx ly : R) : bool :=
  negb (rltb lx (sp_lo sp 1) || rltb (sp_hi sp 1) lx) &&
  negb (rltb ly (sp_lo sp 2) || rltb (sp_hi sp 2) ly) && sp_found sp le lx ly.

(** DISFromSpline.cxx:419-428: the limits of the logarithms of x (below) and y. *)
Record dis_limits := mklim { l_xmin : R; l_ymin : R; l_ymax : R }.
(** DISFromSpline.cxx:419-428. The logarithm of a number that is not positive gives points that
    never pass the cuts: [None]. *)
Definition dis_limits_of (c : dis) (E1 E2 m : R) : option dis_limits :=
  let ymax := 1 - m / E1 in
  let ymin := d_min_q2 c / (2 * E1 * E2) in
  let xmin := d_min_q2 c / (2 * E1 * E2 * ymax) in
  if rltb 0 ymax && rltb 0 ymin then Some (mklim (log10 xmin) (log10 ymin) (log10 ymax)) else None.

(** DISFromSpline.cxx:455-460, 494-499: points are drawn until one is good. *)
Fixpoint dis_draw (good : R -> R -> bool) (lim : dis_limits) (l : list R) : option (R * R * list R) :=
  match l with
  | a :: b :: rest =>
      let lx := uniform (l_xmin lim) 0 a in
      let ly := uniform (l_ymin lim) (l_ymax lim) b in
      if good lx ly then Some (lx, ly, rest) else dis_draw good lim rest
  | _ => None
  end.

(** DISFromSpline.cxx:481-485, 515-519: x times y times the spline; [None] a NaN. *)
Definition dis_weight (c : dis) (le lx ly : R) : option R :=
  match sp_eval (d_spline c) le lx ly with
  | None => None
  | Some v => Some (ten (lx + ly) * ten v)
  end.

(** DISFromSpline.cxx:433-442: [kin_vars] and [cross_section]. *)
Record dis_state := mkds { ds_lx : R; ds_ly : R; ds_xs : option R }.

(** DISFromSpline.cxx:452-485: the first point. The outer loop draws again when the point is
    not inside the table. *)
Definition dis_start (c : dis) (E1 E2 m : R) (lim : dis_limits) (l : list R) : option (dis_state * list R) :=
  let le := log10 E1 in
  match dis_draw (fun lx ly => dis_cuts c E1 E2 m lx ly && dis_in_table (d_spline c) le lx ly) lim l with
  | None => None
  | Some (lx, ly, rest) => Some (mkds lx ly (dis_weight c le lx ly), rest)
  end.

(** DISFromSpline.cxx:521-527: whether the new point is taken, and the numbers left. When
    the old weight is a NaN all three conditions are false. *)
Definition dis_accept (old : option R) (new : R) (l : list R) : option (bool * list R) :=
  match old with
  | None => match l with _ :: rest => Some (false, rest) | [] => None end
  | Some xs =>
      if Req_EM_T xs 0 then Some (true, l)
      else if Rlt_dec 1 (new / xs) then Some (true, l)
      else match l with u :: rest => Some (rltb (uniform 0 1 u) (new / xs), rest) | [] => None end
  end.

(** DISFromSpline.cxx:491-528: one round. *)
Definition dis_round (c : dis) (E1 E2 m : R) (lim : dis_limits) (s : dis_state) (l : list R) : option (dis_state * list R) :=
  let le := log10 E1 in
  match dis_draw (dis_cuts c E1 E2 m) lim l with
  | None => None
  | Some (lx, ly, rest) =>
      if dis_in_table (d_spline c) le lx ly then
        match dis_weight c le lx ly with
        | None => Some (s, rest)
        | Some w =>
            match dis_accept (ds_xs s) w rest with
            | None => None
            | Some (true, rest) => Some (mkds lx ly (Some w), rest)
            | Some (false, rest) => Some (s, rest)
            end
        end
      else Some (s, rest)
  end.

(** DISFromSpline.cxx:491-528: [n] rounds. *)
Fixpoint dis_rounds (c : dis) (E1 E2 m : R) (lim : dis_limits) (n : nat) (s : dis_state) (l : list R) : option (dis_state * list R) :=
  match n with
  | O => Some (s, l)
  | S n => match dis_round c E1 E2 m lim s l with
           | None => None
           | Some (s, l) => dis_rounds c E1 E2 m lim n s l
           end
  end.

(** rk_P4.icc:101-118, [m], of a four-momentum whose mass is not known. *)
Definition p4_m (a : p4) : option R :=
  let msq := pe a * pe a - length_squared (pp a) in
  if Rlt_dec msq 0 then None else Some (sqrt msq).

(** DISFromSpline.cxx:537-568: the lepton and the hadrons; [M2] is the target mass of the
    record, [xy] the product of x and y. *)
Definition dis_products (o : abs_overload) (p : vec) (m1 M2 m3 xy y u : R) : option (p4 * p4) :=
  let p1 := p4_of p m1 in
  let p2 := p4_of (mkv 0 0 0) M2 in
  let E1 := pe p1 in
  let E2 := pe p2 in
  let Q2 := 2 * E1 * E2 * xy in
  let p1x := sqrt (vx p * vx p + vy p * vy p + vz p * vz p) in
  let pqx := (m1 * m1 + m3 * m3 + 2 * p1x * p1x + Q2 + 2 * E1 * E1 * (y - 1)) / (2 * p1x) in
  let arg := m1 * m1 + p1x * p1x + Q2 + E1 * E1 * (y * y - 1) in
  if Rlt_dec arg 0 then None
  else
    let momq := sqrt arg in
    let pqy :=
      if Rlt_dec momq pqx then if Rlt_dec ((pqx - momq) / momq) (/ 10 ^ 3) then Some 0 else None
      else if Rlt_dec (momq * momq - pqx * pqx) 0 then None else Some (sqrt (momq * momq - pqx * pqx)) in
    match pqy with
    | None => None
    | Some pqy =>
        let pq := turn o p u (mkp4 (E1 * y) (mkv pqx pqy 0) (- (1))) in
        let p3 := p4_of (pp (p4_sub p1 pq)) m3 in
        let p4 := p4_add p2 pq in
        match p4_m p4 with None => None | Some m4 => Some (p3, mkp4 (pe p4) (pp p4) m4) end
    end.

(** DISFromSpline.cxx:385-582, [SampleFinalState]: the sampled x and y, the record and the
    lepton and hadrons put into it. *)
Definition dis_sample (o : abs_overload) (c : dis) (r : dis_record) (l : list R) : option (R * R * dis_record * p4 * p4) :=
  let sp := d_spline c in
  if negb (Nat.eqb (sp_ndim sp) 3) then None
  else
    let E1 := pe (p4_of (dr_p r) (dr_mass r)) in
    let E2 := pe (p4_of (mkv 0 0 0) (dr_target_mass r)) in
    let i := dis_lepton_index (dr_types r) in
    match lepton_mass (nth i (dr_types r) 0%Z) with
    | None => None
    | Some m =>
        let le := log10 E1 in
        if rltb le (sp_lo sp 0) || rltb (sp_hi sp 0) le then None
        else
        match dis_limits_of c E1 E2 m with
        | None => None
        | Some lim =>
            match dis_start c E1 E2 m lim l with
            | None => None
            | Some (s, l) =>
                match dis_rounds c E1 E2 m lim 41 s l with
                | None => None
                | Some (s, l) =>
                    match l with
                    | [] => None
                    | u :: _ =>
                        match dis_products o (dr_p r) (dr_mass r) (dr_target_mass r) m (ten (ds_lx s + ds_ly s)) (ten (ds_ly s)) u with
                        | None => None
                        | Some (p3, p4) =>
                            let a := (pp p3, pm p3) in let b := (pp p4, pm p4) in
                            let secs := if Nat.eqb i 0 then [a; b] else [b; a] in
                            Some (ten (ds_lx s), ten (ds_ly s),
                                  mkdr (dr_primary r) (dr_energy r) (dr_p r) (dr_mass r) (dr_target_mass r) (dr_types r) secs, p3, p4)
                        end
                    end
                end
            end
        end
    end.
