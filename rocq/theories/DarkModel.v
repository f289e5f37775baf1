(** Model of the upscattering whose cross sections come from DarkNews.
    Source: projects/interactions/private/DarkNewsCrossSection.cxx. Doubles are real numbers. What is implemented in
    Python (lines 65-122) is an argument: the masses, the range of Q2, and the cross sections. *)
From Coq Require Import Reals List.
From Verif Require Import VectorModel RkModel RandomModel TurnModel.
Import ListNotations.
Open Scope R_scope.

(** DarkNewsCrossSection.cxx:133-134, 141-145: momentum of the primary and the four masses [m1] to [m4]. *)
Record scatter := mkscatter { sc_p : vec; sc_m1 : R; sc_m2 : R; sc_m3 : R; sc_m4 : R }.

(** DarkNewsCrossSection.cxx:133, [p1]. *)
Definition primary (s : scatter) : p4 := p4_of (sc_p s) (sc_m1 s).
(** DarkNewsCrossSection.cxx:134, [p2]. *)
Definition target (s : scatter) : p4 := p4_of (mkv 0 0 0) (sc_m2 s).

(** DarkNewsCrossSection.cxx:160, 225, [E4Lab]. *)
Definition e4_lab (s : scatter) (q2 : R) : R := (q2 + sc_m2 s * sc_m2 s + sc_m4 s * sc_m4 s) / (2 * sc_m2 s).
(** DarkNewsCrossSection.cxx:161, 226, [E3Lab]. *)
Definition e3_lab (s : scatter) (q2 : R) : R := pe (primary s) + pe (target s) - e4_lab s q2.

(** DarkNewsCrossSection.cxx:164: what the division of doubles gives. Simplified: the sign of an infinity is left out. *)
Inductive quotient := Num (x : R) | Inf | Nan.

(** DarkNewsCrossSection.cxx:159-166, [ComputeCosThetaLab]; also lines 225-229. *)
Definition cos_theta (s : scatter) (q2 : R) : quotient :=
  let E1 := pe (primary s) in let E3 := e3_lab s q2 in
  let a := E1 * E1 - sc_m1 s * sc_m1 s in let b := E3 * E3 - sc_m3 s * sc_m3 s in
  if Rlt_dec a 0 then Nan else if Rlt_dec b 0 then Nan
  else
    let num := E1 * E3 - 5 / 10 * (q2 + sc_m1 s * sc_m1 s + sc_m3 s * sc_m3 s) in
    let den := sqrt a * sqrt b in
    if Req_EM_T den 0 then (if Req_EM_T num 0 then Nan else Inf) else Num (num / den).

(** DarkNewsCrossSection.cxx:182: [abs(...) > 1], false for a NaN. *)
Definition above_one (c : quotient) : bool := match c with Num x => if Rlt_dec 1 (Rabs x) then true else false | Inf => true | Nan => false end.
(** DarkNewsCrossSection.cxx:203: [abs(...) <= 1], false for a NaN. *)
Definition physical (c : quotient) : bool := match c with Num x => if Rle_dec (Rabs x) 1 then true else false | Inf => false | Nan => false end.

(** DarkNewsCrossSection.cxx:155-156, 180, 183, 195: a proposal, for a number [u] of the generator. *)
Definition q2_proposal (lo hi u : R) : R := Rpower 10 (uniform (log10 lo) (log10 hi) u).

(** DarkNewsCrossSection.cxx:179-184: the first point, from the numbers that the generator gives one after another; [None] while the loop still runs. *)
Fixpoint first_point (s : scatter) (lo hi : R) (us : list R) : option R :=
  match us with
  | [] => None
  | u :: rest => let q2 := q2_proposal lo hi u in if above_one (cos_theta s q2) then first_point s lo hi rest else Some q2
  end.

(** DarkNewsCrossSection.cxx:194-208: one round; the state is [kin_vars[1]] and [cross_section], a round the two numbers of the generator, the second drawn only if needed. [dxs] is the cross section at the energy of the primary. *)
Definition dark_round (s : scatter) (lo hi : R) (dxs : R -> R) (st : R * R) (r : R * R) : R * R :=
  let test := q2_proposal lo hi (fst r) in
  let txs := dxs test in
  let odds := txs / snd st in
  let accept := if Req_EM_T (snd st) 0 then true else if Rlt_dec 1 odds then true else if Rlt_dec (uniform 0 1 (snd r)) odds then true else false in
  if accept then (if physical (cos_theta s test) then (test, txs) else st) else st.

(** DarkNewsCrossSection.cxx:179-210, [final_Q2]; the code makes 41 rounds. *)
Definition final_q2 (s : scatter) (lo hi : R) (dxs : R -> R) (us : list R) (rounds : list (R * R)) : option R :=
  match first_point s lo hi us with
  | None => None
  | Some q2 => Some (fst (fold_left (dark_round s lo hi dxs) rounds (q2, dxs q2)))
  end.

(** DarkNewsCrossSection.cxx:225-243, [p3_lab] and [p4_lab]; [None] when a component is a NaN or infinite. *)
Definition final_state (o : abs_overload) (s : scatter) (q2 u : R) : option (p4 * p4) :=
  match cos_theta s q2 with
  | Num c =>
      if Rlt_dec (1 - c * c) 0 then None
      else
        let E3 := e3_lab s q2 in
        let P3 := sqrt (E3 * E3 - sc_m3 s * sc_m3 s) in
        let p3 := turn o (sc_p s) u (mkp4 E3 (vscale P3 (mkv c (sqrt (1 - c * c)) 0)) (- (1))) in
        Some (p3, p4_sub (p4_add (primary s) (target s)) p3)
  | _ => None
  end.

(** DarkNewsCrossSection.cxx:124-265, [SampleFinalState]: the chain and the final state. *)
Definition sample_final (o : abs_overload) (s : scatter) (lo hi : R) (dxs : R -> R) (us : list R) (rounds : list (R * R)) (u : R) : option (R * p4 * p4) :=
  match final_q2 s lo hi dxs us rounds with
  | None => None
  | Some q2 => match final_state o s q2 u with Some (p3, p4) => Some (q2, p3, p4) | None => None end
  end.

(** DarkNewsCrossSection.cxx:44-63: the parts of an interaction record that are read. Particle types are numbers. *)
Record dark_record := mkdr { dr_type : nat; dr_target : nat; dr_energy : R; dr_p : vec; dr_mass : R; dr_target_mass : R; dr_p3 : vec; dr_m3 : R }.

(** DarkNewsCrossSection.cxx:50-60: the Q2 of a record; line 58 gives [p3_lab] the value of [p2]. *)
Definition record_q2 (r : dark_record) : R :=
  let p1_lab := p4_of (dr_p r) (dr_mass r) in
  let p3_lab := p4_of (mkv 0 0 0) (dr_target_mass r) in
  - (1) * (pm p1_lab ^ 2 + pm p3_lab ^ 2 - 2 * p4_dot p1_lab p3_lab).

(** DarkNewsCrossSection.cxx:44-63, [DifferentialCrossSection] of a record; [dxs primary target energy Q2]. *)
Definition record_dxs (dxs : nat -> nat -> R -> R -> R) (r : dark_record) : R :=
  dxs (dr_type r) (dr_target r) (pe (p4_of (dr_p r) (dr_mass r))) (record_q2 r).

(** DarkNewsCrossSection.cxx:34-42, [TotalCrossSection] of a record; [txs primary energy target]. Line 36 reads the type of the primary for the target. *)
Definition record_txs (txs : nat -> R -> nat -> R) (r : dark_record) : R := txs (dr_type r) (dr_energy r) (dr_type r).

(** DarkNewsCrossSection.cxx:267-277, [FinalStateProbability]. *)
Definition final_probability (dxs : nat -> nat -> R -> R -> R) (txs : nat -> R -> nat -> R) (r : dark_record) : R :=
  let d := record_dxs dxs r in let t := record_txs txs r in
  if Req_EM_T d 0 then 0 else if Req_EM_T t 0 then 0 else d / t.
