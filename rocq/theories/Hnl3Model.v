(** Model of the decay of a heavy neutral lepton to a neutrino and two charged leptons.
    Source: projects/interactions/private/HNLDecay.cxx.
    Doubles are real numbers; NaN and failed assertions are [None]; the random numbers drawn are
    arguments. *)
From Coq Require Import Reals Bool List ZArith.
From Verif Require Import VectorModel RkModel RandomModel DipoleModel HnlModel MhModel.
Import ListNotations.
Open Scope R_scope.

(** HNLDecay.h:43-45: the members; [mixing] has three elements (HNLDecay.h:75). *)
Record hnl3 := mkhnl3 { t_mass : R; t_nature : nature; t_mixing : flavour -> R }.

(** HNLDecay.cxx:1262-1267, 1294: the sampled phase space variables. *)
Record phase3 := mkph { ph_s1 : R; ph_s2 : R; ph_cos : R; ph_phi : R; ph_rot : R }.

(** HNLDecay.cxx:1214-1216, [CosAlpha34] for its numerator and denominator. The denominator is not
    negative; a number over zero is an infinity and clamped, zero over zero is NaN. *)
Definition cos34 (num den : R) : option R :=
  if Req_EM_T den 0 then
    (if Req_EM_T num 0 then None else if Rlt_dec num 0 then Some (- (1)) else Some 1)
  else
    let c := num / den in
    let c := if Rlt_dec 1 c then 1 else c in
    let c := if Rlt_dec c (- (1)) then - (1) else c in
    Some c.

(** HNLDecay.cxx:1219-1222: [n3]. *)
Definition n3_of (ct phi : R) : vec :=
  let st := sqrt (1 - ct * ct) in mkv (st * cos phi) (st * sin phi) ct.
(** HNLDecay.cxx:1224-1235: [n4]. *)
Definition n4_of (ct phi rot ca sa : R) : vec :=
  let st := sqrt (1 - ct * ct) in
  let n3 := n3_of ct phi in
  let etx := ct * cos phi in let ety := ct * sin phi in let etz := - st in
  let epx := - sin phi in let epy := cos phi in
  let cpr := cos rot in let spr := sin rot in
  mkv (ca * vx n3 + sa * (cpr * etx + spr * epx))
      (ca * vy n3 + sa * (cpr * ety + spr * epy))
      (ca * vz n3 + sa * cpr * etz).

(** HNLDecay.cxx:1207-1245, [ThreeBodyPhaseSpaceConversion]: [k3] and [k4]. The [abs] of line 1237
    is that of doubles. *)
Definition convert3 (d : hnl3) (p : vec) (mass ma mb : R) (x : phase3) : option (p4 * p4) :=
  let M := t_mass d in
  let e3 := (M * M * (1 - ph_s2 x) + ma * ma) / (2 * M) in
  let e4 := (M * M * (1 - ph_s1 x) + mb * mb) / (2 * M) in
  if Rlt_dec (e3 * e3 - ma * ma) 0 then None
  else if Rlt_dec (e4 * e4 - mb * mb) 0 then None
  else
    let p3 := sqrt (e3 * e3 - ma * ma) in
    let p4m := sqrt (e4 * e4 - mb * mb) in
    let s3 := 1 + (ma * ma + mb * mb) / (M * M) - ph_s1 x - ph_s2 x in
    match cos34 (e3 * e4 - 1 / 2 * (s3 * (M * M) - ma * ma - mb * mb)) (p3 * p4m) with
    | None => None
    | Some ca =>
        let sa := sqrt (1 - ca * ca) in
        if Rlt_dec (1 - ph_cos x * ph_cos x) 0 then None
        else if Rlt_dec (Rabs (mass - M)) (/ 10 ^ 6) then
          match lab_boost (p4_of p mass) with
          | None => None
          | Some to_lab =>
              let k3 := p4_of (vscale p3 (n3_of (ph_cos x) (ph_phi x))) ma in
              let k4 := p4_of (vscale p4m (n4_of (ph_cos x) (ph_phi x) (ph_rot x) ca sa)) mb in
              Some (p4_boost to_lab k3, p4_boost to_lab k4)
          end
        else None
    end.

(** HNLDecay.cxx:1269. *)
Definition s1_min (d : hnl3) (ma : R) : R := ma * ma / (t_mass d * t_mass d).
(** HNLDecay.cxx:1270. *)
Definition s1_max (d : hnl3) (mb : R) : R := (t_mass d - mb) * (t_mass d - mb) / (t_mass d * t_mass d).
(** HNLDecay.cxx:1276-1284: the coefficients [a], [b], [c]. *)
Definition dalitz_a (d : hnl3) (s1 : R) : R := t_mass d ^ 6 * s1.
(** HNLDecay.cxx:1278-1281. *)
Definition dalitz_b (d : hnl3) (ma mb s1 : R) : R :=
  let M := t_mass d in
  ((M * M * s1) ^ 2 + ma * ma * (M * M - mb * mb) - M * M * s1 * (M * M + ma * ma + mb * mb)) * (M * M).
(** HNLDecay.cxx:1283-1284. *)
Definition dalitz_c (d : hnl3) (ma mb s1 : R) : R :=
  let M := t_mass d in
  M * M * s1 * mb * mb * (M * M - ma * ma) - ma * ma * mb * mb * (M * M - ma * ma - mb * mb).

(** HNLDecay.cxx:1268-1295, [ThreeBodyPhaseSpaceProposalDistribution] for five numbers of the
    generator; [None] for the square root of a negative number or a division by zero. *)
Definition propose3 (d : hnl3) (ma mb u1 u2 u3 u4 u5 : R) : option phase3 :=
  let s1 := uniform (s1_min d ma) (s1_max d mb) u1 in
  let a := dalitz_a d s1 in let b := dalitz_b d ma mb s1 in let c := dalitz_c d ma mb s1 in
  let disc := b * b - 4 * a * c in
  if Rlt_dec disc 0 then None
  else if Req_EM_T a 0 then None
  else
    let lo := (- b - sqrt disc) / (2 * a) in
    let hi := (- b + sqrt disc) / (2 * a) in
    Some (mkph s1 (uniform lo hi u2) (uniform (- (1)) 1 u3) (uniform 0 (2 * c_pi) u4) (uniform 0 (2 * c_pi) u5)).

(** HNLDecay.cxx:1053-1068: what [SampleFinalState] makes of the sampled variables; the mass of the
    neutrino is then set to zero in the record, its energy and momentum are [k2]'s. *)
Definition final3 (d : hnl3) (p : vec) (mass ma mb : R) (x : phase3) : option (p4 * p4 * p4) :=
  match convert3 d p mass ma mb x with
  | None => None
  | Some (k3, k4) => Some (p4_sub (p4_sub (p4_of p mass) k3) k4, k3, k4)
  end.

(** HNLDecay.cxx:31-33, [lambda]. *)
Definition kallen (a b c : R) : R := a * a + b * b + c * c - 2 * a * b - 2 * a * c - 2 * b * c.

(** HNLDecay.cxx:1149-1154, comparison of flavours, as a number. *)
Definition fl_eq (a b : flavour) : R :=
  match a, b with FlE, FlE | FlMu, FlMu | FlTau, FlTau => 1 | _, _ => 0 end.
(** Constants.h:132, [thetaWeinberg]. *)
Definition theta_w : R := 2312 / 10000.
(** HNLDecay.cxx:1142. *)
Definition g_l : R := - (1) / 2 + theta_w.
(** HNLDecay.cxx:1143. *)
Definition g_r : R := theta_w.
(** HNLDecay.cxx:1148-1155, the loop over [gamma]. *)
Definition over_flavours (f : flavour -> R) : R := fold_left (fun t g => t + f g) [FlE; FlMu; FlTau] 0.

(** HNLDecay.cxx:1145-1190: [C1] to [C6]; for a Dirac particle of another type they are zero. *)
Definition coeffs3 (d : hnl3) (primary : htype) (al be : flavour) : R * R * R * R * R * R :=
  let U g := t_mixing d g ^ 2 in
  let ab := fl_eq al be in
  let c1 := over_flavours (fun g => U g * (ab * g_l ^ 2 + fl_eq g al * (1 + ab * g_l))) in
  let c2 := over_flavours (fun g => ab * g_r ^ 2 * U g) in
  let c3 := over_flavours (fun g => ab * g_r * U g * (fl_eq g be + g_l)) in
  let d1 := over_flavours (fun g => ab * g_r ^ 2 * U g) in
  let d2 := over_flavours (fun g => U g * (ab * g_l ^ 2 + fl_eq g be * (1 + ab * g_l))) in
  let d3 := over_flavours (fun g => ab * g_r * U g * (fl_eq g al + g_l)) in
  match t_nature d with
  | Dirac =>
      match primary with
      | HN4 => (c1, c2, c3, c1, c2, c3)
      | HN4Bar => (d1, d2, d3, - d1, - d2, - d3)
      | _ => (0, 0, 0, 0, 0, 0)
      end
  | Majorana => (c1 + d1, c2 + d2, c3 + d3, c1 + - d1, c2 + - d2, c3 + - d3)
  end.

(** HNLDecay.cxx:870-883, 1019-1032, [m_alpha] and [m_beta] for the flavours of the signature; the
    masses are those of Constants.h:53-55. *)
Definition charged_mass (f : flavour) : R :=
  match f with FlE => 511 / 10 ^ 6 | FlMu => 105658374 / 10 ^ 9 | FlTau => 177686 / 10 ^ 5 end.

(** Constants.h:130, [FermiConstant], in GeV^-2. *)
Definition fermi : R := 116639 / 10 ^ 10.
(** HNLDecay.cxx:1195, [prefactor]. *)
Definition prefactor3 (d : hnl3) : R := fermi ^ 2 * t_mass d ^ 5 / (128 * c_pi ^ 5).

(** HNLDecay.cxx:1193, [A0sq]. *)
Definition a0sq (d : hnl3) (primary : htype) (al be : flavour) (ma mb s1 s2 : R) : R :=
  let '(c1, c2, c3, c4, c5, c6) := coeffs3 d primary al be in
  let x3 := ma / t_mass d in let x4 := mb / t_mass d in
  c1 * (s2 - x3 * x3) * (1 + x4 * x4 - s2) + c2 * (s1 - x4 * x4) * (1 + x3 * x3 - s1)
  + 2 * c3 * x3 * x4 * (s1 + s2 - x3 * x3 - x4 * x4).
(** HNLDecay.cxx:1194, [A1sq]; [None] if the argument of a square root is negative. *)
Definition a1sq (d : hnl3) (primary : htype) (al be : flavour) (ma mb s1 s2 ct3 ct4 : R) : option R :=
  let '(c1, c2, c3, c4, c5, c6) := coeffs3 d primary al be in
  let x3 := ma / t_mass d in let x4 := mb / t_mass d in
  let l2 := kallen 1 s2 (x4 * x4) in let l1 := kallen 1 s1 (x3 * x3) in
  if Rlt_dec l2 0 then None
  else if Rlt_dec l1 0 then None
  else Some ((c4 * (s2 - x3 * x3) - 2 * c6 * x3 * x4) * sqrt l2 * ct4
             + (c5 * (s1 - x4 * x4) - 2 * c6 * x3 * x4) * sqrt l1 * ct3).

(** HNLDecay.cxx:1136-1201, [ThreeBodyDifferentialDecayWidth] from angles in the laboratory. *)
Definition width3_lab (d : hnl3) (primary : htype) (h : R) (al be : flavour) (ma mb s1 s2 ct3 ct4 : R) : option R :=
  match a1sq d primary al be ma mb s1 s2 ct3 ct4 with
  | None => None
  | Some a1 =>
      let a0 := a0sq d primary al be ma mb s1 s2 in
      Some (if Rlt_dec 0 h then prefactor3 d * (a0 + a1) else if Rlt_dec h 0 then prefactor3 d * (a0 - a1) else 0)
  end.

(** HNLDecay.cxx:1249-1261, [ThreeBodyDifferentialDecayWidth] from angles in the rest frame. *)
Definition width3 (d : hnl3) (primary : htype) (h : R) (p : vec) (mass : R) (al be : flavour) (ma mb : R) (x : phase3) : option R :=
  match convert3 d p mass ma mb x with
  | None => None
  | Some (k3, k4) =>
      let dir := direction (pp (p4_of p mass)) in
      width3_lab d primary h al be ma mb (ph_s1 x) (ph_s2 x) (vdot dir (direction (pp k3))) (vdot dir (direction (pp k4)))
  end.
