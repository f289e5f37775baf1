(** Model of the decays of the W and Z bosons.
    Sources: projects/interactions/private/ElectroweakDecay.cxx,
    projects/interactions/public/SIREN/interactions/ElectroweakDecay.h and
    projects/utilities/public/SIREN/utilities/Constants.h. Doubles are real numbers; numbers drawn
    are arguments. *)
From Coq Require Import Reals Bool List.
From Verif Require Import VectorModel RkModel RandomModel DipoleModel TurnModel DisModel.
Import ListNotations.
Open Scope R_scope.

(** The three families, in the order of ElectroweakDecay.h:47-68. *)
Inductive family := F1 | F2 | F3.
(** ParticleType, as far as ElectroweakDecay.cxx:31-75 and ElectroweakDecay.h:44-68 use it:
    [Up F3] is the top quark, [Lepton] the charged lepton of negative charge. Any other type is
    [Other]. *)
Inductive etype :=
| Wp | Wm | Zz
| Nu (f : family) | NuBar (f : family) | Lepton (f : family) | AntiLepton (f : family)
| Up (f : family) | UpBar (f : family) | Down (f : family) | DownBar (f : family)
| Other.

(** Equality of types, used throughout ElectroweakDecay.cxx:96-325. *)
Definition family_eqb (a b : family) : bool :=
  match a, b with F1, F1 | F2, F2 | F3, F3 => true | _, _ => false end.
(** Equality of types, used throughout ElectroweakDecay.cxx:96-325. *)
Definition etype_eqb (a b : etype) : bool :=
  match a, b with
  | Wp, Wp | Wm, Wm | Zz, Zz | Other, Other => true
  | Nu f, Nu g | NuBar f, NuBar g | Lepton f, Lepton g | AntiLepton f, AntiLepton g
  | Up f, Up g | UpBar f, UpBar g | Down f, Down g | DownBar f, DownBar g => family_eqb f g
  | _, _ => false
  end.

(** ElectroweakDecay.h:47-49, [Nus]. *)
Definition nus : list etype := [Nu F1; Nu F2; Nu F3].
(** ElectroweakDecay.h:50-52, [AntiNus]. *)
Definition anti_nus : list etype := [NuBar F1; NuBar F2; NuBar F3].
(** ElectroweakDecay.h:53-55, [Leptons]. *)
Definition leptons : list etype := [Lepton F1; Lepton F2; Lepton F3].
(** ElectroweakDecay.h:56-58, [AntiLeptons]. *)
Definition anti_leptons : list etype := [AntiLepton F1; AntiLepton F2; AntiLepton F3].
(** ElectroweakDecay.h:59-60, [UpQuarks]. *)
Definition up_quarks : list etype := [Up F1; Up F2].
(** ElectroweakDecay.h:61-62, [UpAntiQuarks]. *)
Definition up_anti : list etype := [UpBar F1; UpBar F2].
(** ElectroweakDecay.h:63-65, [DownQuarks]. *)
Definition down_quarks : list etype := [Down F1; Down F2; Down F3].
(** ElectroweakDecay.h:66-68, [DownAntiQuarks]. *)
Definition down_anti : list etype := [DownBar F1; DownBar F2; DownBar F3].

(** Constants.h:136, [gweak]. *)
Definition gweak : R := 64 / 100.
(** Constants.h:132, [thetaWeinberg]. *)
Definition theta_weinberg : R := 2312 / 10000.
(** Constants.h:95, [wMass]. *)
Definition w_mass : R := 80379 / 1000.
(** Constants.h:97, [zMass]. *)
Definition z_mass : R := 911876 / 10000.
(** ElectroweakDecay.h:72, [GammaW]. *)
Definition gamma_w : R := gweak ^ 2 * w_mass / (48 * c_pi).

(** ElectroweakDecay.cxx:23-28, [ZDecayWidth]. *)
Definition z_width (cL cR : R) : R :=
  let cV := cL + cR in
  let cA := cL - cR in
  let gZ := gweak / sqrt (1 - theta_weinberg) in
  gZ * gZ * z_mass / (48 * c_pi) * (cV * cV + cA * cA).

(** ElectroweakDecay.cxx:30-49, [SetCKMMap], and Constants.h:144-152; [None] is the exception of
    [std::map::at]. *)
Definition ckm (u d : etype) : option R :=
  match u, d with
  | Up F1, Down F1 => Some (9740 / 10000)
  | Up F1, Down F2 => Some (2265 / 10000)
  | Up F1, Down F3 => Some (36 / 10000)
  | Up F2, Down F1 => Some (2263 / 10000)
  | Up F2, Down F2 => Some (9732 / 10000)
  | Up F2, Down F3 => Some (405 / 10000)
  | Up F3, Down F1 => Some (85 / 10000)
  | Up F3, Down F2 => Some (398 / 10000)
  | Up F3, Down F3 => Some (99917 / 100000)
  | _, _ => None
  end.

(** ElectroweakDecay.cxx:51-76, [SetSecondaryMassMap], with Constants.h:53-55, 81-86 and 104-106;
    [None] is the exception of [std::map::at]. *)
Definition secondary_mass (t : etype) : option R :=
  match t with
  | Nu _ | NuBar _ => Some 0
  | Lepton F1 | AntiLepton F1 => Some (511 / 10 ^ 6)
  | Lepton F2 | AntiLepton F2 => Some (105658374 / 10 ^ 9)
  | Lepton F3 | AntiLepton F3 => Some (177686 / 10 ^ 5)
  | Up F1 | UpBar F1 => Some (232 / 10 ^ 5)
  | Up F2 | UpBar F2 => Some (1280 / 1000)
  | Up F3 | UpBar F3 => Some (1733 / 10)
  | Down F1 | DownBar F1 => Some (471 / 10 ^ 5)
  | Down F2 | DownBar F2 => Some (929 / 10000)
  | Down F3 | DownBar F3 => Some (4198 / 1000)
  | _ => None
  end.

(** ElectroweakDecay.cxx:115-121 and 133-139: is there a pair, one of each list? *)
Definition pair_in (s0 s1 : etype) (l1 l2 : list etype) : bool :=
  existsb (fun a => existsb (fun b => etype_eqb s0 a && etype_eqb s1 b) l2) l1.
(** ElectroweakDecay.cxx:153-180: is there a place where both are in their lists? *)
Definition same_place (s0 s1 : etype) (l1 l2 : list etype) : bool :=
  existsb (fun ab => etype_eqb s0 (fst ab) && etype_eqb s1 (snd ab)) (combine l1 l2).

(** ElectroweakDecay.cxx:123-130 and 140-148: the quark whose element of the matrix is taken, for the
    first secondary [s0] (of [ups], counterparts [up_names]) and the second (likewise); [None] where
    the loops find nothing. The lists have no repetitions, so that two searches find what the nested
    loops find. *)
Definition quark_pair (s0 s1 : etype) (ups up_names downs down_names : list etype) : option (etype * etype) :=
  match find (fun ab => etype_eqb s0 (fst ab)) (combine ups up_names),
        find (fun ab => etype_eqb s1 (fst ab)) (combine downs down_names) with
  | Some (_, u), Some (_, d) => Some (u, d)
  | _, _ => None
  end.
(** ElectroweakDecay.cxx:126 and 144. *)
Definition quark_width (ud : etype * etype) : option R :=
  match ckm (fst ud) (snd ud) with
  | Some v => Some (3 * v ^ 2 * gamma_w)
  | None => None
  end.

(** ElectroweakDecay.cxx:109-183, [TotalDecayWidth] of a record with primary type [p], mass [m] and two
    secondaries; [None] is an exception. *)
Definition ew_width (p : etype) (m : R) (s0 s1 : etype) : option R :=
  match secondary_mass s0, secondary_mass s1 with
  | Some m1, Some m2 =>
      if Rle_dec m (m1 + m2) then Some 0
      else
        match p with
        | Wm =>
            if pair_in s0 s1 leptons anti_nus then Some gamma_w
            else
              match quark_pair s0 s1 up_anti up_quarks down_quarks down_quarks with
              | Some ud => quark_width ud
              | None => Some 0
              end
        | Wp =>
            if pair_in s0 s1 anti_leptons nus then Some gamma_w
            else
              match quark_pair s0 s1 up_quarks up_quarks down_anti down_quarks with
              | Some ud => quark_width ud
              | None => Some 0
              end
        | Zz =>
            if same_place s0 s1 nus anti_nus then Some (z_width (1 / 2) 0)
            else if same_place s0 s1 leptons anti_leptons then Some (z_width (- (27) / 100) (23 / 100))
            else if same_place s0 s1 up_quarks up_anti then Some (3 * z_width (35 / 100) (- (15) / 100))
            else if same_place s0 s1 down_quarks down_anti then Some (3 * z_width (- (42) / 100) (8 / 100))
            else Some 0
        | _ => Some 0
        end
  | _, _ => None
  end.

(** ElectroweakDecay.cxx:260-328, [GetPossibleSignaturesFromParent]: the pairs of secondaries. *)
Definition ew_signatures (p : etype) : list (etype * etype) :=
  match p with
  | Wp => combine anti_leptons nus ++ list_prod up_quarks down_anti
  | Wm => combine leptons anti_nus ++ list_prod up_anti down_quarks
  | Zz => combine nus anti_nus ++ combine leptons anti_leptons ++ combine up_quarks up_anti ++
          combine down_quarks down_anti
  | _ => []
  end.

(** ElectroweakDecay.cxx:95-101: the mass put into the record; for any other primary the mass of a new
    record, zero, and there are no signatures. *)
Definition pole_mass (p : etype) : R :=
  match p with Wp | Wm => w_mass | Zz => z_mass | _ => 0 end.

(** ElectroweakDecay.cxx:102-106: the sum over the signatures, at mass [m]. *)
Definition ew_sum (p : etype) (m : R) (l : list (etype * etype)) : option R :=
  fold_left (fun acc s =>
    match acc, ew_width p m (fst s) (snd s) with
    | Some g, Some w => Some (g + w)
    | _, _ => None
    end) l (Some 0).
(** ElectroweakDecay.cxx:92-107, [TotalDecayWidth] of a primary type, and 88-90,
    [TotalDecayWidthAllFinalStates]. *)
Definition ew_total (p : etype) : option R := ew_sum p (pole_mass p) (ew_signatures p).

(** ElectroweakDecay.cxx:189-194, [DifferentialDecayWidth]. *)
Definition ew_diff (p : etype) (m : R) (s0 s1 : etype) : option R :=
  match ew_width p m s0 s1 with Some w => Some (1 / 2 * w) | None => None end.
(** ElectroweakDecay.cxx:242-248, [FinalStateProbability]. *)
Definition ew_probability (p : etype) (m : R) (s0 s1 : etype) : option R :=
  match ew_diff p m s0 s1, ew_width p m s0 s1 with
  | Some dd, Some td =>
      Some (if Req_EM_T dd 0 then 0 else if Req_EM_T td 0 then 0 else dd / td)
  | _, _ => None
  end.

(** ElectroweakDecay.cxx:196-240, [SampleFinalState], of the momentum and mass of the boson and two
    numbers of the generator: the two secondaries with their masses. [None] is an exception, or
    numbers that are not numbers; the assertion of line 228 is not modelled, and of the helicity only
    that it is the same for both. *)
Definition ew_sample (o : abs_overload) (p : vec) (m : R) (s0 s1 : etype) (u1 u2 : R) : option (p4 * p4) :=
  match secondary_mass s0, secondary_mass s1 with
  | Some mX, Some mY =>
      let c := uniform (- (1)) 1 u1 in
      let s := sin (acos c) in
      let boson := p4_of p m in
      match lab_boost boson with
      | None => None
      | Some to_lab =>
          let ex := (m * m - mY * mY + mX * mX) / (2 * m) in
          if Rlt_dec (ex * ex - mX * mX) 0 then None
          else
            let x0 := p4_of (vscale (sqrt (ex * ex - mX * mX)) (mkv c s 0)) mX in
            let pX := p4_boost to_lab (turn o p u2 x0) in
            let pY := p4_sub boson pX in
            match p4_m pY with
            | None => None
            | Some mY' => Some (pX, mkp4 (pe pY) (pp pY) mY')
            end
      end
  | _, _ => None
  end.
