(** Model of the two-body and three-neutrino decays of a heavy neutral lepton.
    Source: projects/interactions/private/HNLDecay.cxx.
    Doubles are real numbers; the random numbers drawn are arguments. The widths, which involve
    the running coupling of CRunDec, and the table of particle masses are parameters. *)
From Coq Require Import Reals Bool List ZArith.
From Verif Require Import VectorModel RkModel RandomModel DipoleModel TurnModel.
Import ListNotations.
Open Scope R_scope.

(** HNLDecay.cxx:637-728, 771-802, 821-833: the particle types the class distinguishes. *)
Inductive flavour := FlE | FlMu | FlTau.
(** HNLDecay.cxx:637-728, 771-802, 821-833. *)
Inductive htype :=
| HNu (f : flavour) | HNuBar (f : flavour) | HMinus (f : flavour) | HPlus (f : flavour)
| HNuLight | HNuLightBar
| HPi0 | HEta | HEtaPrime | HGamma | HHadrons
| HZ0 | HRho0 | HOmega | HPhi | HKPrime0
| HN4 | HN4Bar | HOther (code : Z).

(** Constants.h:63-97: the masses [GetAlpha] uses. *)
Definition z_mass : R := 911876 / 10000.
(** Constants.h:68. *)
Definition rho0_mass : R := 77526 / 100000.
(** Constants.h:71. *)
Definition omega_mass : R := 78266 / 100000.
(** Constants.h:72. *)
Definition phi_mass : R := 1019461 / 1000000.
(** Constants.h:63. *)
Definition kprime0_mass : R := 896 / 1000.

(** HNLDecay.h:43-45: the members used here. *)
Record hnl := mkhnl { n_mass : R; n_nature : nature }.
(** InteractionSignature.h:23-26. *)
Record hsig := mkhsig { hs_primary : htype; hs_secondary : list htype }.
(** HNLDecay.cxx:821, 912, element of [secondary_types]. *)
Definition hs_at (s : hsig) (i : nat) : htype := nth i (hs_secondary s) (HOther 0).

(** HNLDecay.cxx:771-802, [GetAlpha]. *)
Definition get_alpha (d : hnl) (t : htype) : R :=
  let vector m := (n_mass d * n_mass d - 2 * m * m) / (n_mass d * n_mass d + 2 * m * m) in
  match t with
  | HPi0 | HEta | HEtaPrime | HGamma | HHadrons => 1
  | HZ0 => vector z_mass
  | HRho0 => vector rho0_mass
  | HOmega => vector omega_mass
  | HPhi => vector phi_mass
  | HKPrime0 => vector kprime0_mass
  | _ => 0
  end.

(** HNLDecay.cxx:912-923, the list of leptons of the sampler, also in the assertion 963-974. *)
Definition sampler_lepton (t : htype) : bool :=
  match t with HNu _ | HNuBar _ | HMinus _ | HPlus _ => true | _ => false end.
(** HNLDecay.cxx:821-833, the list of leptons of the width, which also has NuLight. *)
Definition width_lepton (t : htype) : bool :=
  match t with HNuLight => true | _ => sampler_lepton t end.
(** HNLDecay.cxx:912-924: [lep_index] and [X_index] of the sampler. *)
Definition sampler_lep_index (s : hsig) : nat := if sampler_lepton (hs_at s 0) then 0%nat else 1%nat.
(** HNLDecay.cxx:821-834: [lep_index] and [X_index] of the width. *)
Definition width_lep_index (s : hsig) : nat := if width_lepton (hs_at s 0) then 0%nat else 1%nat.

(** [std::copysign(a, h)]; the sign of a zero is taken as plus. HNLDecay.cxx:846, 928. *)
Definition copysign (a h : R) : R := if Rlt_dec h 0 then - Rabs a else Rabs a.
(** HNLDecay.cxx:845-847, 927-929: [alpha], for the meson type [x]. *)
Definition hnl_alpha (d : hnl) (s : hsig) (x : htype) (h : R) : R :=
  let a := copysign (get_alpha d x) h in
  match hs_primary s with HN4 => - (1) * a | _ => a end.

(** HNLDecay.cxx:930-936: the cosine, for a number [u] of the generator. *)
Definition hnl_cos (d : hnl) (alpha u : R) : R :=
  let flat := uniform (- (1)) 1 u in
  match n_nature d with
  | Majorana => flat
  | Dirac => if Rlt_dec (Rabs alpha) (/ 10 ^ 12) then flat
             else let C := uniform 0 1 u in (sqrt (1 - 2 * alpha * (1 - alpha / 2 - 2 * C)) - 1) / alpha
  end.

(** HNLDecay.cxx:937-958: the meson and the lepton, for a cosine and a number [u] of the
    generator; [None] where the argument of a square root is negative, which gives NaNs. *)
Definition hnl_products (o : abs_overload) (d : hnl) (p : vec) (mass mX mLep cos_theta u : R) : option (p4 * p4) :=
  let sin_theta := sin (acos cos_theta) in
  let pHNL := p4_of p mass in
  match lab_boost pHNL with
  | None => None
  | Some to_lab =>
      let ex := (n_mass d * n_mass d + mX * mX - mLep * mLep) / (2 * n_mass d) in
      if Rlt_dec (ex * ex - mX * mX) 0 then None
      else
        let x0 := p4_of (vscale (sqrt (ex * ex - mX * mX)) (mkv cos_theta sin_theta 0)) mX in
        let pX := p4_boost to_lab (turn o p u x0) in
        let pLep := p4_of (vsub (pp pHNL) (pp pX)) mLep in
        Some (pX, pLep)
  end.

(** The parts of InteractionRecord used here; InteractionRecord.h:306-323. A secondary is
    its momentum and its mass; the energy is recomputed. *)
Record hrecord := mkhrec {
  hr_sig : hsig; hr_helicity : R; hr_mass : R; hr_momentum : vec; hr_secondaries : list (vec * R) }.

(** HNLDecay.cxx:906-983, [SampleFinalState] for a signature with two secondaries and two numbers
    of the generator: the record, the meson and the lepton; [None] for an exception
    (no mass in the table), a failed assertion or NaNs. *)
Definition hnl_sample2 (mass_of : htype -> option R) (o : abs_overload) (d : hnl) (s : hsig) (h : R) (p : vec) (mass u1 u2 : R)
  : option (hrecord * p4 * p4) :=
  let li := sampler_lep_index s in
  let xi := (1 - li)%nat in
  let c := hnl_cos d (hnl_alpha d s (hs_at s xi) h) u1 in
  match mass_of (hs_at s xi), mass_of (hs_at s li) with
  | Some mX, Some mLep =>
      if sampler_lepton (hs_at s li) then
        match hnl_products o d p mass mX mLep c u2 with
        | None => None
        | Some (x, l) =>
            let xs := (pp x, pm x) in let ls := (pp l, pm l) in
            Some (mkhrec s h mass p (if Nat.eqb xi 0 then [xs; ls] else [ls; xs]), x, l)
        end
      else None
  | _, _ => None
  end.

(** HNLDecay.cxx:807-849, [DifferentialDecayWidth] of a record with two secondaries, of
    total width [w]. *)
Definition hnl_width2 (w : R) (d : hnl) (r : hrecord) : option R :=
  match n_nature d with
  | Majorana => Some (w / 2)
  | Dirac =>
      let hnl_dir := vnormalized (hr_momentum r) in
      let xi := (1 - width_lep_index (hr_sig r))%nat in
      let '(xp, xm) := nth xi (hr_secondaries r) (mkv 0 0 0, 0) in
      let pHNL := p4_of (hr_momentum r) (hr_mass r) in
      match rest_boost pHNL with
      | None => None
      | Some b =>
          let x_dir := vnormalized (pp (p4_boost b (p4_of xp xm))) in
          let cos_theta := vdot x_dir hnl_dir in
          Some (w / 2 * (1 + hnl_alpha d (hr_sig r) (hs_at (hr_sig r) xi) (hr_helicity r) * cos_theta))
      end
  end.

(** HNLDecay.cxx:1079-1085, [FinalStateProbability]. *)
Definition hnl_probability2 (w : R) (d : hnl) (r : hrecord) : option R :=
  match hnl_width2 w d r with
  | None => None
  | Some dd => Some (if Req_EM_T dd 0 then 0 else if Req_EM_T w 0 then 0 else dd / w)
  end.

(** HNLDecay.cxx:987-1007, the decay into three neutrinos: each gets a third of the momentum
    and no mass; the energy is then worked out from these when the record is finished. *)
Definition hnl_three_neutrinos (p : vec) (mass : R) : list p4 :=
  let third := p4_of (vscale (1 / 3) (pp (p4_of p mass))) 0 in [third; third; third].
