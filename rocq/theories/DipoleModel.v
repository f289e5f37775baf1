(** Model of the dipole decay of a heavy neutral lepton and of decay lengths.
    Sources: projects/interactions/private/HNLDipoleDecay.cxx, projects/interactions/private/Decay.cxx,
             projects/interactions/public/SIREN/interactions/HNLDipoleDecay.h.
    Doubles are real numbers; the random numbers drawn are arguments. *)
From Coq Require Import Reals Bool List ZArith.
From Verif Require Import VectorModel RkModel RandomModel.
Import ListNotations.
Open Scope R_scope.

(** The particle types the class distinguishes; HNLDipoleDecay.cxx:57-65, 89-97. *)
Inductive ptype := Gamma | NuE | NuEBar | NuMu | NuMuBar | NuTau | NuTauBar | N4 | N4Bar | OtherType (code : Z).
(** HNLDipoleDecay.cxx:54, equality of particle types. *)
Definition ptype_eqb (a b : ptype) : bool :=
  match a, b with
  | Gamma, Gamma | NuE, NuE | NuEBar, NuEBar | NuMu, NuMu | NuMuBar, NuMuBar | NuTau, NuTau | NuTauBar, NuTauBar
  | N4, N4 | N4Bar, N4Bar => true
  | OtherType x, OtherType y => Z.eqb x y
  | _, _ => false
  end.

(** HNLDipoleDecay.h:37, [ChiralNature]. *)
Inductive nature := Dirac | Majorana.

(** HNLDipoleDecay.h:39-42: the members; the constructors see to it that there are three
    couplings (HNLDipoleDecay.h:44-54). The set of primary types is an argument where it is used. *)
Record dipole := mkdipole { hnl_mass : R; d_e : R; d_mu : R; d_tau : R; chiral : nature }.

(** Constants.h:19, [pi], its digits taken for the number; [GeV] of line 116 is 1. *)
Definition c_pi : R := PI.
(** Constants.h:135, [hbarc] in GeV m. *)
Definition hbarc : R := 1973 / 10 * / 10 ^ 9 * / 10 ^ 7 * 1 * / 100.

(** HNLDipoleDecay.cxx:46-50, [TotalDecayWidth] of a primary. *)
Definition width_all (d : dipole) : R :=
  let total := fold_left (fun t dc => t + dc * dc) [d_e d; d_mu d; d_tau d] 0 in
  total * hnl_mass d ^ 3 / (4 * c_pi) * 1.

(** InteractionSignature.h:23-26: primary and secondary types. *)
Record signature := mksig { sig_primary : ptype; sig_secondary : list ptype }.

(** HNLDipoleDecay.cxx:54, 118, 139: where the photon is. *)
Definition gamma_index (s : signature) : nat :=
  if ptype_eqb (nth 0 (sig_secondary s) (OtherType 0)) Gamma then 0%nat else 1%nat.
(** HNLDipoleDecay.cxx:55, 140. *)
Definition nu_index (s : signature) : nat := (1 - gamma_index s)%nat.

(** HNLDipoleDecay.cxx:52-67, [TotalDecayWidth] of a record, which depends on its signature. *)
Definition width (d : dipole) (s : signature) : R :=
  let nu := nth (nu_index s) (sig_secondary s) (OtherType 0) in
  let is := ptype_eqb nu in
  let csq := if is NuE || is NuEBar then d_e d * d_e d
             else if is NuMu || is NuMuBar then d_mu d * d_mu d
             else if is NuTau || is NuTauBar then d_tau d * d_tau d
             else 0 in
  csq * hnl_mass d ^ 3 / (4 * c_pi) * 1.

(** HNLDipoleDecay.cxx:83-103, [GetPossibleSignaturesFromParent]. *)
Definition signatures_from (primary : ptype) : list signature :=
  let make nu := mksig primary [Gamma; nu] in
  if ptype_eqb primary N4 then map make [NuE; NuMu; NuTau]
  else if ptype_eqb primary N4Bar then map make [NuEBar; NuMuBar; NuTauBar]
  else [].
(** HNLDipoleDecay.cxx:74-81, [GetPossibleSignatures]. *)
Definition possible_signatures (primaries : list ptype) : list signature := flat_map signatures_from primaries.

(** Decay.cxx:23-37, [TotalDecayLength] and [TotalDecayLengthAllFinalStates]: the same
    expression for the width of the signature and the total width. *)
Definition decay_length (width : R) (p : vec) (mass : R) : option R :=
  let tau := 1 / width in
  let p1 := p4_of p mass in
  match p4_beta p1, p4_gamma p1 with
  | Some beta, Some gamma => Some (beta * gamma * tau * hbarc)
  | _, _ => None
  end.

(** The parts of InteractionRecord used here; InteractionRecord.h:306-323. A secondary is
    its momentum and its mass; the energy is recomputed. *)
Record decay_record := mkrec {
  rec_sig : signature; rec_helicity : R; rec_mass : R; rec_momentum : vec; rec_secondaries : list (vec * R) }.

(** [std::copysign(1.0, h)]; the sign of a zero is taken as plus. HNLDipoleDecay.cxx:130, 143. *)
Definition copysign1 (h : R) : R := if Rlt_dec h 0 then - (1) else 1.
(** HNLDipoleDecay.cxx:130-131, 143-144: [alpha]. *)
Definition alpha_of (s : signature) (h : R) : R :=
  let a := copysign1 h in if ptype_eqb (sig_primary s) N4 then - (1) * a else a.

(** HNLDipoleDecay.cxx:105-133, [DifferentialDecayWidth]. *)
Definition differential_width (d : dipole) (r : decay_record) : option R :=
  let w := width d (rec_sig r) in
  match chiral d with
  | Majorana => Some (w / 2)
  | Dirac =>
      let hnl_dir := vnormalized (rec_momentum r) in
      let '(gp, gm) := nth (gamma_index (rec_sig r)) (rec_secondaries r) (mkv 0 0 0, 0) in
      let pHNL := p4_of (rec_momentum r) (rec_mass r) in
      let pGamma := p4_of gp gm in
      match rest_boost pHNL with
      | None => None
      | Some b =>
          let gamma_dir := vnormalized (pp (p4_boost b pGamma)) in
          let cos_theta := vdot gamma_dir hnl_dir in
          Some (w / 2 * (1 + alpha_of (rec_sig r) (rec_helicity r) * cos_theta))
      end
  end.

(** HNLDipoleDecay.cxx:194-200, [FinalStateProbability]. *)
Definition final_state_probability (d : dipole) (r : decay_record) : option R :=
  match differential_width d r with
  | None => None
  | Some dd =>
      let td := width d (rec_sig r) in
      Some (if Req_EM_T dd 0 then 0 else if Req_EM_T td 0 then 0 else dd / td)
  end.

(** HNLDipoleDecay.cxx:142-152: the cosine, for a number [u] of the generator. *)
Definition cos_theta_drawn (d : dipole) (alpha u : R) : R :=
  match chiral d with
  | Majorana => uniform (- (1)) 1 u
  | Dirac => let X := uniform 0 1 u in (sqrt (1 - 2 * alpha * (1 - alpha / 2 - 2 * X)) - 1) / alpha
  end.

(** HNLDipoleDecay.cxx:153-171: photon and neutrino, for a cosine and a number [u] of the generator. *)
Definition decay_products (o : abs_overload) (d : dipole) (p : vec) (mass cos_theta u : R) : option (p4 * p4) :=
  let sin_theta := sin (acos cos_theta) in
  let pHNL := p4_of p mass in
  match lab_boost pHNL with
  | None => None
  | Some to_lab =>
      let dir := direction (pp pHNL) in
      let x_to_pHNL := rotation_between o x_axis dir in
      let phi := uniform 0 (2 * PI) u in
      let rand_rot := rot_axis dir phi in
      let g0 := p4_of (vscale (hnl_mass d / 2) (mkv cos_theta sin_theta 0)) 0 in
      let g1 := p4_rotate x_to_pHNL g0 in
      let g2 := p4_rotate rand_rot g1 in
      let pGamma := p4_boost to_lab g2 in
      let pNu := p4_of (vsub (pp pHNL) (pp pGamma)) 0 in
      Some (pGamma, pNu)
  end.

(** HNLDipoleDecay.cxx:135-192, [SampleFinalState] for two numbers of the generator: the
    photon and the neutrino put into the record, which [CrossSectionDistributionRecord] finishes. *)
Definition sample_final_state (o : abs_overload) (d : dipole) (s : signature) (h : R) (p : vec) (mass u1 u2 : R)
  : option (decay_record * p4 * p4) :=
  let c := cos_theta_drawn d (alpha_of s h) u1 in
  match decay_products o d p mass c u2 with
  | None => None
  | Some (g, nu) =>
      let gs := (pp g, pm g) in let ns := (pp nu, pm nu) in
      Some (mkrec s h mass p (if Nat.eqb (gamma_index s) 0 then [gs; ns] else [ns; gs]), g, nu)
  end.
