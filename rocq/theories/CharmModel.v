(** Model of the semileptonic decays of charmed mesons.
    Sources: projects/interactions/public/SIREN/interactions/CharmDecayKinematics.h,
    projects/interactions/private/CharmMesonDecay.cxx (CharmMesonDecay3Body.cxx has the same
    arithmetic for D0 and D+). Doubles are real numbers; numbers drawn are arguments; a sampler that
    has no more numbers to draw is [None]; the Romberg integral is a parameter. *)
From Coq Require Import Reals Bool List ZArith Arith.
From Verif Require Import VectorModel RkModel RandomModel.
Import ListNotations.
Open Scope R_scope.

(** Particle types named in CharmMesonDecay.cxx:46-270 and CharmDecayKinematics.h:37-74; all others
    are [OtherType]. *)
Inductive ctype :=
| D0 | D0Bar | DPlus | DMinus | DsPlus | DsMinus | K0 | K0Bar | KPlus | KMinus
| EPlus | EMinus | MuPlus | MuMinus | TauPlus | TauMinus | NuE | NuEBar | NuMu | NuMuBar | Hadrons
| OtherType (n : nat).
(** Equality of particle types, used by the sets of CharmMesonDecay.cxx:68-108. *)
Definition ctype_eq_dec (a b : ctype) : {a = b} + {a <> b}.
Proof. decide equality; apply Nat.eq_dec. Defined.

(** CharmDecayKinematics.h:37-74, [particleMass]; the values are in Constants.h:53-77. *)
Definition charm_mass (t : ctype) : R :=
  match t with
  | D0 | D0Bar => 186484 / 100000
  | DPlus | DMinus => 186966 / 100000
  | K0 | K0Bar => 497614 / 1000000
  | KPlus | KMinus => 493677 / 1000000
  | EPlus | EMinus => 511 / 1000000
  | MuPlus | MuMinus => 105658374 / 1000000000
  | TauPlus | TauMinus => 177686 / 100000
  | DsPlus | DsMinus => 196835 / 100000
  | _ => 0
  end.
(** CharmDecayKinematics.h:78-80, [KStarMass]; Constants.h:64. *)
Definition kstar_mass : R := 89167 / 100000.

(** CharmDecayKinematics.h:88, [F]. *)
Definition quad_F (a2 a1 a0 c : R) : R := a2 * c * c * c / 3 + a1 * c * c / 2 + a0 * c.
(** CharmDecayKinematics.h:89-92, [seg]. *)
Definition quad_seg (a2 a1 a0 x0 x1 : R) : R :=
  if Rle_dec x1 x0 then 0 else quad_F a2 a1 a0 x1 - quad_F a2 a1 a0 x0.
(** CharmDecayKinematics.h:93, [scale]. *)
Definition quad_scale (a1 a0 : R) : R := Rabs a1 + Rabs a0 + 1.
(** CharmDecayKinematics.h:85-117, [integratePositivePartQuadratic]. *)
Definition pos_quad (a2 a1 a0 lo hi : R) : R :=
  let seg := quad_seg a2 a1 a0 in
  if Rle_dec hi lo then 0
  else if Rlt_dec (Rabs a2) (/ 10 ^ 12 * quad_scale a1 a0) then
    if Rlt_dec (Rabs a1) (/ 10 ^ 300) then (if Rlt_dec 0 a0 then seg lo hi else 0)
    else
      let root := - a0 / a1 in
      if Rlt_dec 0 a1 then seg (Rmax lo root) hi else seg lo (Rmin hi root)
  else
    let disc := a1 * a1 - 4 * a2 * a0 in
    if Rle_dec disc 0 then (if Rlt_dec 0 a2 then seg lo hi else 0)
    else
      let sq := sqrt disc in
      let qq := - (1 / 2) * (a1 + (if Rle_dec 0 a1 then sq else - sq)) in
      let r1 := qq / a2 in
      let r2 := a0 / qq in
      let rlo := Rmin r1 r2 in
      let rhi := Rmax r1 r2 in
      if Rlt_dec 0 a2 then seg lo (Rmin hi rlo) + seg (Rmax lo rhi) hi
      else seg (Rmax lo rlo) (Rmin hi rhi).

(** CharmDecayKinematics.h:128-131, 165-168, 174-177 and CharmMesonDecay.cxx:361-365, 389-393:
    momentum of the products of masses [a] and [b] of a particle of mass [m] at rest. The square root
    of a negative number is zero here and NaN there. *)
Definition break_up (m a b : R) : R :=
  1 / 2 * sqrt ((m - a - b) * (m + a + b) * (m + a - b) * (m - a + b)) / m.

(** CharmDecayKinematics.h:150-151 and CharmMesonDecay.cxx:374-375: [wtMEmax] with V-A weight. *)
Definition me_max (mD mK ml : R) : R :=
  Rmin (mD ^ 4 / 16) (mD * (mD - mK - ml) * (mD - mK - 0) * (mD - ml - 0)).

(** CharmDecayKinematics.h:133-148: the factor [pref] and the coefficients [C], [D], [A], [B]. *)
Record va_coeffs := mkva { va_pref : R; va_C : R; va_D : R; va_A : R; va_B : R }.
(** CharmDecayKinematics.h:127-148. *)
Definition va_of (mD mK ml m23 : R) : va_coeffs :=
  let p1 := break_up mD mK m23 in
  let p23 := break_up m23 ml 0 in
  let E23 := sqrt (p1 * p1 + m23 * m23) in
  let bz := - p1 / E23 in
  let gamma := E23 / m23 in
  let Elrest := sqrt (p23 * p23 + ml * ml) in
  let EK := sqrt (p1 * p1 + mK * mK) in
  mkva (mD * gamma * gamma * p23) Elrest (bz * p23) (EK - p1 * bz) (p1 - EK * bz).

(** CharmDecayKinematics.h:126-156, [VAWeightAngleAverage]. *)
Definition va_average (mD mK ml m23 : R) : R :=
  if Rle_dec (break_up mD mK m23) 0 then 0
  else if Rle_dec (break_up m23 ml 0) 0 then 0
  else
    let v := va_of mD mK ml m23 in
    let pref := va_pref v in
    if Rle_dec pref 0 then 0
    else
      let a0 := va_C v * va_A v in
      let a1 := va_C v * va_B v + va_D v * va_A v in
      let a2 := va_D v * va_B v in
      let qmax := me_max mD mK ml / pref in
      1 / 2 * pref * (pos_quad a2 a1 a0 (-1) 1 - pos_quad a2 a1 (a0 - qmax) (-1) 1).

(** CharmDecayKinematics.h:173-178 and CharmMesonDecay.cxx:355-366: [wtPSmax]. *)
Definition ps_max (mD mK ml : R) : R :=
  1 / 2 * break_up mD mK (ml + 0) * break_up (mD - mK) ml 0.

(** CharmDecayKinematics.h:160-184, [SampledQ2Density]. *)
Definition q2_density (mD mK ml q2 : R) (apply_va : bool) : R :=
  let m23 := sqrt q2 in
  if Rle_dec m23 ml then 0
  else if Rle_dec (mD - mK) m23 then 0
  else
    let p1 := break_up mD mK m23 in
    let p23 := break_up m23 ml 0 in
    if Rle_dec p1 0 then 0
    else if Rle_dec p23 0 then 0
    else
      let wt := p1 * p23 in
      let wt := if Rlt_dec (ps_max mD mK ml) wt then ps_max mD mK ml else wt in
      let me := if apply_va then va_average mD mK ml m23 else 1 in
      wt * me / (2 * m23).

(** [std::llround], used in CharmDecayKinematics.h:192: to the nearest, halves away from zero. *)
Definition llround (x : R) : Z :=
  if Rle_dec 0 x then Int_part (x + 1 / 2) else (- Int_part (- x + 1 / 2))%Z.
(** CharmDecayKinematics.h:191-192: the key of the cache. *)
Definition norm_key (mD mK ml : R) (apply_va : bool) : Z :=
  llround ((((mD * 1000 + mK) * 1000 + ml) * 2 + (if apply_va then 1 else 0)) * 1000).
(** CharmDecayKinematics.h:193-194: the lookup in [norm_cache]. *)
Fixpoint cache_find (k : Z) (c : list (Z * R)) : option R :=
  match c with
  | [] => None
  | (k', n) :: c' => if Z.eq_dec k k' then Some n else cache_find k c'
  end.
(** CharmDecayKinematics.h:189-203, [SampledQ2Normalization]: value and cache. [romberg f a b] is
    [rombergIntegrate]. *)
Definition q2_norm (romberg : (R -> R) -> R -> R -> R) (mD mK ml : R) (apply_va : bool)
    (c : list (Z * R)) : R * list (Z * R) :=
  let k := norm_key mD mK ml apply_va in
  match cache_find k c with
  | Some n => (n, c)
  | None =>
      let n := romberg (fun q2 => q2_density mD mK ml q2 apply_va) (ml * ml) ((mD - mK) * (mD - mK)) in
      (n, (k, n) :: c)
  end.

(** CharmMesonDecay.cxx:304-305, 484-485: [is_Ds]. *)
Definition is_ds (p : ctype) : bool := match p with DsPlus | DsMinus => true | _ => false end.
(** CharmMesonDecay.cxx:333-343, 517-523: [fracK]. *)
Definition frac_k (p : ctype) : R :=
  match p with
  | DPlus | DMinus => (874 / 100) / (874 / 100 + 533 / 100)
  | _ => (341 / 100) / (341 / 100 + 217 / 100)
  end.
(** CharmMesonDecay.cxx:315-317; Constants.h:66, 67, 72. *)
Definition eta_mass : R := 547862 / 1000000.
(** CharmMesonDecay.cxx:316. *)
Definition eta_prime_mass : R := 95778 / 100000.
(** CharmMesonDecay.cxx:317. *)
Definition phi_mass : R := 1019461 / 1000000.

(** CharmMesonDecay.cxx:311-345: the mass of the hadron, for the number [u] drawn and the first
    secondary type. *)
Definition pick_mass (p s0 : ctype) (u : R) : R :=
  if is_ds p then
    (if Rlt_dec (uniform 0 1 u) (23 / 10 / 5) then eta_mass
     else if Rlt_dec (uniform 0 1 u) (31 / 10 / 5) then eta_prime_mass else phi_mass)
  else if Rlt_dec (uniform 0 1 u) (frac_k p) then charm_mass s0 else kstar_mass.

(** CharmMesonDecay.cxx:385-395: the loop that draws [m23]; [draws] are pairs of numbers. *)
Fixpoint ps_loop (mD mK ml : R) (draws : list R) : option (R * list R) :=
  match draws with
  | u :: v :: rest =>
      let m23 := (ml + 0) + uniform 0 1 u * (mD - mK - (ml + 0)) in
      let wt := break_up mD mK m23 * break_up m23 ml 0 in
      if Rlt_dec wt (uniform 0 1 v * ps_max mD mK ml) then ps_loop mD mK ml rest
      else Some (m23, rest)
  | _ => None
  end.

(** CharmMesonDecay.cxx:398-405, 410-416: a direction for two numbers drawn. *)
Definition iso_dir (u v : R) : vec :=
  let c := uniform (- (1)) 1 u in
  let s := sin (acos c) in
  let phi := uniform 0 (2 * PI) v in
  mkv (s * cos phi) (s * sin phi) c.

(** CharmMesonDecay.cxx:406-407, 418-425: hadron, lepton and neutrino in the rest frame of the
    meson, for directions [n23] and [n1]. *)
Definition rest_products (mD mK ml m23 : R) (n23 n1 : vec) : option (p4 * p4 * p4) :=
  let p1 := break_up mD mK m23 in
  let p23 := break_up m23 ml 0 in
  let l0 := p4_of (vscale p23 n23) ml in
  let nu0 := p4_of (vscale (- p23) n23) 0 in
  let k := p4_of (vscale p1 n1) mK in
  match lab_boost (p4_of (vscale (- p1) n1) m23) with
  | None => None
  | Some b => Some (k, p4_boost b l0, p4_boost b nu0)
  end.

(** CharmMesonDecay.cxx:431: [wtME]. *)
Definition me_weight (mD : R) (k l nu : p4) : R := mD * pe l * p4_dot nu k.

(** CharmMesonDecay.cxx:380-437: the outer loop, with as many rounds as [fuel]. *)
Fixpoint me_loop (fuel : nat) (ds : bool) (mD mK ml : R) (draws : list R) : option (p4 * p4 * p4) :=
  match fuel with
  | O => None
  | S f =>
      match ps_loop mD mK ml draws with
      | Some (m23, a :: b :: c :: d :: e :: rest) =>
          match rest_products mD mK ml m23 (iso_dir a b) (iso_dir c d) with
          | None => None
          | Some (k, l, nu) =>
              let wt := if ds then 1 else me_weight mD k l nu in
              let wmax := if ds then 1 else me_max mD mK ml in
              if Rlt_dec wt (uniform 0 1 e * wmax) then me_loop f ds mD mK ml rest
              else Some (k, l, nu)
          end
      | _ => None
      end
  end.

(** CharmMesonDecay.cxx:286-463 with 277-284, [SampleFinalState]: the secondaries. A lone [Hadrons]
    takes the momentum of the meson; fewer than three secondaries otherwise are out of bounds. *)
Definition charm_sample (p : ctype) (secs : list ctype) (mom : vec) (mass : R) (draws : list R) :
  option (list p4) :=
  match secs with
  | [Hadrons] => Some [p4_of mom mass]
  | s0 :: s1 :: _ :: _ =>
      match draws with
      | u :: rest =>
          let mD := charm_mass p in
          let ml := charm_mass s1 in
          let mK := pick_mass p s0 u in
          match me_loop (length rest) (is_ds p) mD mK ml rest with
          | None => None
          | Some (k, l, nu) =>
              match lab_boost (p4_of mom mass) with
              | None => None
              | Some b => Some [p4_boost b k; p4_boost b l; p4_boost b nu]
              end
          end
      | [] => None
      end
  | _ => None
  end.

(** CharmMesonDecay.cxx:503-526: masses and fractions of the mixture. *)
Definition mixture (p s0 : ctype) : list (R * R) :=
  if is_ds p then
    [(eta_mass, 23 / 10 / 5); (eta_prime_mass, 8 / 10 / 5); (phi_mass, 19 / 10 / 5)]
  else [(charm_mass s0, frac_k p); (kstar_mass, 1 - frac_k p)].
(** CharmMesonDecay.cxx:531-534: the component nearest in mass; [best] and [found] are the state of
    the loop. *)
Fixpoint nearest (mK : R) (cs : list (R * R)) (best : R) (found : option (R * R)) : option (R * R) :=
  match cs with
  | [] => found
  | (m, f) :: cs' =>
      let d := Rabs (mK - m) in
      if Rlt_dec d best then nearest mK cs' d (Some (m, f)) else nearest mK cs' best found
  end.

(** CharmMesonDecay.cxx:469-545, [FinalStateProbability]: value and cache; [None] where it throws.
    [masses] and [k3] are the secondary masses and the momentum of the first secondary. *)
Definition charm_probability (romberg : (R -> R) -> R -> R -> R) (p : ctype) (secs : list ctype)
    (mom : vec) (mass : R) (masses : list R) (k3 : option vec) (c : list (Z * R)) :
  option (R * list (Z * R)) :=
  match secs with
  | [] => None
  | [Hadrons] => Some (1, c)
  | s0 :: _ =>
      match masses, k3 with
      | mK :: ml :: _, Some kv =>
          let dif := p4_sub (p4_of mom mass) (p4_of kv mK) in
          let q2 := p4_dot dif dif in
          match nearest mK (mixture p s0) (10 ^ 30) None with
          | None => Some (0, c)
          | Some (m, f) =>
              let g := q2_density mass m ml q2 (negb (is_ds p)) in
              if Rle_dec g 0 then Some (0, c)
              else
                let (n, c') := q2_norm romberg mass m ml (negb (is_ds p)) c in
                if Rle_dec n 0 then Some (0, c') else Some (f * g / n, c')
          end
      | _, _ => None
      end
  end.

(** CharmMesonDecay.cxx:68, 71-117: two sets of types are equal. *)
Definition same_set (xs ys : list ctype) : bool :=
  forallb (fun x => if in_dec ctype_eq_dec x ys then true else false) xs &&
  forallb (fun y => if in_dec ctype_eq_dec y xs then true else false) ys.

(** CharmMesonDecay.cxx:71-108 with 109-152: the two semileptonic modes of a primary, its branching
    ratio per mode and its lifetime in seconds. *)
Definition charm_modes (p : ctype) : option (list ctype * list ctype * R * R) :=
  match p with
  | DPlus => Some ([K0Bar; EPlus; NuE], [K0Bar; MuPlus; NuMu], 1407 / 10000, 1040 * / 10 ^ 15)
  | DMinus => Some ([K0; EMinus; NuEBar], [K0; MuMinus; NuMuBar], 1407 / 10000, 1040 * / 10 ^ 15)
  | D0 => Some ([KMinus; EPlus; NuE], [KMinus; MuPlus; NuMu], 558 / 10000, 4101 / 10 * / 10 ^ 15)
  | D0Bar => Some ([KPlus; EMinus; NuEBar], [KPlus; MuMinus; NuMuBar], 558 / 10000, 4101 / 10 * / 10 ^ 15)
  | DsPlus => Some ([Hadrons; EPlus; NuE], [Hadrons; MuPlus; NuMu], 654 / 10000, 504 * / 10 ^ 15)
  | DsMinus => Some ([Hadrons; EMinus; NuEBar], [Hadrons; MuMinus; NuMuBar], 654 / 10000, 504 * / 10 ^ 15)
  | _ => None
  end.
(** Constants.h:139, [hbar], in GeV seconds. *)
Definition hbar : R := 658211957 / 10 ^ 8 * / 10 ^ 25.
(** CharmMesonDecay.cxx:60-165, [TotalDecayWidth] of a record; [None] where it throws. *)
Definition charm_width (p : ctype) (secs : list ctype) : option R :=
  match charm_modes p with
  | None => None
  | Some (e, mu, br, tau) =>
      let ratio :=
        if same_set secs e then Some br
        else if same_set secs mu then Some br
        else if same_set secs [Hadrons] then Some (1 - 2 * br) else None in
      match ratio with
      | Some r => Some (r * hbar / tau * 1)
      | None => None
      end
  end.
(** CharmMesonDecay.cxx:177-270, [GetPossibleSignaturesFromParent]: the secondary types; all have
    the given primary and target [Decay]. *)
Definition charm_signatures (p : ctype) : list (list ctype) :=
  match p with
  | DPlus => [[K0Bar; EPlus; NuE]; [K0Bar; MuPlus; NuMu]; [Hadrons]]
  | DMinus => [[K0; EMinus; NuEBar]; [K0; MuMinus; NuMuBar]; [Hadrons]]
  | D0 => [[KMinus; EPlus; NuE]; [KMinus; MuPlus; NuMu]; [Hadrons]]
  | D0Bar => [[KPlus; EMinus; NuEBar]; [KPlus; MuMinus; NuMuBar]; [Hadrons]]
  | DsPlus => [[Hadrons; EPlus; NuE]; [Hadrons; MuPlus; NuMu]; [Hadrons]]
  | DsMinus => [[Hadrons; EMinus; NuEBar]; [Hadrons; MuMinus; NuMuBar]; [Hadrons]]
  | _ => []
  end.
(** CharmMesonDecay.cxx:46-57, [TotalDecayWidth] of a primary; an exception ends the sum. *)
Definition charm_total_width (p : ctype) : option R :=
  fold_left (fun acc s => match acc, charm_width p s with
                          | Some t, Some w => Some (t + w)
                          | _, _ => None
                          end) (charm_signatures p) (Some 0).
