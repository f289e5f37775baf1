(** Model of the random draws and of the primary energy and direction distributions.  Sources:
    projects/utilities/private/Random.cxx and
    projects/distributions/private/primary/{energy,direction,mass,helicity}/*.cxx.  Doubles are
    real numbers; [g] is what the standard generator returns, a number in [0, 1).  Where the
    arithmetic gives a NaN or an infinity the result is [None]. *)
From Coq Require Import Reals List ZArith.
From Verif Require Import VectorModel QuatModel.
Import ListNotations.
Open Scope R_scope.

(** std::pow as called from Random.cxx:45-47 and PowerLaw.cxx:32-47. Simplified: a negative base
    gives no value, although with an integer exponent it would. *)
Definition cpow (x y : R) : option R :=
  if Rlt_dec 0 x then Some (Rpower x y)
  else if Req_EM_T x 0 then
    if Rlt_dec 0 y then Some 0 else if Req_EM_T y 0 then Some 1 else None
  else None.

(** Random.cxx:32-37, [Uniform]. *)
Definition uniform (min max g : R) : R :=
  let '(min, max) := if Rlt_dec max min then (max, min) else (min, max) in
  let range := max - min in
  range * g + min.

(** Random.cxx:39-48, [PowerLaw]. *)
Definition power_law_draw (min max n g : R) : option R :=
  let '(min, max) := if Rlt_dec max min then (max, min) else (min, max) in
  let range := max - min in
  let unif := range * g + min in
  match cpow max (n + 1), cpow min (n + 1) with
  | Some hi, Some lo =>
      let base := (hi - lo) * unif + lo in
      let e := 1 / (n + 1) in
      cpow base e
  | _, _ => None
  end.

(** ** Energies *)

(** log10, called from PowerLaw.cxx:32. *)
Definition log10 (x : R) : R := ln x / ln 10.

(** PowerLaw.cxx:27-38, [SampleEnergy]. *)
Definition sample_energy (index emin emax g : R) : option R :=
  if Req_EM_T emin emax then Some emin
  else if Req_EM_T index 1 then cpow 10 (uniform (log10 emin) (log10 emax) g)
  else
    let u := uniform 0 1 g in
    match cpow emin (1 - index), cpow emax (1 - index) with
    | Some lo, Some hi =>
        let p := (1 - u) * lo + u * hi in
        cpow p (1 / (1 - index))
    | _, _ => None
    end.

(** PowerLaw.cxx:40-49, [pdf], also [GenerationProbability] (51-53), for a positive energy. *)
Definition energy_pdf (index emin emax e : R) : R :=
  if Req_EM_T emin emax then 1
  else if Req_EM_T index 1 then 1 / (e * ln (emax / emin))
  else Rpower e (- index) * (-1 + index) / (Rpower emin (1 - index) - Rpower emax (1 - index)).

(** Monoenergetic.cxx:30-38, [pdf] and [GenerationProbability]; [SampleEnergy] (26-28) returns
    the energy. *)
Definition mono_pdf (gen_energy energy : R) : R :=
  if Rlt_dec (Rabs (energy - gen_energy)) (1 / 1000000 * gen_energy) then 1 else 0.

(** Constants.h:54. *)
Definition muon_mass : R := 105658374 / 1000000000.

(** PiDARNuEDistribution.cxx:31-39, [pdf]. *)
Definition pidar_pdf (m e : R) : R := 1 * (192 * e ^ 2 / m ^ 3) * (1 / 2 - e / m).

(** PiDARNuEDistribution.cxx:42-49, [cdf]. *)
Definition pidar_cdf (m e : R) : R := 1 * (96 / m ^ 3 * (e ^ 3 / 3) - 192 / m ^ 4 * (e ^ 4 / 4)).

(** PiDARNuEDistribution.cxx:60-69: the loop, [lo], [hi] and [e] being energyMin, energyMax and
    energy. [fuel] bounds the number of rounds; running out of it is [None]. *)
Fixpoint bisect (fuel : nat) (m target tol lo hi e : R) : option R :=
  if Rlt_dec tol (hi - lo) then
    match fuel with
    | O => None
    | S fuel =>
        let e := (hi + lo) / 2 in
        if Rlt_dec (pidar_cdf m e) target then bisect fuel m target tol e hi e
        else bisect fuel m target tol lo e e
    end
  else Some e.

(** PiDARNuEDistribution.cxx:52-72, [inv_cdf]; [SampleEnergy] (75-80) calls it with the variate. *)
Definition pidar_inv_cdf (fuel : nat) (m x : R) : option R := bisect fuel m x (1 / 1000000) 0 (m / 2) 0.

(** PiDARNuEDistribution.cxx:82-92, [GenerationProbability]. *)
Definition pidar_generation (m e : R) : R :=
  if Rlt_dec e 0 then 0 else if Rlt_dec (m / 2) e then 0 else pidar_pdf m e.

(** ModifiedMoyalPlusExponentialEnergyDistribution.cxx:77-86: the loop of the Metropolis
    algorithm. [draws] has for each round the variate of the proposal and the variate of the
    acceptance, used only when the odds are not above one. *)
Fixpoint metropolis (pdf : R -> R) (emin emax : R) (draws : list (R * R)) (energy density : R) : R :=
  match draws with
  | [] => energy
  | (g, a) :: draws =>
      let test_energy := uniform emin emax g in
      let test_density := pdf test_energy in
      let odds := test_density / density in
      if Rlt_dec 1 odds then metropolis pdf emin emax draws test_energy test_density
      else if Rlt_dec (uniform 0 1 a) odds then metropolis pdf emin emax draws test_energy test_density
      else metropolis pdf emin emax draws energy density
  end.

(** ModifiedMoyalPlusExponentialEnergyDistribution.cxx:65-89, [SampleEnergy]; the loop runs
    burnin + 1 = 41 times, which is the length of [draws]. *)
Definition moyal_sample (pdf : R -> R) (emin emax g : R) (draws : list (R * R)) : R :=
  let energy := uniform emin emax g in
  metropolis pdf emin emax draws energy (pdf energy).

(** ModifiedMoyalPlusExponentialEnergyDistribution.cxx:25-30, [unnormed_pdf]; the fields are
    mu, sigma, A, l, B. *)
Definition moyal_unnormed (mu sigma A l B e : R) : R :=
  let x := (e - mu) / sigma in
  let moyal := A / sigma * exp (- (x + exp (- x)) / 2) / sqrt (2 * PI) in
  let exponential := B / l * exp (- e / l) in
  moyal + exponential.

(** ModifiedMoyalPlusExponentialEnergyDistribution.cxx:36-40, [pdf_integral]; [erf] is std::erf. *)
Definition moyal_integral (erf : R -> R) (emin emax mu sigma A l B : R) : R :=
  let exponential := B * (exp (- emin / l) - exp (- emax / l)) in
  let moyal := A * (erf (exp ((mu - emin) / (2 * sigma)) / sqrt 2)
                    - erf (exp ((mu - emax) / (2 * sigma)) / sqrt 2)) in
  exponential + moyal.

(** ModifiedMoyalPlusExponentialEnergyDistribution.cxx:91-97, [GenerationProbability]. *)
Definition moyal_generation (pdf : R -> R) (emin emax e : R) : R :=
  if Rlt_dec e emin then 0 else if Rlt_dec emax e then 0 else pdf e.

(** ** Directions *)

(** Cone.h:33-36: axis, rotation and opening angle. [None] is a rotation of NaNs. *)
Record cone := mkcone { cone_dir : vector; cone_rotation : option quat; cone_angle : R }.

(** Quaternion.cxx:388-396, [normalize], with the division by the norm zero kept apart. *)
Definition normalize_checked (q : quat) : option quat :=
  if Req_EM_T (qx q * qx q + qy q * qy q + qz q * qz q + qw q * qw q) 0 then None
  else Some (qnormalize q).

(** Vector3D.cxx:265-275, [normalize], of a new vector. *)
Definition normalize_new (v : vec) : vector :=
  if Req_EM_T (vmag v) 0 then vector_new v else mkvector (vdiv v (vmag v)) 1 0 0.

(** Cone.cxx:23-35, the constructor. In lines 30 and 32 [dir] is the parameter, not the member
    normalised in line 24. *)
Definition make_cone (dir : vec) (opening_angle : R) : cone :=
  let this_dir := normalize_new dir in
  let rotation :=
    if vector_eqb this_dir (vector_new (mkv 0 0 1)) then Some (mkq 0 0 0 1)
    else if vector_eqb this_dir (vector_new (mkv 0 0 (-1))) then Some (mkq 0 1 0 0)
    else
      let r := vcross (mkv 0 0 1) dir in
      normalize_checked (mkq (vx r) (vy r) (vz r) (1 + vz dir)) in
  mkcone this_dir rotation opening_angle.

(** Cone.cxx:37-43, [SampleDirection]; [g1] and [g2] are the two variates. *)
Definition cone_sample (c : cone) (g1 g2 : R) : option vec :=
  let theta := acos (uniform (cos (cone_angle c)) 1 g1) in
  let phi := uniform 0 (2 * PI) g2 in
  let q := q_from_zxzr phi theta 0 in
  match cone_rotation c with
  | Some rotation => Some (qrotate rotation (qrotate q (mkv 0 0 1) false) false)
  | None => None
  end.

(** Cone.cxx:45-58, [GenerationProbability], from the momentum of the event. *)
Definition cone_generation (c : cone) (momentum : vec) : R :=
  let event_dir := vnormalized momentum in
  let k := vdot (v_cart (cone_dir c)) event_dir in
  let theta := if Rlt_dec 1 k then 0 else acos k in
  if Rlt_dec theta (cone_angle c) then 1 / (2 * PI * (1 - cos (cone_angle c))) else 0.

(** IsotropicDirection.cxx:20-29, [SampleDirection]. *)
Definition isotropic_sample (g1 g2 : R) : vec :=
  let nz := uniform (-1) 1 g1 in
  let nr := sqrt (1 - nz * nz) in
  let phi := uniform (- PI) PI g2 in
  vnormalized (mkv (nr * cos phi) (nr * sin phi) nz).

(** IsotropicDirection.cxx:31-33, [GenerationProbability]. *)
Definition isotropic_generation : R := 1 / (4 * PI).

(** FixedDirection.cxx:26-33, [GenerationProbability]; [SampleDirection] (22-24) returns [dir]. *)
Definition fixed_generation (dir momentum : vec) : R :=
  let event_dir := vnormalized momentum in
  if Rlt_dec (Rabs (1 - vdot dir event_dir)) (1 / 1000000000) then 1 else 0.

(** ** Mass and helicity *)

(** PrimaryMass.cxx:32-42, [GenerationProbability]; [Sample] (28-30) sets the mass. The quotient
    of two zeros is a NaN, which is not above the bound; here it is zero. *)
Definition mass_generation (primary_mass event_mass : R) : R :=
  if Rlt_dec (1 / 1000000000) (2 * Rabs (event_mass - primary_mass) / (event_mass + primary_mass)) then 0 else 1.

(** PrimaryNeutrinoHelicityDistribution.cxx:19-25, [Sample]; [t] is the particle code. *)
Definition helicity_sample (t : Z) : R := if (0 <? t)%Z then - (1 / 2) else 1 / 2.

(** PrimaryNeutrinoHelicityDistribution.cxx:27-48, [GenerationProbability]. *)
Definition helicity_generation (t : Z) (helicity : R) : R :=
  if Rlt_dec (1 / 1000000000) (Rabs (1 / 2 - Rabs helicity)) then 0
  else if (0 <? t)%Z then (if Rlt_dec helicity 0 then 1 else 0)
  else (if Rlt_dec 0 helicity then 1 else 0).
