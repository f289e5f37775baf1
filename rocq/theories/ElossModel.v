(** Model of the energy loss of charmed mesons in matter.
    Sources: projects/interactions/private/DMesonELoss.cxx and
    projects/interactions/public/SIREN/interactions/DMesonELoss.h. Doubles are real numbers; numbers
    drawn are arguments; the Romberg integral (Integration.h:107-152, RombModel) is a parameter. *)
From Coq Require Import Reals Bool List.
From Verif Require Import VectorModel RkModel RandomModel CharmModel.
Import ListNotations.
Open Scope R_scope.

(** DMesonELoss.h:48-49. *)
Definition z_min : R := 1 / 1000.
(** DMesonELoss.h:49. *)
Definition z_max : R := 1.
(** DMesonELoss.cxx:130 and 169. *)
Definition z0 : R := 56 / 100.
(** DMesonELoss.cxx:131 and 168. *)
Definition sigma : R := 2 / 10.

(** DMesonELoss.h:40, [primary_types_]; the order of the set plays no part. *)
Definition eloss_primaries : list ctype := [D0; DPlus; DsPlus; D0Bar; DMinus; DsMinus].
(** DMesonELoss.cxx:98, [primary_types_.count]. *)
Definition eloss_supported (t : ctype) : bool :=
  match t with D0 | DPlus | DsPlus | D0Bar | DMinus | DsMinus => true | _ => false end.

(** DMesonELoss.cxx:74-86, [GetPossibleSignaturesFromParents]: primary, target and secondaries. The
    target, PPlus, is left as a parameter. *)
Definition eloss_signatures_from (T : Type) (target : T) (p : ctype) : list (ctype * T * list ctype) :=
  [(p, target, [p; Hadrons])].
(** DMesonELoss.cxx:64-72, [GetPossibleSignatures]. *)
Definition eloss_signatures (T : Type) (pplus : T) : list (ctype * T * list ctype) :=
  flat_map (eloss_signatures_from T pplus) eloss_primaries.

(** DMesonELoss.cxx:101, [log10]. *)
Definition lg (x : R) : R := ln x / ln 10.
(** DMesonELoss.cxx:97-108, [TotalCrossSection]; [None] is the exception. The logarithm of a number
    that is not positive is not a number in the code. *)
Definition eloss_total (p : ctype) (energy : R) : option R :=
  if eloss_supported p then
    Some ((exp (1891 / 1000 + 205 / 1000 * lg energy) - 2157 / 1000 + 1264 / 1000 * lg energy) * (/ 10 ^ 27))
  else None.

(** DMesonELoss.cxx:133 and 138. *)
Definition bell (z : R) : R := exp (- ((z - z0) * (z - z0)) / (2 * (sigma * sigma))).

(** DMesonELoss.cxx:122-123, [z_hi]. *)
Definition z_hi (mass energy : R) : R :=
  let z_kin := 1 - mass / energy in
  if Rlt_dec z_max z_kin then z_max else z_kin.

(** DMesonELoss.cxx:110-141, [DifferentialCrossSection], of the energies [energy] before and [final]
    behind the loss; [None] is an exception. [quad] is [rombergIntegrate]. *)
Definition eloss_diff (quad : (R -> R) -> R -> R -> option R) (p : ctype) (mass energy final : R) : option R :=
  let z := 1 - final / energy in
  let hi := z_hi mass energy in
  if Rle_dec hi z_min then Some 0
  else if Rlt_dec z z_min then Some 0
  else if Rlt_dec hi z then Some 0
  else
    match eloss_total p energy with
    | None => None
    | Some total =>
        match quad bell z_min hi with
        | Some unnormalized => Some (total / unnormalized * bell z)
        | None => None
        end
    end.

(** DMesonELoss.cxx:224-232, [FinalStateProbability]. *)
Definition eloss_probability (quad : (R -> R) -> R -> R -> option R) (p : ctype) (mass energy final : R) :
  option R :=
  match eloss_diff quad p mass energy final, eloss_total p energy with
  | Some dxs, Some txs => Some (if Req_EM_T dxs 0 then 0 else dxs / txs)
  | _, _ => None
  end.

(** Outcomes of [SampleFinalState], DMesonELoss.cxx:163, 182 and 215-221; [No_draws] is running out
    of the numbers given. *)
Inductive eloss_outcome :=
| Injection_failure
| No_draws
| Sampled (dmeson hadron : p4).

(** DMesonELoss.cxx:185-189: the first number that is not zero, and what follows. *)
Fixpoint nonzero_draw (draws : list R) : option (R * list R) :=
  match draws with
  | [] => None
  | u :: rest =>
      if Req_EM_T (uniform 0 1 u) 0 then nonzero_draw rest else Some (uniform 0 1 u, rest)
  end.

(** DMesonELoss.cxx:191. *)
Definition box_muller (u1 u2 : R) : R := sigma * sqrt (- (2) * ln u1) * cos (2 * PI * u2) + z0.

(** DMesonELoss.cxx:193-198, [accept]. *)
Definition eloss_accept (mass energy z : R) : bool :=
  let final := energy * (1 - z) in
  if Rle_dec z_min z then
    if Rle_dec z z_max then
      if Rle_dec 0 (final * final - mass * mass) then true else false
    else false
  else false.

(** DMesonELoss.cxx:180-199: [trials] more turns of the loop; [None] is the exception of line 182,
    [Some None] running out of numbers, otherwise [z]. *)
Fixpoint eloss_loop (trials : nat) (mass energy : R) (draws : list R) : option (option R) :=
  match trials with
  | O => None
  | S t =>
      match nonzero_draw draws with
      | Some (u1, g :: rest) =>
          let z := box_muller u1 (uniform 0 1 g) in
          if eloss_accept mass energy z then Some (Some z) else eloss_loop t mass energy rest
      | _ => Some None
      end
  end.

(** DMesonELoss.cxx:177. *)
Definition max_trials : nat := 10 * 10 * 10.

(** DMesonELoss.cxx:202-209: the meson and the hadron for the final energy. *)
Definition eloss_products (mom : vec) (mass energy final : R) : p4 * p4 :=
  let p3f := sqrt (final * final - mass * mass) in
  let p3i := sqrt (vx mom * vx mom + vy mom * vy mom + vz mom * vz mom) in
  let pf := p4_of (vscale (p3f / p3i) mom) mass in
  let e_h := energy - pe pf in
  (pf, p4_of (vscale (e_h / p3i) mom) 0).

(** DMesonELoss.cxx:149-222, [SampleFinalState], of the momentum and the mass of the primary; the
    helicity, which both secondaries take from the primary, is left out. *)
Definition eloss_sample (mom : vec) (mass : R) (draws : list R) : eloss_outcome :=
  let energy := pe (p4_of mom mass) in
  if Rle_dec energy mass then Injection_failure
  else
    match eloss_loop max_trials mass energy draws with
    | None => Injection_failure
    | Some None => No_draws
    | Some (Some z) =>
        let '(d, h) := eloss_products mom mass energy (energy * (1 - z)) in Sampled d h
    end.
