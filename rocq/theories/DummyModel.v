(** Model of the cross section that is meant for tests.
    Source: projects/interactions/private/DummyCrossSection.cxx. Doubles are real numbers; a NaN is [None]. *)
From Coq Require Import Reals List ZArith Bool.
From Verif Require Import VectorModel RkModel RandomModel TurnModel.
Import ListNotations.
Open Scope R_scope.

(** DummyCrossSection.cxx:40-48, [TotalCrossSection]; the types are not read. *)
Definition dummy_total (E : R) : R :=
  let interaction_length_m := 10 ^ 6 in
  let interaction_length_cm := interaction_length_m * 100 in
  let density := 1 in
  let mol := 60221415 * 10 ^ 16 in
  let per_cm2 := density * interaction_length_cm * mol in
  let cm2 := 1 / per_cm2 in
  cm2 * E / 10 ^ 5.
(** DummyCrossSection.cxx:51-56, [DifferentialCrossSection]. *)
Definition dummy_differential (E : R) : R := dummy_total E.
(** DummyCrossSection.cxx:134-142, [FinalStateProbability]; [E] is the energy in the record. *)
Definition dummy_probability (E : R) : R :=
  let dxs := dummy_differential E in let txs := dummy_total E in if Req_EM_T dxs 0 then 0 else dxs / txs.

(** DummyCrossSection.cxx:63-64, 87-88: momentum and mass of the primary, and the mass of the target. *)
Record dummy := mkdummy { du_p : vec; du_m1 : R; du_m2 : R }.
(** DummyCrossSection.cxx:63, [p1]. *)
Definition du_primary (d : dummy) : p4 := p4_of (du_p d) (du_m1 d).
(** DummyCrossSection.cxx:64, [p2]. *)
Definition du_target (d : dummy) : p4 := p4_of (mkv 0 0 0) (du_m2 d).

(** DummyCrossSection.cxx:79-132, [SampleFinalState] after the draws [x], [y] and [u]: the momenta [p3] and [p4]. The mass and the
    helicities put into the records are left out. [None]: the root of a negative number or a division by zero. *)
Definition dummy_final (o : abs_overload) (d : dummy) (x y u : R) : option (p4 * p4) :=
  let m1 := du_m1 d in let m3 := 0 in
  let E1 := pe (du_primary d) in let E2 := pe (du_target d) in
  let Q2 := 2 * E1 * E2 * x * y in
  let p1x := sqrt (vx (du_p d) * vx (du_p d) + vy (du_p d) * vy (du_p d) + vz (du_p d) * vz (du_p d)) in
  if Req_EM_T p1x 0 then None
  else
    let pqx := (m1 * m1 + m3 * m3 + 2 * p1x * p1x + Q2 + 2 * E1 * E1 * (y - 1)) / (2 * p1x) in
    let msq := m1 * m1 + p1x * p1x + Q2 + E1 * E1 * (y * y - 1) in
    if Rlt_dec msq 0 then None
    else
      let momq := sqrt msq in
      let ysq := momq * momq - pqx * pqx in
      if Rlt_dec ysq 0 then None
      else
        let pq := turn o (du_p d) u (mkp4 (E1 * y) (mkv pqx (sqrt ysq) 0) (- (1))) in
        Some (p4_of (pp (p4_sub (du_primary d) pq)) m3, p4_add (du_target d) pq).

(** DummyCrossSection.cxx:146, 158-163: the particle types that occur, others by a number. *)
Inductive ptype := Nucleon | NuE | NuEBar | NuMu | NuMuBar | NuTau | NuTauBar | OtherType (n : nat).
(** DummyCrossSection.cxx:187: comparison of types. *)
Definition ptype_eq (a b : ptype) : {a = b} + {a <> b}.
Proof. repeat decide equality. Defined.
(** DummyCrossSection.cxx:169, [InteractionSignature]. *)
Record dsignature := mkdsig { dg_primary : ptype; dg_target : ptype; dg_secondaries : list ptype }.
(** DummyCrossSection.cxx:144-148, [GetPossibleTargets]. *)
Definition dummy_targets : list ptype := [Nucleon].
(** DummyCrossSection.cxx:156-165, [GetPossiblePrimaries]. *)
Definition dummy_primaries : list ptype := [NuE; NuEBar; NuMu; NuMuBar; NuTau; NuTauBar].
(** DummyCrossSection.cxx:167-181, [GetPossibleSignatures]. *)
Definition dummy_signatures : list dsignature := flat_map (fun t => map (fun p => mkdsig p t [p; t]) dummy_primaries) dummy_targets.
(** DummyCrossSection.cxx:183-191, [GetPossibleSignaturesFromParents]; the type of the target is not read. *)
Definition dummy_from_parents (p t : ptype) : list dsignature := filter (fun s => if ptype_eq (dg_primary s) p then true else false) dummy_signatures.
(** DummyCrossSection.cxx:150-154, [GetPossibleTargetsFromPrimary]; the primary is not read. *)
Definition dummy_targets_from (p : ptype) : list ptype := [Nucleon].
