(** Model of charm production in deep inelastic scattering.
    Sources: projects/interactions/private/QuarkDISFromSpline.cxx, projects/interactions/public/SIREN/interactions/CharmCrossSectionHelpers.h and
    projects/utilities/public/SIREN/utilities/Constants.h. Doubles are real numbers; an InjectionFailure is [None]. *)
From Coq Require Import Reals List Bool.
From Verif Require Import VectorModel RkModel RandomModel TurnModel.
Import ListNotations.
Open Scope R_scope.

(** Constants.h:83, [charmMass]. *)
Definition charm_mass : R := 128 / 100.
(** Constants.h:73, [D0Mass]. *)
Definition d0_mass : R := 186484 / 10 ^ 5.

(** QuarkDISFromSpline.cxx:37-39, [slowRescalingQ2]. *)
Definition slow_q2 (xi y E M mc : R) : R := 2 * M * E * y * xi - mc * mc.
(** QuarkDISFromSpline.cxx:40-42, [xiToBjorkenX]. *)
Definition xi_to_x (xi y E M mc : R) : R := xi - (mc * mc) / (2 * M * E * y).
(** QuarkDISFromSpline.cxx:43-46, [slowRescalingW2]. *)
Definition slow_w2 (xi y E M mc : R) : R := M * M + 2 * M * E * y * (1 - xi) + mc * mc.

(** QuarkDISFromSpline.cxx:54-82, [kinematicallyAllowed]. *)
Definition charm_allowed (xi y E M m_lep : R) : bool :=
  if Rlt_dec xi (/ 10 ^ 9) then false else if Rlt_dec 1 xi then false
  else if Rlt_dec y (/ 10 ^ 9) then false else if Rlt_dec (1 - m_lep / E) y then false
  else
    let Q2 := slow_q2 xi y E M charm_mass in
    if Rle_dec Q2 0 then false
    else if Rle_dec (slow_w2 xi y E M charm_mass) ((M + d0_mass) * (M + d0_mass)) then false
    else
      let P1 := E in
      let pqx := (m_lep * m_lep + 2 * P1 * P1 + Q2 + 2 * E * E * (y - 1)) / (2 * P1) in
      let momq2 := P1 * P1 + Q2 + E * E * (y * y - 1) in
      if Rlt_dec (momq2 - pqx * pqx) 0 then false else true.

(** QuarkDISFromSpline.cxx:571-591, [p1], [m1], [m3], [target_mass_]; [ch_d] the mass of the meson, line 810. *)
Record charm := mkcharm { ch_p : vec; ch_m1 : R; ch_m3 : R; ch_target : R; ch_d : R }.
(** QuarkDISFromSpline.cxx:571, [p1_lab]. *)
Definition ch_primary (c : charm) : p4 := p4_of (ch_p c) (ch_m1 c).

(** QuarkDISFromSpline.cxx:750-786: the exchanged momentum [pq_lab] for the drawn [xi], [y] and azimuth. *)
Definition exchanged (o : abs_overload) (c : charm) (xi y u : R) : option p4 :=
  let m1 := ch_m1 c in let m3 := ch_m3 c in let E1 := pe (ch_primary c) in
  let Q2 := slow_q2 xi y E1 (ch_target c) charm_mass in
  let p1x := sqrt (vx (ch_p c) * vx (ch_p c) + vy (ch_p c) * vy (ch_p c) + vz (ch_p c) * vz (ch_p c)) in
  let pqx := (m3 * m3 - m1 * m1 + Q2 + 2 * E1 * E1 * y) / (2 * p1x) in
  let momq2 := Q2 + E1 * E1 * y * y in
  let pqy2 := momq2 - pqx * pqx in
  let result := fun s => Some (turn o (ch_p c) u (mkp4 (E1 * y) (mkv pqx (sqrt s) 0) (- (1)))) in
  if Rlt_dec pqy2 0 then (if Rlt_dec (- (/ 10 ^ 9) * Rmax momq2 1) pqy2 then result 0 else None) else result pqy2.

(** QuarkDISFromSpline.cxx:788, [p3_lab]. *)
Definition ch_lepton (c : charm) (q : p4) : p4 := p4_of (pp (p4_sub (ch_primary c) q)) (ch_m3 c).
(** QuarkDISFromSpline.cxx:800-801, [p4_lab]: the struck charm. *)
Definition struck (c : charm) (xi : R) (q : p4) : p4 := p4_add (p4_of (mkv 0 0 0) (xi * ch_target c)) q.
(** QuarkDISFromSpline.cxx:802, [p_spectator]. *)
Definition spectator (c : charm) (xi : R) : p4 := mkp4 ((1 - xi) * ch_target c) (mkv 0 0 0) (- (1)).

(** QuarkDISFromSpline.cxx:823-826: meson and remnant for the share [z] of the momentum. *)
Definition fragment (c : charm) (xi : R) (q : p4) (z : R) : p4 * p4 :=
  let p4_lab := struck c xi q in
  let mag := sqrt (vx (pp p4_lab) * vx (pp p4_lab) + vy (pp p4_lab) * vy (pp p4_lab) + vz (pp p4_lab) * vz (pp p4_lab)) in
  let p4CH := p4_of (vscale (z * mag) (direction (pp p4_lab))) (ch_d c) in
  (p4CH, p4_sub (p4_add (spectator c xi) p4_lab) p4CH).

(** QuarkDISFromSpline.cxx:815-827: the loop, for the shares drawn one after another; at most 500 of them. *)
Fixpoint hadronize (c : charm) (xi : R) (q : p4) (zs : list R) : option (p4 * p4) :=
  match zs with
  | [] => None
  | z :: rest => let (ch, x) := fragment c xi q z in if Rlt_dec (p4_dot x x) 0 then hadronize c xi q rest else Some (ch, x)
  end.

(** QuarkDISFromSpline.cxx:740-849, [SampleFinalState] after the chain: lepton, remnant and meson. The energies and masses put into the record are those of the momenta. *)
Definition charm_final (o : abs_overload) (c : charm) (xi y u : R) (zs : list R) : option (p4 * p4 * p4) :=
  match exchanged o c xi y u with
  | None => None
  | Some q =>
      if Rle_dec 1 xi then None
      else match hadronize c xi q (firstn 500 zs) with None => None | Some (ch, x) => Some (ch_lepton c q, x, ch) end
  end.

(** QuarkDISFromSpline.cxx:463-464, 477, 481, 484, 488: [Q2] and [y] of a record with the lepton [p3]; [M'] is the mass of the target in the record. *)
Definition record_q2 (p1 p3 : p4) : R := let q := p4_sub p1 p3 in - p4_dot q q.
(** QuarkDISFromSpline.cxx:488, [y]. *)
Definition record_y (M' : R) (p1 p3 : p4) : R := let p2 := p4_of (mkv 0 0 0) M' in 1 - p4_dot p2 p3 / p4_dot p2 p1.
(** QuarkDISFromSpline.cxx:489-492, [xi]; [E] is the energy in the record, [M] is [target_mass_]. *)
Definition record_xi (E M M' : R) (p1 p3 : p4) : R :=
  let y := record_y M' p1 p3 in if Rlt_dec 0 y then (record_q2 p1 p3 + charm_mass * charm_mass) / (2 * E * M * y) else 0.

(** CharmCrossSectionHelpers.h:33-42: the three kinds of mesons. *)
Inductive meson := MesonD0 | MesonDplus | MesonDs | NoMeson.
(** CharmCrossSectionHelpers.h:33-42, [FragmentationFraction]. *)
Definition fraction (m : meson) : R :=
  match m with MesonD0 => (6 / 10) / (98 / 100) | MesonDplus => (23 / 100) / (98 / 100) | MesonDs => (15 / 100) / (98 / 100) | NoMeson => 0 end.
(** QuarkDISFromSpline.cxx:419-438, [TotalCrossSection] of a record with one meson; [xs] is what the spline gives. *)
Definition record_total (xs : R) (m : meson) : R := xs * fraction m.
(** QuarkDISFromSpline.cxx:859-869, [FinalStateProbability]; [dxs] is the differential cross section of the record, lines 462-552, which does not depend on the meson. *)
Definition charm_probability (dxs xs : R) (m : meson) : R := if Req_EM_T dxs 0 then 0 else dxs / record_total xs m.

(** QuarkDISFromSpline.cxx:366-370, [zspline[i]]. *)
Definition z_node (i : nat) : R := 1 / 100 + INR i * (99 / 100 - 1 / 100) / 100.
(** QuarkDISFromSpline.cxx:379, 387, 395: [pdf_vector[j]] once it has been set; a zero comes first. *)
Definition pdf_vector (pdf : R -> R) (j : nat) : R := match j with O => 0 | S k => pdf (z_node k) end.
(** QuarkDISFromSpline.cxx:377, 389, 396: [cdf_z_nodes[j]], below the last. *)
Definition cdf_z (j : nat) : R := match j with O => 0 | S k => z_node k end.
(** QuarkDISFromSpline.cxx:378, 382-398: [cdf_vector[j]], below the last; [pdf] is [sample_pdf]. The vectors are functions of the index. *)
Fixpoint cdf_vector (pdf : R -> R) (j : nat) : R :=
  match j with
  | O => 0
  | S O => z_node 0 * pdf (z_node 0) * (5 / 10)
  | S ((S k) as i) => 5 / 10 * (pdf_vector pdf (i - 1) + pdf (z_node i)) * (z_node i - z_node (i - 1)) + cdf_vector pdf i
  end.
(** QuarkDISFromSpline.cxx:415-417, [sample_pdf]; [n] is [fragmentation_integral]. *)
Definition sample_pdf (n x : R) : R := (8 / 10 / x) / ((1 - 1 / x - (2 / 10) / (1 - x)) ^ 2) / n.
