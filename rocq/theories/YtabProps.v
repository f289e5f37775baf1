(** Properties C171 to C173: tabulated dipole upscattering. *)
From Coq Require Import Reals Lra Psatz.
From Verif Require Import YtabModel YtabSpec YtabProofs.
Open Scope R_scope.

(** ** C171: the range of the inelasticity *)

(** C171: all of the range between the two bounds is allowed by the kinematics. *)
Theorem C171_sound E m M y : 0 < E -> 0 < m -> 0 < M -> threshold m M <= E -> y_min E m M <= y <= y_max E m M -> allowed E m M y.
Proof. intros H1 H2 H3 H4 H5. apply allowed_roots; auto. now apply inside_roots. Qed.
Print Assumptions C171_sound.

(** C171: and all that is allowed is between the bounds, when the mass is not too small for the energy and twice the squared energy is at least one. *)
Theorem C171_range E m M y : 0 < E -> 0 < m -> 0 < M -> threshold m M <= E -> 1 <= 2 * (2 * E * M + M * M) -> 1 / 10 ^ 6 <= m * m / (2 * E * M + M * M) ->
  (y_min E m M <= y <= y_max E m M <-> allowed E m M y).
Proof. intros H1 H2 H3 H4 H5 H6. rewrite min_low, max_high by auto. symmetry. now apply allowed_roots. Qed.
Print Assumptions C171_range.

Lemma light_range y : allowed (21 / 80) (1 / 10) (1 / 10) y <-> 1 / 105 <= y <= 64 / 105.
Proof.
  rewrite allowed_roots by (unfold threshold; lra).
  assert (W : sqrt (root_term (21 / 80) (1 / 10) (1 / 10)) = 3 / 80) by (apply sqrt_lem_1; unfold root_term; lra).
  unfold low, high, square_s. rewrite W. replace (1 / (2 * (2 * (21 / 80) * (1 / 10) + 1 / 10 * (1 / 10))) * (2 * (21 / 80) * (1 / 10) - 1 / 10 * (1 / 10) - 1 / 10 * (1 / 10 * (1 / 10)) / (21 / 80) - 3 / 80)) with (1 / 105) by field.
  replace (1 / (2 * (2 * (21 / 80) * (1 / 10) + 1 / 10 * (1 / 10))) * (2 * (21 / 80) * (1 / 10) - 1 / 10 * (1 / 10) - 1 / 10 * (1 / 10 * (1 / 10)) / (21 / 80) + 3 / 80)) with (64 / 105) by field. tauto.
Qed.

(** Finding (C171): one term of the upper bound lacks its division by twice the squared energy; for light targets the upper part of the allowed range is cut off. *)
Theorem C171_light_refuted : exists E m M y, 0 < m /\ 0 < M /\ threshold m M <= E /\ allowed E m M y /\ y_max E m M < y.
Proof.
  exists (21 / 80), (1 / 10), (1 / 10), (1 / 2). split; [lra|]. split; [lra|]. split; [unfold threshold; lra|]. split; [apply light_range; lra|].
  unfold y_max. eapply Rle_lt_trans; [apply Rmin_l|]. unfold square_s.
  assert (W : sqrt (root_term (21 / 80) (1 / 10) (1 / 10)) = 3 / 80) by (apply sqrt_lem_1; unfold root_term; lra). rewrite W.
  replace (1 / (2 * (2 * (21 / 80) * (1 / 10) + 1 / 10 * (1 / 10))) * (2 * (21 / 80) * (1 / 10) - 1 / 10 * (1 / 10) - 1 / 10 * (1 / 10 * (1 / 10)) / (21 / 80))) with (13 / 42) by field. lra.
Qed.
Print Assumptions C171_light_refuted.

Lemma heavy_allowed : allowed (21 / 80) (1 / 10) 1 (1 / 105).
Proof. exists (24 / 100), (27 / 28). repeat split; lra. Qed.

(** A target of mass one. *)
Example C171_case : threshold (1 / 10) 1 <= 21 / 80 /\ 1 <= 2 * (2 * (21 / 80) * 1 + 1 * 1) /\ 1 / 10 ^ 6 <= 1 / 10 * (1 / 10) / (2 * (21 / 80) * 1 + 1 * 1) /\
  y_min (21 / 80) (1 / 10) 1 <= 1 / 105 <= y_max (21 / 80) (1 / 10) 1.
Proof.
  assert (A : threshold (1 / 10) 1 <= 21 / 80) by (unfold threshold; lra). split; [exact A|]. split; [lra|]. split; [lra|].
  apply C171_range; try lra. apply heavy_allowed.
Qed.

(** ** C172: the final state *)

(** C172: for an allowed inelasticity lepton and recoil have their energies and are on their mass shells. *)
Theorem C172_final E m M y : 0 < E -> 0 < m -> 0 < M -> threshold m M <= E -> allowed E m M y ->
  let l := lepton E m M y in let r := recoil E m M y in
  f_e l = E * (1 - y) /\ f_e l * f_e l - f_x l * f_x l - f_y l * f_y l = m * m /\
  f_e r = M + E * y /\ f_e r * f_e r - f_x r * f_x r - f_y r * f_y r = M * M /\
  f_e l + f_e r = E + M /\ f_x l + f_x r = E /\ f_y l + f_y r = 0.
Proof.
  intros H1 H2 H3 H4 A l r. apply allowed_roots in A; auto. destruct (lepton_allowed E m M H1 H2 H3 H4 y A) as (X & Y & Z). fold l in X, Y, Z.
  unfold r, recoil. fold l. cbn [f_e f_x f_y]. rewrite X. split; [auto|]. split; [lra|]. split; [ring|]. split.
  - replace ((0 + (E - f_x l)) * (0 + (E - f_x l))) with (E * E - 2 * E * f_x l + f_x l * f_x l) by ring.
    replace ((0 + (0 - f_y l)) * (0 + (0 - f_y l))) with (f_y l * f_y l) by ring.
    replace (2 * E * f_x l) with (2 * E * (E * (1 - y)) - 2 * E * M * y - m * m) by (rewrite Z; field; lra). nra.
  - split; [ring|]. split; ring.
Qed.
Print Assumptions C172_final.

(** Finding (C172): the small number added to the inelasticity takes the upper end of the range out of it, and the transverse momentum is then the root of a negative number. *)
Theorem C172_edge_refuted : exists E m M y, allowed E m M y /\ let z := final_y y in ~ allowed E m M z /\
  (E * (1 - z)) * (E * (1 - z)) - m * m - (E * (1 - z) - M * z - m * m / (2 * E)) * (E * (1 - z) - M * z - m * m / (2 * E)) < 0.
Proof.
  exists (21 / 80), (1 / 10), (1 / 10), (64 / 105). cbv zeta. unfold final_y. rewrite !light_range. repeat split; try lra.
Qed.
Print Assumptions C172_edge_refuted.

(** The lepton and the recoil of a target of mass one. *)
Example C172_case : allowed (21 / 80) (1 / 10) 1 (1 / 105) /\ f_e (lepton (21 / 80) (1 / 10) 1 (1 / 105)) = 26 / 100.
Proof.
  split; [apply heavy_allowed|]. destruct (C172_final (21 / 80) (1 / 10) 1 (1 / 105)) as (X & _); try lra; [unfold threshold; lra|apply heavy_allowed].
Qed.

(** ** C173: the differential cross section *)

(** C173: for a given mass of the target the density is the table at the inelasticity, or at its place in the range, and zero for inelasticities that are not allowed. *)
Theorem C173_table c E M y thresh : 0 < E -> 0 < ct_hnl c -> 0 < M -> threshold (ct_hnl c) M <= E ->
  let lo := y_min E (ct_hnl c) M in let hi := y_max E (ct_hnl c) M in
  let v := if ct_z c then (y - lo) / (hi - lo) else y in
  (thresh <= E <= tb_max_x (ct_table c) -> lo <= y <= hi -> tb_min_y (ct_table c) <= v <= tb_max_y (ct_table c) ->
   differential c E M y thresh = ct_coupling c ^ 2 * ((tb_value (ct_table c) E v + ct_protons c * ct_proton c E v) * ct_factor c)) /\
  (differential c E M y thresh <> 0 -> allowed E (ct_hnl c) M y).
Proof.
  intros H1 H2 H3 H4 lo hi v. unfold differential. fold lo hi. fold v. split.
  - intros [A1 A2] [B1 B2] [C1 C2]. repeat match goal with |- context [if Rlt_dec ?a ?b then _ else _] => destruct (Rlt_dec a b); [exfalso; lra|] end. reflexivity.
  - destruct (Rlt_dec E thresh); [intros X; now elim X|]. destruct (Rlt_dec (tb_max_x (ct_table c)) E); [intros X; now elim X|].
    destruct (Rlt_dec y lo); [intros X; now elim X|]. destruct (Rlt_dec hi y); [intros X; now elim X|]. intros _. apply C171_sound; auto. fold lo hi. lra.
Qed.
Print Assumptions C173_table.

(** A table with the value one everywhere. *)
Definition ones : cross := mkcross (1 / 10) 1 false (mktable 1 0 1 (fun _ _ => 1)) (fun _ _ => 0) 0 1.

(** Finding (C173): the density of an interaction takes the mass of the primary for that of the target; for a massless primary it divides zero by zero. *)
Theorem C173_massless_refuted : exists c i, it_primary_mass i = 0 /\ it_e1 i = it_energy i /\ it_e3 i = it_energy i * (1 - 1 / 105) /\
  differential c (it_energy i) (it_target_mass i) (1 / 105) (threshold (ct_hnl c) (it_target_mass i)) = 1 /\ differential_of c i = None.
Proof.
  exists ones, (mkint 0 1 (21 / 80) (21 / 80) (26 / 100)). cbn [it_primary_mass it_e1 it_e3 it_energy it_target_mass]. split; [auto|]. split; [auto|]. split; [lra|]. split.
  - destruct (C173_table ones (21 / 80) 1 (1 / 105) (threshold (1 / 10) 1)) as [T _]; cbn [ones ct_hnl]; try lra; [unfold threshold; lra|]. cbn [ones ct_hnl] in *. rewrite T.
    + cbn. ring.
    + cbn. unfold threshold. lra.
    + apply C171_case.
    + cbn. lra.
  - unfold differential_of, inelasticity. cbn [it_primary_mass it_e1]. destruct (Req_EM_T (0 * (21 / 80)) 0) as [_|X]; auto. exfalso. apply X. ring.
Qed.
Print Assumptions C173_massless_refuted.

(** Finding (C173): for a massive one it is zero at inelasticities that the target allows. *)
Theorem C173_target_refuted : exists c i, 0 < it_primary_mass i /\ it_e1 i = it_energy i /\ it_e3 i = it_energy i * (1 - 1 / 105) /\
  differential c (it_energy i) (it_target_mass i) (1 / 105) (threshold (ct_hnl c) (it_target_mass i)) = 1 /\ differential_of c i = Some 0.
Proof.
  exists ones, (mkint (1 / 20) 1 (21 / 80) (21 / 80) (26 / 100)). cbn [it_primary_mass it_e1 it_e3 it_energy it_target_mass]. split; [lra|]. split; [auto|]. split; [lra|]. split.
  - destruct (C173_table ones (21 / 80) 1 (1 / 105) (threshold (1 / 10) 1)) as [T _]; cbn [ones ct_hnl]; try lra; [unfold threshold; lra|]. cbn [ones ct_hnl] in *. rewrite T.
    + cbn. ring.
    + cbn. unfold threshold. lra.
    + apply C171_case.
    + cbn. lra.
  - unfold differential_of, inelasticity. cbn [it_primary_mass it_e1 it_e3 it_energy it_target_mass]. destruct (Req_EM_T (1 / 20 * (21 / 80)) 0) as [X|_]; [exfalso; lra|]. f_equal.
    replace (1 - 1 / 20 * (26 / 100) / (1 / 20 * (21 / 80))) with (1 / 105) by field. unfold differential. cbn [ones ct_hnl ct_table tb_max_x].
    destruct (Rlt_dec (21 / 80) (threshold (1 / 10) 1)); [reflexivity|]. destruct (Rlt_dec 1 (21 / 80)); [reflexivity|].
    destruct (Rlt_dec (1 / 105) (y_min (21 / 80) (1 / 10) (1 / 20))) as [_|X]; [reflexivity|]. exfalso. apply X.
    rewrite min_bound by (unfold threshold; lra). eapply Rlt_le_trans; [|apply Rmax_r].
    assert (W : sqrt (root_term (21 / 80) (1 / 10) (1 / 20)) <= 129 / 10000). { rewrite <- (sqrt_square (129 / 10000)) by lra. apply sqrt_le_1_alt. unfold root_term. lra. }
    unfold low, square_s. replace (1 / (2 * (2 * (21 / 80) * (1 / 20) + 1 / 20 * (1 / 20)))) with (400 / 23) by field. lra.
Qed.
Print Assumptions C173_target_refuted.

(** The density of the table of ones at an allowed inelasticity. *)
Example C173_case : differential ones (21 / 80) 1 (1 / 105) (threshold (1 / 10) 1) <> 0 /\ allowed (21 / 80) (1 / 10) 1 (1 / 105).
Proof.
  split; [|apply heavy_allowed]. destruct (C173_table ones (21 / 80) 1 (1 / 105) (threshold (1 / 10) 1)) as [T _]; cbn [ones ct_hnl]; try lra; [unfold threshold; lra|]. cbn [ones ct_hnl] in *. rewrite T.
  - cbn. lra.
  - cbn. unfold threshold. lra.
  - apply C171_case.
  - cbn. lra.
Qed.
