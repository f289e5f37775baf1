(** Property theorems about the material registry (C38-C41, C70, C71). *)
From Coq Require Import String Ascii List Bool ZArith Reals Lia Lra.
From Verif Require Import TraversalModel MaterialModel MaterialProofs MaterialFile.
Import ListNotations.
Open Scope R_scope.
Open Scope string_scope.
Open Scope list_scope.

(** ** Concrete data for the examples: neutron, hydrogen, oxygen 16 *)
Definition ex_table (k : Z * Z * Z * Z) : option R :=
  match k with
  | (0, 1, 0, 1)%Z => Some 1
  | (0, 0, 1, 1)%Z => Some 1
  | (0, 8, 8, 16)%Z => Some 16
  | _ => None
  end.
Definition H1 : Z := 1000010010.
Definition O16 : Z := 1000080160.
Definition ex_def := defined ex_table (fun _ => 1) 1 1 (fun _ _ => 1).
Definition ex_mk := make_component ex_table (fun _ => 1) 1.

Lemma ex_table_ok : table_ok ex_table.
Proof. split; discriminate. Qed.

Lemma mk_H1 : ex_mk H1 = Ok (mkcomp H1 0 0 1 1 1 true).
Proof. reflexivity. Qed.
Lemma mk_O16 : ex_mk O16 = Ok (mkcomp O16 0 8 16 8 16 true).
Proof. reflexivity. Qed.

(** C38: names are in order of first definition; ids and names are inverse to each
    other; known ids are 0..n-1. *)
Theorem C38_names_and_ids : forall am em av el x0 l,
  let s := defined am em av el x0 l in
  m_names s = firsts (map fst l) /\
  (forall n i, material_id s n = Ok i <-> material_name s i = Ok n) /\
  (forall n, has_name s n = true <-> In n (map fst l)) /\
  (forall i, has_id s i = true <-> exists n, material_name s i = Ok n) /\
  (forall n i, material_name s i = Ok n -> (0 <= i < Z.of_nat (List.length (m_names s)))%Z).
Proof. exact names_dense. Qed.
Print Assumptions C38_names_and_ids.

(** C38: a later definition, of any name, keeps every id. *)
Theorem C38_ids_stay : forall am em av el x0 l d n i,
  material_id (defined am em av el x0 l) n = Ok i -> material_id (defined am em av el x0 (l ++ [d])) n = Ok i.
Proof. exact redefinition_keeps_id. Qed.
Print Assumptions C38_ids_stay.

(** The names listed are the distinct names in order of first occurrence. *)
Theorem C38_firsts : forall l, NoDup (firsts l) /\ (forall n, In n (firsts l) <-> In n l).
Proof. intros l. split; [apply firsts_nodup|]. intros n. exact (firsts_in ex_table (fun _ => 1) l n). Qed.
Print Assumptions C38_firsts.

Example C38_case : m_names (ex_def [("ICE", [(H1, 1)]); ("ROCK", []); ("ICE", []); ("AIR", [(O16, 1)])]) = ["ICE"; "ROCK"; "AIR"].
Proof. unfold ex_def. rewrite (proj1 (C38_names_and_ids _ _ _ _ _ _)). reflexivity. Qed.

(** C39: the target list is always that of the latest definition. *)
Theorem C39_targets : forall am em av el x0 l n f i, table_ok am -> last_definition l n = Some f ->
  material_id (defined am em av el x0 l) n = Ok (Z.of_nat i) ->
  exists cs, all_components am em av el f = Ok cs /\ nth_error (m_components (defined am em av el x0 l)) i = Some cs /\
    material_targets (defined am em av el x0 l) (Z.of_nat i) = Ok (map (fun c => c_type (mc_component c)) cs).
Proof. exact latest_components. Qed.
Print Assumptions C39_targets.

(** C39: so is the radiation length. *)
Theorem C39_radiation_length : forall am em av el x0 l n f i, table_ok am -> last_definition l n = Some f ->
  material_id (defined am em av el x0 l) n = Ok (Z.of_nat i) ->
  exists cs, all_components am em av el f = Ok cs /\ nth_error (m_radiation (defined am em av el x0 l)) i = Some (radiation_length x0 cs).
Proof. exact latest_radiation. Qed.
Print Assumptions C39_radiation_length.

(** C39: the fractions are those of the definition when the name was defined once
    (missing: names defined several times, refuted below). *)
Theorem C39_fractions_partial : forall am em av el x0 l n f i t, table_ok am -> last_definition l n = Some f -> times l n = 1%nat ->
  material_id (defined am em av el x0 l) n = Ok (Z.of_nat i) ->
  exists cs, all_components am em av el f = Ok cs /\
    mass_fraction (defined am em av el x0 l) i t = (match first_of cs t with Some c => mc_mass c | None => 0 end) /\
    particle_fraction (defined am em av el x0 l) i t = (match first_of cs t with Some c => mc_particles c | None => 0 end).
Proof. exact defined_once. Qed.
Print Assumptions C39_fractions_partial.

(** C39: what a redefinition does: targets it lists are updated, others keep their old
    fraction. *)
Theorem C39_redefinition_partial : forall am em av el x0 l n f i t, table_ok am -> material_id (defined am em av el x0 l) n = Ok (Z.of_nat i) ->
  exists cs, all_components am em av el f = Ok cs /\
    mass_fraction (defined am em av el x0 (l ++ [(n, f)])) i t
    = match last_of cs t with Some c => mc_mass c | None => mass_fraction (defined am em av el x0 l) i t end.
Proof. exact redefined. Qed.
Print Assumptions C39_redefinition_partial.

Example C39_case :
  let l := [("ROCK", []); ("ICE", [(O16, 1)])] in
  table_ok ex_table /\ last_definition l "ICE" = Some [(O16, 1)] /\ times l "ICE" = 1%nat /\
  material_id (ex_def l) "ICE" = Ok (Z.of_nat 1).
Proof.
  cbv zeta. split; [exact ex_table_ok|]. split; [reflexivity|]. split; [reflexivity|].
  apply (proj1 (proj2 (C38_names_and_ids _ _ _ _ _ _))). unfold material_name, ex_def.
  rewrite (proj1 (C38_names_and_ids _ _ _ _ _ _)). reflexivity.
Qed.

Lemma ex_id l n i : nth_error (firsts (map fst l)) i = Some n -> material_id (ex_def l) n = Ok (Z.of_nat i).
Proof.
  intros H. apply (proj1 (proj2 (C38_names_and_ids _ _ _ _ _ _))). unfold material_name, ex_def.
  rewrite (proj1 (C38_names_and_ids _ _ _ _ _ _)). destruct (Z.ltb_spec (Z.of_nat i) 0); [lia|]. rewrite Nat2Z.id, H. auto.
Qed.

Notation ex_comps := (all_components ex_table (fun _ => 1) 1 1).

Lemma ex_comps_O16 : exists dn da dp de, ex_comps [(O16, 1)] =
  Ok [mkmc (mkcomp O16 0 8 16 8 16 true) 1 (1 * 1 / 16); dn; da; dp; de] /\
  c_type (mc_component dn) = Neutron /\ c_type (mc_component da) = Nucleon /\ c_type (mc_component dp) = PPlus /\ c_type (mc_component de) = EMinus.
Proof.
  unfold all_components, given_components. fold ex_mk. rewrite mk_O16. cbn [c_molar c_neutrons c_nucleons c_protons].
  unfold append_derived. repeat (destruct (Rlt_dec _ _); [|exfalso; lra]). cbn.
  do 4 eexists. split; [reflexivity|]. repeat split.
Qed.

Lemma ex_comps_H1 : exists da dp de, ex_comps [(H1, 1)] =
  Ok [mkmc (mkcomp H1 0 0 1 1 1 true) 1 (1 * 1 / 1); da; dp; de] /\
  c_type (mc_component da) = Nucleon /\ c_type (mc_component dp) = PPlus /\ c_type (mc_component de) = EMinus.
Proof.
  unfold all_components, given_components. fold ex_mk. rewrite mk_H1. cbn [c_molar c_neutrons c_nucleons c_protons].
  unfold append_derived. destruct (Rlt_dec 0 (1 / 1 * 0 + 0)); [exfalso; lra|].
  repeat (destruct (Rlt_dec _ _); [|exfalso; lra]). cbn.
  do 3 eexists. split; [reflexivity|]. repeat split.
Qed.

(** C39 fails: after "A" is redefined from pure oxygen to pure hydrogen, its oxygen
    fraction is still one although oxygen is no longer one of its targets. *)
Theorem C39_stale_component_refuted :
  exists l cs, last_definition l "A" = Some [(H1, 1)] /\ material_id (ex_def l) "A" = Ok 0%Z /\
    ex_comps [(H1, 1)] = Ok cs /\ first_of cs O16 = None /\ mass_fraction (ex_def l) 0 O16 = 1.
Proof.
  destruct ex_comps_H1 as [da [dp [de [E [T1 [T2 T3]]]]]]. eexists ([("A", [(O16, 1)])] ++ [("A", [(H1, 1)])]), _.
  split; [reflexivity|]. split; [apply (ex_id _ "A" 0); reflexivity|]. split; [exact E|].
  assert (FO : forall l, map (fun c => c_type (mc_component c)) l = [H1; Nucleon; PPlus; EMinus] \/ map (fun c => c_type (mc_component c)) l = [EMinus; PPlus; Nucleon; H1] -> first_of l O16 = None).
  { intros l H. destruct (first_of l O16) eqn:F; auto. apply first_of_in in F. destruct F as [I TY].
    apply (in_map (fun c => c_type (mc_component c))) in I. rewrite TY in I.
    destruct H as [H|H]; rewrite H in I; cbn in I; exfalso; repeat (destruct I as [I|I]; [discriminate|]); auto. }
  split.
  - apply FO. left. cbn. rewrite T1, T2, T3. reflexivity.
  - destruct (C39_redefinition_partial ex_table (fun _ => 1) 1 1 (fun _ _ => 1) [("A", [(O16, 1)])] "A" [(H1, 1)] 0 O16 ex_table_ok) as [cs [C M]].
    { apply (ex_id [("A", [(O16, 1)])] "A" 0). reflexivity. }
    unfold ex_def. rewrite M. rewrite C in E. injection E as ->.
    assert (LO : last_of [mkmc (mkcomp H1 0 0 1 1 1 true) 1 (1 * 1 / 1); da; dp; de] O16 = None).
    { unfold last_of. apply FO. right. cbn. rewrite T1, T2, T3. reflexivity. }
    rewrite LO. destruct (C39_fractions_partial ex_table (fun _ => 1) 1 1 (fun _ _ => 1) [("A", [(O16, 1)])] "A" [(O16, 1)] 0 O16 ex_table_ok eq_refl eq_refl) as [cs2 [C2 [M2 _]]].
    { apply (ex_id [("A", [(O16, 1)])] "A" 0). reflexivity. }
    rewrite M2. destruct ex_comps_O16 as [dn [da' [dp' [de' [E2 _]]]]]. rewrite C2 in E2. injection E2 as ->. reflexivity.
Qed.
Print Assumptions C39_stale_component_refuted.

Definition mix : list (Z * R) := [(PPlus, / 2); (O16, / 2)].

Lemma ex_comps_mix : exists a b dn da de, ex_comps mix =
  Ok [mkmc a (/ 2) (1 * / 2 / 1); mkmc b (/ 2) (1 * / 2 / 16); dn; da; mkmc a (3 / 4) (3 / 4 * 1); de] /\
  c_type a = PPlus /\ c_type b = O16 /\ c_type (mc_component dn) = Neutron /\ c_type (mc_component da) = Nucleon /\ c_type (mc_component de) = EMinus.
Proof.
  unfold all_components, given_components, mix. fold ex_mk. rewrite mk_O16.
  assert (P : ex_mk PPlus = Ok (mkcomp PPlus 0 0 1 1 1 false)) by reflexivity. rewrite P.
  cbn [c_molar c_neutrons c_nucleons c_protons].
  replace (/ 2 / 1 * 1 + (/ 2 / 16 * 8 + 0)) with (3 / 4) by lra.
  unfold append_derived. repeat (destruct (Rlt_dec _ _); [|exfalso; lra]). cbn.
  replace (3 / 4 * 1) with (3 / 4) by lra.
  do 5 eexists. split; [reflexivity|]. repeat split.
Qed.

(** C39 fails: repeating the same definition changes the fractions, if it lists
    protons explicitly. *)
Theorem C39_repeated_definition_refuted :
  mass_fraction (ex_def [("A", mix)]) 0 PPlus = / 2 /\ mass_fraction (ex_def [("A", mix); ("A", mix)]) 0 PPlus = 3 / 4.
Proof.
  destruct ex_comps_mix as [a [b [dn [da [de [E [T1 [T2 [T3 [T4 T5]]]]]]]]]]. split.
  - destruct (C39_fractions_partial ex_table (fun _ => 1) 1 1 (fun _ _ => 1) [("A", mix)] "A" mix 0 PPlus ex_table_ok eq_refl eq_refl) as [cs [C [M _]]].
    { apply (ex_id [("A", mix)] "A" 0). reflexivity. }
    unfold ex_def. rewrite M. rewrite C in E. injection E as ->. unfold first_of. cbn [find mc_component]. rewrite T1. reflexivity.
  - destruct (C39_redefinition_partial ex_table (fun _ => 1) 1 1 (fun _ _ => 1) [("A", mix)] "A" mix 0 PPlus ex_table_ok) as [cs [C M]].
    { apply (ex_id [("A", mix)] "A" 0). reflexivity. }
    cbn [app] in M. unfold ex_def. rewrite M. rewrite C in E. injection E as ->.
    unfold last_of, first_of. cbn [rev app find mc_component]. rewrite T5, T1. reflexivity.
Qed.
Print Assumptions C39_repeated_definition_refuted.

(** C40: the components of a definition are the given ones with their fractions,
    followed by neutrons, nucleons, protons and electrons whose numbers per gram are
    the sums of f_i N_i / M_i, f_i A_i / M_i, f_i Z_i / M_i (each left out if not
    positive). *)
Theorem C40_derived : forall am em av el l, table_ok am -> exists cs dn da dp,
  all_components am em av el l = Ok (cs ++ dn ++ da ++ dp) /\
  Forall2 (fun c p => make_component am em el (fst p) = Ok (mc_component c) /\ mc_mass c = snd p /\
             mc_particles c = av * snd p / c_molar (mc_component c)) cs l /\
  (if Rlt_dec 0 (per_gram am em el c_neutrons l)
   then exists c, dn = [c] /\ is_derived am em av el Neutron (per_gram am em el c_neutrons l) c else dn = []) /\
  (if Rlt_dec 0 (per_gram am em el c_nucleons l)
   then exists c, da = [c] /\ is_derived am em av el Nucleon (per_gram am em el c_nucleons l) c else da = []) /\
  (if Rlt_dec 0 (per_gram am em el c_protons l) then
     exists c e, dp = [c; e] /\ is_derived am em av el PPlus (per_gram am em el c_protons l) c /\
                 is_derived am em av el EMinus (per_gram am em el c_protons l) e
   else dp = []).
Proof. exact components_of_definition. Qed.
Print Assumptions C40_derived.

(** C40: nucleons are protons plus neutrons (plus strange baryons). *)
Theorem C40_balance : forall am em el l, table_ok am ->
  (forall t f, In (t, f) l -> exists c, make_component am em el t = Ok c /\ c_is_atom c = true) ->
  per_gram am em el c_nucleons l = per_gram am em el c_protons l + per_gram am em el c_neutrons l + per_gram am em el c_strange l.
Proof. exact balance. Qed.
Print Assumptions C40_balance.

Example C40_case : let g := fun count => per_gram ex_table (fun _ => 1) 1 count [(H1, / 9); (O16, 8 / 9)] in
  g c_protons = 5 / 9 /\ g c_neutrons = 4 / 9 /\ g c_nucleons = 1 /\ g c_strange = 0.
Proof.
  cbv zeta. unfold per_gram. fold ex_mk. rewrite mk_H1, mk_O16. cbn. repeat split; lra.
Qed.

(** C41 fails for every material and target list: a present target gives 0/0, an
    absent one throws. *)
Theorem C41_never_a_fraction_refuted : forall x0 s id ts,
  radiation_fractions x0 s id ts =
  if forallb (fun t => match find_key (m_by_id s) (id, t) with Some _ => true | None => false end) ts
  then Ok (map (fun _ => None) ts) else Throw.
Proof. exact radiation_useless. Qed.
Print Assumptions C41_never_a_fraction_refuted.

(** A single present target, and a single absent one. *)
Theorem C41_witness_refuted :
  (exists s, radiation_fractions (fun _ _ => 1) s 0 [O16] = Ok [None]) /\
  (exists s, radiation_fractions (fun _ _ => 1) s 0 [O16] = Throw).
Proof.
  split.
  - exists (ex_def [("A", [(O16, 1)])]). rewrite C41_never_a_fraction_refuted.
    assert (F : find_key (m_by_id (ex_def [("A", [(O16, 1)])])) (0%nat, O16) <> None).
    { destruct (defined_once_map ex_table (fun _ => 1) 1 1 (fun _ _ => 1) [("A", [(O16, 1)])] "A" [(O16, 1)] 0 O16 ex_table_ok eq_refl eq_refl) as [cs [C F]].
      { apply (ex_id [("A", [(O16, 1)])] "A" 0). reflexivity. }
      unfold ex_def. rewrite F. destruct ex_comps_O16 as [dn [da' [dp' [de' [E2 _]]]]]. rewrite C in E2. injection E2 as ->. discriminate. }
    cbn [forallb]. destruct (find_key _ _); [reflexivity|congruence].
  - exists no_materials. reflexivity.
Qed.
Print Assumptions C41_witness_refuted.

(** C70: a ten-digit nuclear code 10LZZZAAAI decodes to L, Z, A and N = A - Z - L. *)
Theorem C70_decodes : forall L Z A I,
  (0 <= L <= 9)%Z -> (0 <= Z <= 999)%Z -> (0 <= A <= 999)%Z -> (0 <= I <= 9)%Z ->
  nucleon_content (10 * 100000000 + L * 10000000 + Z * 10000 + A * 10 + I)%Z = Ok (L, A - Z - L, Z, A)%Z.
Proof. intros. apply content_decodes; auto. lia. Qed.
Print Assumptions C70_decodes.

(** C70: shorter non-negative codes are rejected. *)
Theorem C70_rejects_short : forall code, (0 <= code < 1000000000)%Z -> nucleon_content code = Throw.
Proof. exact content_rejects. Qed.
Print Assumptions C70_rejects_short.

Example C70_case : nucleon_content 1000080160 = Ok (0, 8, 8, 16)%Z /\ nucleon_content 2212 = Throw.
Proof. split; reflexivity. Qed.

(** C70 fails for the prefix: codes that are not nuclear codes are accepted, here a
    code reserved for other particles. *)
Theorem C70_prefix_refuted : nucleon_content 2000009500 = Ok (0, 950, 0, 950)%Z.
Proof. reflexivity. Qed.
Print Assumptions C70_prefix_refuted.

(** C70 fails for antinuclei: the sign shifts the fields, so anti-carbon-12 reads as
    601 neutrons. *)
Theorem C70_antinucleus_refuted : nucleon_content (-1000060120) = Ok (0, 601, 0, 601)%Z.
Proof. reflexivity. Qed.
Print Assumptions C70_antinucleus_refuted.

(** C71: a file of complete blocks, with comments and blank lines anywhere, ends and
    defines exactly its materials in order. *)
Theorem C71_complete_file : forall am em av el x0 ph pc bs, table_ok am -> Forall (good_block ph) bs -> forall fuel lines b s,
  content lines = flat_map (fun x => fst x :: snd x) bs -> (List.length lines + 1 <= fuel)%nat ->
  read_file am em av el x0 ph pc fuel (mkstream lines (Some "")) b s
  = Some (fold_left (fun s d => fst (add_material am em av el x0 s (fst d) (snd d))) (definitions ph pc bs) s, Ok tt).
Proof. exact read_file_ok. Qed.
Print Assumptions C71_complete_file.

(** C71: the fractions of a block are those on its lines, the last one if a component is
    repeated, in increasing order of the codes. *)
Theorem C71_block : forall pc ls, increasing (block_fractions pc ls) /\
  forall k v, In (k, v) (block_fractions pc ls) <-> last_value pc ls k = Some v.
Proof. exact (block_fractions_ok (fun _ => None) (fun _ => 0) (fun _ _ => 0)). Qed.
Print Assumptions C71_block.

(** C71: empty lines and lines starting with a space, a tab or # are ignored. *)
Theorem C71_ignored_lines : forall b, skipped b = true <->
  b = EmptyString \/ exists c r, b = String c r /\ In c [" "%char; "009"%char; "#"%char].
Proof. exact (skipped_iff (fun _ => None) (fun _ => 0) (fun _ _ => 0) (fun _ => ("", 0%nat)) (fun _ => (0%Z, 0))). Qed.
Print Assumptions C71_ignored_lines.

Example C71_case :
  let ph := fun h => if String.eqb h "ICE 2" then ("ICE", 2%nat) else ("ROCK", 0%nat) in
  Forall (good_block ph) [("ICE 2", ["a"; "b"]); ("ROCK 0", [])] /\
  content ["# comment"; "ICE 2"; "a"; ""; "b"; "ROCK 0"] = ["ICE 2"; "a"; "b"; "ROCK 0"].
Proof. split; [repeat constructor|reflexivity]. Qed.

(** C71 fails for a file cut short after a newline: reading never ends, however many
    steps are allowed. *)
Theorem C71_truncated_file_refuted : forall am em av el x0 ph pc header cs fuel s, skipped header = false ->
  (List.length (content cs) < snd (ph header))%nat ->
  read_file am em av el x0 ph pc fuel (mkstream (header :: cs) (Some "")) "" s = None.
Proof. exact truncated_file_hangs. Qed.
Print Assumptions C71_truncated_file_refuted.

Example C71_truncated_case : skipped "ICE 2" = false /\ (List.length (content ["a"]) < 2)%nat.
Proof. split; [reflexivity|cbn; lia]. Qed.
