(** The composition of GDML materials: theorems. *)
From Coq Require Import Reals ZArith List Bool Lia Lra Ascii String.
From Verif Require Import GdmlModel GdmlProofs GdmlLoopModel InstModel InstSpec InstProofs InstStore MergeModel MergeSpec MergeProofs MixModel MixSpec MixProofs.
Import ListNotations.
Open Scope R_scope.

(** ** C150: numbers of atoms become fractions of mass *)

(** C150: the share of an entry is the number of its atoms times its mass over the whole mass, and what was
    there before stays. *)
Theorem C150_shares : forall mass entries comp, NoDup (map fst comp ++ map fst entries) ->
  0 < sum (map (fun e => (fst e, snd e * mass (fst e))) entries) ->
  composite mass entries comp =
  comp ++ map (fun e => (fst e, snd e * mass (fst e) / sum (map (fun e => (fst e, snd e * mass (fst e))) entries))) entries.
Proof.
  intros mass entries comp N P. unfold composite. destruct entries as [|e l]; [cbn; symmetry; apply app_nil_r|].
  rewrite total_sum. destruct (Rlt_dec _ _) as [_|X]; [|contradiction].
  apply (assign_all (fun e => snd e * mass (fst e) / _)). exact N.
Qed.
Print Assumptions C150_shares.

(** C150: the fractions of the composites of a material with no other parts add up to one. *)
Theorem C150_one : forall mass entries, NoDup (map fst entries) ->
  0 < sum (map (fun e => (fst e, snd e * mass (fst e))) entries) -> sum (composite mass entries []) = 1.
Proof.
  intros mass entries N P. rewrite C150_shares by assumption. cbn [app].
  rewrite (sum_div _ (fun e => snd e * mass (fst e))). field. lra.
Qed.
Print Assumptions C150_one.

(** C150: the fractions of two entries stand to each other as their masses, whatever the unit of mass. *)
Theorem C150_ratio : forall mass k entries comp, 0 < k -> composite (fun n => k * mass n) entries comp = composite mass entries comp
  \/ total_mass mass entries <= 0.
Proof.
  intros mass k entries comp K. unfold composite. destruct entries as [|e l]; [now left|]. remember (e :: l) as entries.
  assert (T : total_mass (fun n => k * mass n) entries = k * total_mass mass entries).
  { rewrite !total_sum. clear. induction entries as [|x r IH]; cbn; [lra|]. rewrite IH. lra. }
  rewrite T. destruct (Rlt_dec 0 (total_mass mass entries)) as [P|P]; [left|right; lra].
  destruct (Rlt_dec 0 (k * total_mass mass entries)) as [_|X]; [|exfalso; apply X; now apply Rmult_lt_0_compat].
  assert (F : forall l c, fold_left (fun c e => assign c (fst e) (snd e * (k * mass (fst e)) / (k * total_mass mass entries))) l c
    = fold_left (fun c e => assign c (fst e) (snd e * mass (fst e) / total_mass mass entries)) l c).
  { induction l0 as [|x r IH]; intros c; cbn; [reflexivity|]. rewrite IH. f_equal. f_equal. field. lra. }
  apply F.
Qed.
Print Assumptions C150_ratio.

Section Mass.
Context {T : Type}.
Variable eq : T -> T -> bool.
Variable a : T -> R.

Lemma flat_index : forall n i, n <> [] -> parse_flat_idx (flat n i) = (n, i).
Proof.
  intros n i N. pose proof (parse_back n i N) as P. unfold parse_flat in P. unfold parse_flat_idx.
  destruct (rfind (text "__") (flat n i)) as [[|p]|]; try discriminate.
  destruct (_ <=? _)%nat; [discriminate|]. destruct (forallb is_digit _); [|discriminate].
  destruct (number _); [discriminate|]. revert P. generalize (firstn (S p) (flat n i)). intros f P.
  injection P as -> ->. reflexivity.
Qed.
Lemma flat_other : forall n i, str_eqb (flat n i) n = false.
Proof.
  intros n i. apply seq_neq. intros E. apply (f_equal (@List.length _)) in E. unfold flat in E.
  rewrite !app_length in E. cbn in E. lia.
Qed.
Lemma none_defined : forall en al log b, ~ defined en log b ->
  instances (store_all eq en log (fresh al)) b = [] /\ counts (store_all eq en log (fresh al)) b = None.
Proof.
  intros en al log b D. pose proof (all_holds eq en al log) as H.
  assert (X : instances (store_all eq en log (fresh al)) b = []).
  { destruct (instances _ b) as [|u l] eqn:E; [reflexivity|]. exfalso. apply D.
    destruct (h_stored _ _ _ _ _ H b u) as (o & I & S); [rewrite E; now left|]. exists o, u. split; [exact I|].
    now apply base_strip. }
  split; [exact X|]. rewrite (h_counts _ _ _ _ _ H), X. reflexivity.
Qed.
Lemma last_defined : forall en al log b t, (forall u v, eq u v = true -> a u = a v) -> latest_of en log b t ->
  exists n, counts (store_all eq en log (fresh al)) b = Some (S n) /\
    nth_error (map a (instances (store_all eq en log (fresh al)) b)) n = Some (a t).
Proof.
  intros en al log b t Q L. pose proof (all_holds eq en al log) as H. destruct (h_last _ _ _ _ _ H b t L) as (u & N & S).
  rewrite (h_counts _ _ _ _ _ H). destruct (instances _ b) as [|x l] eqn:E; [destruct (List.length _ - 1)%nat; discriminate|].
  exists (List.length l). split; [reflexivity|]. cbn [List.length] in N. replace (Datatypes.S (List.length l) - 1)%nat with (List.length l) in N by lia.
  rewrite nth_error_map, N. cbn. destruct S as [-> | S]; [reflexivity|]. now rewrite (Q _ _ S).
Qed.
End Mass.

(** C150: the mass of a reference is the mass of the latest definition of that name, looked for among the
    isotopes, the elements and the materials in this order. *)
Theorem C150_mass : forall (T : Type) (eq : T -> T -> bool) (a : T -> R) en al isos elems mats ref b t,
  (forall u v, eq u v = true -> a u = a v) -> base en ref b -> b <> [] ->
  let iso := store_all eq en isos (fresh al) in
  let elem := store_all eq en elems (fresh al) in
  let mat := store_all eq en mats (fresh al) in
  (latest_of en isos b t \/ (~ defined en isos b /\ latest_of en elems b t)
     \/ (~ defined en isos b /\ ~ defined en elems b /\ latest_of en mats b t)) ->
  lookup_A (fun n => map a (instances iso n)) (fun n => map a (instances elem n)) (fun n => map a (instances mat n))
    (resolve_ref en iso elem mat ref) = a t.
Proof.
  intros T eq a en al isos elems mats ref b t Q B NE iso elem mat H. apply base_strip in B.
  unfold lookup_A, resolve_ref, resolve. rewrite B.
  destruct H as [H|[[D H]|[D [D2 H]]]].
  - destruct (last_defined eq a en al _ _ _ Q H) as (n & C & X). fold iso in C, X. rewrite C.
    replace (S n - 1)%nat with n by lia. rewrite flat_other. cbn [negb]. rewrite (flat_index b n NE).
    unfold instance_A. now rewrite X.
  - destruct (none_defined eq en al _ _ D) as [I1 C1]. fold iso in I1, C1. rewrite C1, seq_refl. cbn [negb].
    destruct (last_defined eq a en al _ _ _ Q H) as (n & C & X). fold elem in C, X. rewrite C.
    replace (S n - 1)%nat with n by lia. rewrite flat_other. cbn [negb]. rewrite (flat_index b n NE).
    unfold instance_A. rewrite I1, X. now destruct n.
  - destruct (none_defined eq en al _ _ D) as [I1 C1]. fold iso in I1, C1. rewrite C1, seq_refl. cbn [negb].
    destruct (none_defined eq en al _ _ D2) as [I2 C2]. fold elem in I2, C2. rewrite C2, seq_refl. cbn [negb].
    destruct (last_defined eq a en al _ _ _ Q H) as (n & C & X). fold mat in C, X. rewrite C.
    replace (S n - 1)%nat with n by lia. rewrite (flat_index b n NE).
    unfold instance_A. rewrite I1, I2, X. now destruct n.
Qed.
Print Assumptions C150_mass.

(** C150 is false of a material that names a part twice: the second entry replaces the first one, so that the
    fractions do not add up to one. *)
Theorem C150_repeated_refuted : exists mass entries, 0 < sum (map (fun e => (fst e, snd e * mass (fst e))) entries)
  /\ sum (composite mass entries []) < 1.
Proof.
  exists (fun n => if str_eqb n (text "H") then 1 else 16), [(text "H", 1); (text "O", 1); (text "H", 1)].
  assert (P : sum (map (fun e => (fst e, snd e * (if str_eqb (fst e) (text "H") then 1 else 16))) [(text "H", 1); (text "O", 1); (text "H", 1)]) = 18).
  { cbn -[text]. replace (str_eqb (text "H") (text "H")) with true by reflexivity. replace (str_eqb (text "O") (text "H")) with false by reflexivity. lra. }
  split; [rewrite P; lra|]. unfold composite. rewrite total_sum, P. destruct (Rlt_dec 0 18); [|lra].
  cbn -[text]. replace (str_eqb (text "H") (text "H")) with true by reflexivity. replace (str_eqb (text "O") (text "H")) with false by reflexivity.
  replace (str_eqb (text "H") (text "O")) with false by reflexivity. cbn -[text].
  replace (str_eqb (text "H") (text "H")) with true by reflexivity. cbn -[text]. lra.
Qed.
Print Assumptions C150_repeated_refuted.

(** C150 is false of elements given by isotopes: their mass is zero in the parser, so that water made of such
    oxygen is pure hydrogen. *)
Theorem C150_isotopes_refuted : exists mass entries, mass (text "O") = 0 /\ In (text "O", 1) entries /\
  0 < sum (map (fun e => (fst e, snd e * mass (fst e))) entries) /\ In (text "O", 0) (composite mass entries []).
Proof.
  exists (fun n => if str_eqb n (text "H") then 1 else 0), [(text "H", 2); (text "O", 1)].
  assert (H : str_eqb (text "H") (text "H") = true) by reflexivity. assert (O : str_eqb (text "O") (text "H") = false) by reflexivity.
  split; [now rewrite O|]. split; [right; now left|].
  assert (P : sum (map (fun e => (fst e, snd e * (if str_eqb (fst e) (text "H") then 1 else 0))) [(text "H", 2); (text "O", 1)]) = 2).
  { cbn -[text]. rewrite H, O. lra. }
  split; [rewrite P; lra|]. rewrite C150_shares; [|repeat constructor; cbn; intuition discriminate|rewrite P; lra].
  rewrite P. cbn -[text]. rewrite O. right. left. f_equal. lra.
Qed.
Print Assumptions C150_isotopes_refuted.

Example C150_case : let mass n := if str_eqb n (text "H") then 1 else 16 in
  composite mass [(text "H", 2); (text "O", 1)] [] = [(text "H", 2 * 1 / 18); (text "O", 1 * 16 / 18)].
Proof.
  intros mass. assert (H : mass (text "H") = 1) by reflexivity. assert (O : mass (text "O") = 16) by reflexivity.
  assert (P : sum (map (fun e => (fst e, snd e * mass (fst e))) [(text "H", 2); (text "O", 1)]) = 18).
  { cbn -[text mass]. rewrite H, O. lra. }
  rewrite C150_shares; [|repeat constructor; cbn; intuition discriminate|rewrite P; lra].
  rewrite P. cbn -[text mass]. now rewrite H, O.
Qed.

(** ** C151: compositions become nuclei *)

(** C151: a component resolves to nuclei exactly if it has a meaning, in a number of calls in each other bounded
    by the number of names; what comes out is the weight times its share of each nucleus. *)
Theorem C151_resolves : forall find keys n w, (forall n c, find n = Some c -> In n keys) ->
  (forall s, share find n s -> exists m, resolve_component find (S (List.length keys)) [] n w = Nuclei m /\ forall p, amount m p = w * s p) /\
  (forall m, resolve_component find (S (List.length keys)) [] n w = Nuclei m -> exists s, share find n s /\ forall p, amount m p = w * s p).
Proof.
  intros find keys n w K. split.
  - intros s SH. destruct (share_grounded find n s SH) as [h G].
    pose proof (proj1 (resolve_right find (S (List.length keys)) h) [] n w G) as [A B]; [intros v []|].
    pose proof (proj1 (resolve_ends find keys K (S (List.length keys))) [] n w ltac:(constructor) ltac:(intros x []) ltac:(cbn; lia)) as C.
    destruct (resolve_component find (S (List.length keys)) [] n w) as [m| | |] eqn:E; try contradiction.
    exists m. split; [reflexivity|]. intros p. destruct (proj1 (resolve_share find _) _ _ _ _ E) as (t & TS & A').
    rewrite A', (share_unique find n s SH t TS p). reflexivity.
  - intros m E. exact (proj1 (resolve_share find _) _ _ _ _ E).
Qed.
Print Assumptions C151_resolves.

(** C151: it always ends, in nuclei or in one of the two exceptions. *)
Theorem C151_ends : forall find keys n w, (forall n c, find n = Some c -> In n keys) ->
  resolve_component find (S (List.length keys)) [] n w <> Unfinished.
Proof.
  intros find keys n w K. apply (proj1 (resolve_ends find keys K (S (List.length keys)))); [constructor|intros x []|cbn; lia].
Qed.
Print Assumptions C151_ends.

(** C151: a share is one function of the nuclei. *)
Theorem C151_meaning : forall find n s t, share find n s -> share find n t -> forall p, s p = t p.
Proof. intros find n s t S' T p. exact (share_unique find n s S' t T p). Qed.
Print Assumptions C151_meaning.

(** C151: a material whose mixtures all add up to one comes out with fractions that add up to one. *)
Theorem C151_one : forall find fuel c m, proper find -> (c_composition c <> [] -> sum (c_composition c) = 1) ->
  (c_composition c = [] -> (0 < c_Z c)%Z /\ (0 < c_A c)%Z) -> material_nuclei find fuel c = Nuclei m -> sum m = 1.
Proof.
  intros find fuel c m P Q1 Q2 H. unfold material_nuclei in H. destruct (c_composition c) as [|e l] eqn:E.
  - destruct (Q2 eq_refl) as [A B]. apply Z.ltb_lt in A, B. rewrite A, B in H. injection H as <-. cbn. lra.
  - apply (proj2 (resolve_total find P fuel)) in H. rewrite H, Q1 by discriminate. cbn. lra.
Qed.
Print Assumptions C151_one.

(** C151: a mixture is the mixture of the shares of its parts. *)
Theorem C151_material : forall find fuel c m, c_composition c <> [] -> material_nuclei find fuel c = Nuclei m ->
  exists s, shares find (c_composition c) s /\ forall p, amount m p = s p.
Proof.
  intros find fuel c m N H. unfold material_nuclei in H. destruct (c_composition c) as [|e l] eqn:E; [contradiction|].
  destruct (proj2 (resolve_share find fuel) _ _ _ _ _ H) as (s & SH & A). exists s. split; [exact SH|].
  intros p. rewrite A. cbn. lra.
Qed.
Print Assumptions C151_material.

(** C151: a component that is part of itself ends in an exception. *)
Theorem C151_cycle : forall find keys n k w, (forall n c, find n = Some c -> In n keys) -> below find (S k) n n ->
  resolve_component find (S (List.length keys)) [] n w = Circular \/ resolve_component find (S (List.length keys)) [] n w = Missing.
Proof.
  intros find keys n k w K B. pose proof (C151_ends find keys n w K) as E.
  destruct (resolve_component find (S (List.length keys)) [] n w) as [m| | |] eqn:R; try tauto.
  destruct (proj1 (resolve_share find _) _ _ _ _ R) as (s & SH & _). destruct (share_grounded find n s SH) as [h G].
  exfalso. exact (no_cycle find h n k G B).
Qed.
Print Assumptions C151_cycle.

(** C151 is false of elements without an atomic mass: they are dropped without a word, and what remains does not
    add up to one. *)
Theorem C151_dropped_refuted : exists find c m, c_composition c <> [] /\ sum (c_composition c) = 1 /\
  material_nuclei find 2 c = Nuclei m /\ sum m < 1.
Proof.
  exists (fun n => if str_eqb n (text "H") then Some (mkcomponent 1 1 []) else if str_eqb n (text "O") then Some (mkcomponent 8 0 []) else None),
    (mkcomponent 0 0 [(text "H", 1 / 9); (text "O", 8 / 9)]).
  eexists. split; [discriminate|]. split; [cbn -[text]; lra|]. split.
  - unfold material_nuclei. cbn [c_composition]. cbn [resolve_each resolve_component].
    replace (str_eqb (text "H") (text "H")) with true by reflexivity. replace (str_eqb (text "O") (text "H")) with false by reflexivity.
    replace (str_eqb (text "O") (text "O")) with true by reflexivity. cbn -[text]. reflexivity.
  - cbn. lra.
Qed.
Print Assumptions C151_dropped_refuted.

Example C151_case :
  let find n := if str_eqb n (text "H") then Some (mkcomponent 1 1 []) else if str_eqb n (text "W") then Some (mkcomponent 0 0 [(text "H", 1)])
                else None in
  proper find /\ material_nuclei find 3 (mkcomponent 0 0 [(text "H", 1 / 4); (text "W", 3 / 4)]) =
    Nuclei [(nucleus 1 1, 0 + (0 + 1 * (1 / 4)) + (0 + (0 + 1 * (3 / 4) * 1)))] /\
  below (fun n => if str_eqb n (text "X") then Some (mkcomponent 0 0 [(text "X", 1)]) else None) 1 (text "X") (text "X").
Proof.
  intros find. split; [|split].
  - intros n c H. unfold find in H. destruct (str_eqb n (text "H")); [injection H as <-|destruct (str_eqb n (text "W")); [injection H as <-|discriminate]];
      cbn -[text]; split; intros; try contradiction; try discriminate; try lra; try (split; lia).
  - unfold material_nuclei. cbn [c_composition]. cbn [resolve_each resolve_component].
    assert (F1 : find (text "H") = Some (mkcomponent 1 1 [])) by reflexivity.
    assert (F2 : find (text "W") = Some (mkcomponent 0 0 [(text "H", 1)])) by reflexivity.
    rewrite F1, F2. cbn [existsb c_composition c_Z c_A]. rewrite F1. cbn -[text]. reflexivity.
  - eapply below_S; [reflexivity|left; reflexivity|constructor].
Qed.
