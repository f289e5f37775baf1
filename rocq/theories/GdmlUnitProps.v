(** C65: units of the GDML parser. *)
From Coq Require Import String Ascii List Bool Reals Lra Lia.
From Verif Require Import GdmlModel GdmlSpec GdmlProofs GdmlUnitModel GdmlUnitSpec.
Import ListNotations.
Open Scope R_scope.
Open Scope string_scope.

Lemma one_of_iff : forall u l, one_of u l = true <-> In u l.
Proof.
  intros. unfold one_of. rewrite existsb_exists. split.
  - intros (x & H & E). apply String.eqb_eq in E. subst. auto.
  - intros H. exists u. rewrite String.eqb_refl. auto.
Qed.

Lemma length_names : forall u, type_from_unit u = LENGTH <-> In u ["mm"; "cm"; "m"; "km"; "um"; "nm"; "in"; "millimeter";
  "centimeter"; "meter"; "kilometer"; "micrometer"; "nanometer"; "angstrom"; "fermi"; "inch"].
Proof.
  intros u. unfold type_from_unit. split.
  - destruct (String.eqb u ""); [discriminate|].
    destruct (one_of u ["mm"; "cm"; "m"; "km"; "um"; "nm"; "in"; "millimeter"; "centimeter"; "meter"; "kilometer";
      "micrometer"; "nanometer"; "angstrom"; "fermi"; "inch"]) eqn:E; [intros _; apply one_of_iff; exact E|].
    repeat (match goal with |- context [one_of u ?l] => destruct (one_of u l) end; try discriminate).
  - intros H. cbn in H. repeat (destruct H as [<-|H]; [reflexivity|]). destruct H.
Qed.

Ltac members H := cbn [In] in H; repeat (destruct H as [<-|H]); [..|destruct H].
Ltac units := cbn; try (f_equal; unfold mm, mrad, radian, degrees; lra).

(** C65: a name is accepted as a length exactly if it is a length unit, and the factor is that of
    the definition, in metres; no name means millimetres. *)
Theorem C65_length : forall u x, length_scale u = Some x <-> (u = "" /\ x = / 10 ^ 3) \/ Length u x.
Proof.
  assert (F : forall u x, Length u x -> length_scale u = Some x).
  { intros u x H. destruct H as [s l x P I1|s l x P I1| | | |]; try (destruct P; cbn [In] in I1; try (exfalso; intuition discriminate));
      unfold length_scale, mm; cbn; f_equal; lra. }
  intros u x. split.
  - unfold length_scale. destruct (String.eqb u "") eqn:E0.
    { apply String.eqb_eq in E0. intros H. injection H as <-. left. split; auto. unfold mm. lra. }
    destruct (type_from_unit u) eqn:E; try discriminate. apply length_names in E. intros H. right.
    assert (L : Length u x \/ exists y, Length u y).
    { right. cbn in E.
      repeat (destruct E as [<-|E]; [first
        [ eexists; apply (L_short "m" "milli"); [constructor|cbn; tauto]
        | eexists; apply (L_short "c" "centi"); [constructor|cbn; tauto]
        | eexists; apply (L_short "" ""); [constructor|cbn; tauto]
        | eexists; apply (L_short "k" "kilo"); [constructor|cbn; tauto]
        | eexists; apply (L_short "u" "micro"); [constructor|cbn; tauto]
        | eexists; apply (L_short "n" "nano"); [constructor|cbn; tauto]
        | eexists; apply (L_long "m" "milli"); [constructor|cbn; tauto]
        | eexists; apply (L_long "c" "centi"); [constructor|cbn; tauto]
        | eexists; apply (L_long "" ""); [constructor|cbn; tauto]
        | eexists; apply (L_long "k" "kilo"); [constructor|cbn; tauto]
        | eexists; apply (L_long "u" "micro"); [constructor|cbn; tauto]
        | eexists; apply (L_long "n" "nano"); [constructor|cbn; tauto]
        | eexists; apply L_inch | eexists; apply L_in | eexists; apply L_angstrom | eexists; apply L_fermi ]|]).
      destruct E. }
    destruct L as [L|[y L]]; auto. pose proof (F u y L) as K. unfold length_scale in K. rewrite E0 in K.
    assert (T : type_from_unit u = LENGTH) by (apply length_names; exact E). rewrite T in K. rewrite K in H. injection H as <-. exact L.
  - intros [[-> ->]|H]; [|auto]. unfold length_scale, mm. cbn. f_equal. lra.
Qed.

(** Likewise for angles, in radians; no name means radians. *)
Theorem C65_angle : forall u x, angle_scale u = Some x <-> (u = "" /\ x = 1) \/ Angle u x.
Proof.
  intros u x. split.
  - unfold angle_scale. destruct (String.eqb u "") eqn:E0.
    { apply String.eqb_eq in E0. intros H. injection H as <-. left. auto. }
    destruct (String.eqb u "deg" || String.eqb u "degree") eqn:E1.
    { intros H. injection H as <-. right. apply orb_true_iff in E1. destruct E1 as [E|E]; apply String.eqb_eq in E; subst; constructor; unfold degrees; field. }
    destruct (String.eqb u "rad" || String.eqb u "radian") eqn:E2.
    { intros H. injection H as <-. right. apply orb_true_iff in E2. destruct E2 as [E|E]; apply String.eqb_eq in E; subst.
      - apply (A_short "" ""); [constructor|cbn; tauto].
      - apply (A_long "" ""); [constructor|cbn; tauto]. }
    destruct (String.eqb u "mrad" || String.eqb u "milliradian") eqn:E3; [|discriminate].
    intros H. injection H as <-. right. apply orb_true_iff in E3.
    replace mrad with (/ 10 ^ 3) by (unfold mrad, radian; lra).
    destruct E3 as [E|E]; apply String.eqb_eq in E; subst.
    + apply (A_short "m" "milli"); [constructor|cbn; tauto].
    + apply (A_long "m" "milli"); [constructor|cbn; tauto].
  - intros [[-> ->]|H]; [reflexivity|].
    destruct H as [s l x P I1|s l x P I1|x H|x H].
    1-2: destruct P; cbn [In] in I1; try (exfalso; intuition discriminate); unfold angle_scale, mrad, radian; cbn; f_equal; lra.
    all: unfold angle_scale, degrees; cbn; f_equal; lra.
Qed.

(** A unit that is classified is converted, with the factor that its definition prescribes: lengths
    to mm, angles to radians, energies to MeV, times to ns, densities to g/cm3. *)
Theorem C65_quantity : forall u, type_from_unit u <> NONE ->
  exists x, quantity_scale u (type_from_unit u) = Some x /\
  match type_from_unit u with
  | LENGTH => Length u (x / 10 ^ 3)
  | ANGLE => Angle u x
  | ENERGY => Energy u (x * 10 ^ 6) \/ (u = "joule" /\ Rabs (x * 1.602176634e-13 - 1) < 1e-15)
  | TIME => Time u (x / 10 ^ 9)
  | DENSITY => Density u x
  | _ => x = 1
  end.
Proof.
  intros u H. destruct (type_from_unit u) eqn:T; try congruence.
  - assert (L : exists y, length_scale u = Some y /\ quantity_scale u LENGTH = Some (y * 10 ^ 3)).
    { pose proof (proj1 (length_names u) T) as K. unfold length_scale. rewrite T.
      cbn in K. repeat (destruct K as [<-|K]; [eexists; split; [reflexivity|]; cbn; f_equal; unfold mm; lra|]). destruct K. }
    destruct L as (y & L1 & L2). exists (y * 10 ^ 3). split; [exact L2|].
    replace (y * 10 ^ 3 / 10 ^ 3) with y by lra. apply C65_length in L1. destruct L1 as [[-> _]|L1]; [discriminate|exact L1].
  - assert (L : exists y, angle_scale u = Some y /\ quantity_scale u ANGLE = Some y).
    { unfold type_from_unit in T. destruct (String.eqb u ""); [discriminate|].
      match type of T with (if ?b then _ else _) = _ => destruct b; [discriminate|] end.
      match type of T with (if ?b then _ else _) = _ => destruct b eqn:E end.
      - apply one_of_iff in E. cbn in E.
        repeat (destruct E as [<-|E]; [eexists; split; [reflexivity|]; cbn; f_equal; unfold mrad, radian, degrees; lra|]). destruct E.
      - repeat (match type of T with (if ?b then _ else _) = _ => destruct b; [discriminate|] end). discriminate. }
    destruct L as (y & L1 & L2). exists y. split; [exact L2|]. apply C65_angle in L1.
    destruct L1 as [[-> _]|L1]; [discriminate|exact L1].
  - unfold type_from_unit in T. destruct (String.eqb u ""); [discriminate|].
    do 2 match type of T with (if ?b then _ else _) = _ => destruct b; [discriminate|] end.
    match type of T with (if ?b then _ else _) = _ => destruct b eqn:E end.
    + apply one_of_iff in E. cbn in E.
      destruct E as [<-|[<-|[<-|[<-|[<-|[<-|[<-|[]]]]]]]]; eexists; (split; [reflexivity|]).
      1-6: left; eapply eq_ind; [first
        [ apply (E_volt "" ""); [constructor|cbn; tauto] | apply (E_volt "k" "kilo"); [constructor|cbn; tauto]
        | apply (E_volt "M" "mega"); [constructor|cbn; tauto] | apply (E_volt "G" "giga"); [constructor|cbn; tauto]
        | apply (E_volt "T" "tera"); [constructor|cbn; tauto] | apply (E_volt "P" "peta"); [constructor|cbn; tauto] ]|lra].
      right. split; [reflexivity|]. apply Rabs_def1; lra.
    + repeat (match type of T with (if ?b then _ else _) = _ => destruct b; [discriminate|] end). discriminate.
  - unfold type_from_unit in T. destruct (String.eqb u ""); [discriminate|].
    do 3 match type of T with (if ?b then _ else _) = _ => destruct b; [discriminate|] end.
    match type of T with (if ?b then _ else _) = _ => destruct b eqn:E end.
    + apply one_of_iff in E. cbn in E.
      destruct E as [<-|[<-|[<-|[<-|[<-|[<-|[<-|[<-|[<-|[]]]]]]]]]]; eexists; (split; [reflexivity|]).
      all: eapply eq_ind; [first
        [ apply (T_short "n" "nano"); [constructor|cbn; tauto] | apply (T_short "p" "pico"); [constructor|cbn; tauto]
        | apply (T_short "u" "micro"); [constructor|cbn; tauto] | apply (T_short "m" "milli"); [constructor|cbn; tauto]
        | apply (T_long "n" "nano"); [constructor|cbn; tauto] | apply (T_long "p" "pico"); [constructor|cbn; tauto]
        | apply (T_long "u" "micro"); [constructor|cbn; tauto] | apply (T_long "m" "milli"); [constructor|cbn; tauto]
        | apply (T_long "" ""); [constructor|cbn; tauto] ]|lra].
    + repeat (match type of T with (if ?b then _ else _) = _ => destruct b; [discriminate|] end). discriminate.
  - unfold type_from_unit in T. destruct (String.eqb u ""); [discriminate|].
    do 4 match type of T with (if ?b then _ else _) = _ => destruct b; [discriminate|] end.
    match type of T with (if ?b then _ else _) = _ => destruct b eqn:E end.
    + apply one_of_iff in E. cbn in E. destruct E as [<-|[<-|[<-|[]]]]; eexists; (split; [reflexivity|]).
      * apply D_g.
      * replace 1e-3 with (/ 10 ^ 3) by lra. apply D_mg.
      * apply D_kg. lra.
    + repeat (match type of T with (if ?b then _ else _) = _ => destruct b; [discriminate|] end). discriminate.
  - unfold type_from_unit in T. destruct (String.eqb u ""); [discriminate|].
    do 5 match type of T with (if ?b then _ else _) = _ => destruct b; [discriminate|] end.
    match type of T with (if ?b then _ else _) = _ => destruct b eqn:E end.
    + apply one_of_iff in E. cbn in E. destruct E as [<-|[]]. eexists; split; reflexivity.
    + repeat (match type of T with (if ?b then _ else _) = _ => destruct b; [discriminate|] end). discriminate.
  - unfold type_from_unit in T. destruct (String.eqb u ""); [discriminate|].
    do 6 match type of T with (if ?b then _ else _) = _ => destruct b; [discriminate|] end.
    match type of T with (if ?b then _ else _) = _ => destruct b eqn:E end; [|discriminate].
    apply one_of_iff in E. cbn in E. destruct E as [<-|[<-|[]]]; eexists; split; reflexivity.
Qed.

(** With a classified unit the type attribute has no influence on the conversion, and there is a
    warning exactly if it names a different type. *)
Theorem C65_resolve : forall a u, type_from_unit u <> NONE ->
  fst (resolve_type a u) = type_from_unit u /\
  (snd (resolve_type a u) = true <-> type_from_attr a <> NONE /\ type_from_attr a <> type_from_unit u).
Proof.
  intros a u H. unfold resolve_type. destruct (type_from_attr a), (type_from_unit u); cbn; try congruence;
    split; auto; split; intros; try discriminate; try tauto; try (split; discriminate); destruct H0; congruence.
Qed.

(** The expression of a density is rejected exactly if it contains, behind no other letter, the name
    of a unit of the table: the first such name is reported. *)
Theorem C65_guard_sound : forall s name, contains_unit (List.length s) s = Some name ->
  (exists v, lookup name built_in_constants = Some v) /\ ~ In name ["pi"; "twopi"; "TWOPI"; "halfpi"; "e"; "gamma"] /\
  exists a b, s = (a ++ chars name ++ b)%list /\ match b with c :: _ => ~ letter c /\ ~ digit c | [] => True end.
Proof.
  assert (G : forall n s name, contains_unit n s = Some name ->
    is_built_in name = true /\ existsb (String.eqb name) pure_math = false /\
    exists a b, s = (a ++ chars name ++ b)%list /\ match b with c :: _ => ident_char c = false | [] => True end).
  { induction n as [|n IH]; intros s name H; [discriminate|]. cbn [contains_unit] in H.
    destruct s as [|c r]; [discriminate|]. destruct (ident_start c) eqn:C.
    - cbv zeta in H. set (w := take_while ident_char (c :: r)) in *.
      destruct (is_built_in (string_of_list_ascii w) && negb (existsb (String.eqb (string_of_list_ascii w)) pure_math)) eqn:B.
      + injection H as <-. apply andb_true_iff in B. destruct B as [B1 B2]. apply negb_true_iff in B2.
        split; [exact B1|]. split; [exact B2|]. exists [], (drop_while ident_char (c :: r)). cbn [app].
        unfold chars. rewrite list_ascii_of_string_of_list_ascii. split; [symmetry; apply take_drop|].
        pose proof (drop_head ident_char (c :: r)) as D. destruct (drop_while ident_char (c :: r)); auto.
      + apply IH in H. destruct H as (H1 & H2 & a & b & E & HB). split; auto. split; auto.
        exists (w ++ a)%list, b. split; auto. rewrite <- app_assoc, <- E. symmetry. apply take_drop.
    - apply IH in H. destruct H as (H1 & H2 & a & b & E & HB). split; auto. split; auto.
      exists (c :: a), b. split; auto. cbn. congruence. }
  intros s name H. apply G in H. destruct H as (H1 & H2 & a & b & E & HB). split; [|split].
  - unfold is_built_in in H1. revert H1. generalize built_in_constants. induction l as [|[n v] l IH]; cbn; [discriminate|].
    destruct (String.eqb name n); eauto.
  - intros K. apply not_true_iff_false in H2. apply H2, existsb_exists. exists name. split; [exact K|apply String.eqb_refl].
  - exists a, b. split; auto. destruct b as [|c b]; auto. rewrite <- not_true_iff_false in HB.
    split; intros K; apply HB, ident_iff; auto.
Qed.

Theorem C65_guard_complete : forall a name b, contains_unit (List.length (a ++ chars name ++ b)%list) (a ++ chars name ++ b)%list = None ->
  identifier (chars name) ->
  match rev a with c :: _ => ~ letter c /\ ~ digit c | [] => True end ->
  match b with c :: _ => ~ letter c /\ ~ digit c | [] => True end ->
  lookup name built_in_constants = None \/ In name ["pi"; "twopi"; "TWOPI"; "halfpi"; "e"; "gamma"].
Proof.
  intros a name b H HI HA HB.
  assert (HB' : match b with c :: _ => ident_char c = false | [] => True end).
  { destruct b as [|c b]; auto. apply not_true_iff_false. intros K. apply ident_iff in K. tauto. }
  assert (G : forall n a, (List.length (a ++ chars name ++ b)%list <= n)%nat -> contains_unit n (a ++ chars name ++ b)%list = None ->
    match rev a with c :: _ => ident_char c = false | [] => True end ->
    is_built_in name && negb (existsb (String.eqb name) pure_math) = false).
  { clear a H HA. destruct (identifier_chars _ HI) as (c0 & r0 & EN & HC0 & HF0).
    induction n as [|n IH]; intros a L H HA.
    - rewrite !app_length, EN in L. cbn in L. lia.
    - destruct a as [|c a].
      + cbn [app] in *. rewrite EN in H. cbn [app contains_unit] in H. rewrite HC0 in H. cbv zeta in H.
        assert (T : take_while ident_char (c0 :: r0 ++ b)%list = chars name /\ drop_while ident_char (c0 :: r0 ++ b)%list = b).
        { change (c0 :: r0 ++ b)%list with ((c0 :: r0) ++ b)%list. rewrite <- EN. apply take_all; auto. }
        destruct T as [T1 T2]. rewrite T1 in H. unfold chars in H. rewrite string_of_list_ascii_of_string in H.
        destruct (is_built_in name && negb (existsb (String.eqb name) pure_math)); auto. discriminate.
      + cbn [app contains_unit] in H. cbn [app List.length] in L. destruct (ident_start c) eqn:C.
        * cbv zeta in H. match type of H with (if ?b then _ else _) = _ => destruct b; [discriminate|] end.
          assert (D : exists a', drop_while ident_char (c :: a ++ chars name ++ b)%list = (a' ++ chars name ++ b)%list /\
            (List.length a' <= List.length a)%nat /\ match rev a' with c :: _ => ident_char c = false | [] => True end).
          { assert (C1 : ident_char c = true) by (unfold ident_start, ident_char in *; destruct (is_alpha c), (is_digit c); auto).
            cbn [drop_while]. rewrite C1.
            assert (K : forall p a, (match rev (p ++ a)%list with c :: _ => ident_char c = false | [] => True end) ->
              p <> [] -> forallb ident_char p = true -> exists a', drop_while ident_char (a ++ chars name ++ b)%list = (a' ++ chars name ++ b)%list /\
              (List.length a' <= List.length a)%nat /\ match rev a' with c :: _ => ident_char c = false | [] => True end).
            { clear - HI. intros p a. revert p. induction a as [|d a IHa]; intros p HR HP HF.
              - exfalso. rewrite app_nil_r in HR. destruct (rev p) as [|e q] eqn:R.
                + apply HP. rewrite <- (rev_involutive p), R. auto.
                + assert (In e p) by (apply in_rev; rewrite R; left; auto).
                  rewrite forallb_forall in HF. rewrite HF in HR by auto. discriminate.
              - cbn [app drop_while]. destruct (ident_char d) eqn:D.
                + destruct (IHa (p ++ [d])%list) as (a' & E & L & R).
                  * rewrite <- app_assoc. exact HR.
                  * destruct p; discriminate.
                  * rewrite forallb_app, HF. cbn. rewrite D. auto.
                  * exists a'. split; auto. split; auto. cbn. lia.
                + exists (d :: a). split; auto. split; auto.
                  rewrite rev_app_distr in HR. destruct (rev (d :: a)) as [|e q] eqn:R; auto.
                  }
            apply (K [c] a); [exact HA|discriminate|cbn; rewrite C1; auto]. }
          destruct D as (a' & E & LA & RA). rewrite E in H. apply (IH a'); auto.
          rewrite !app_length in *. lia.
        * apply (IH a); auto; [lia|]. cbn in HA. destruct (rev a) as [|d q]; auto. }
  assert (HA' : match rev a with c :: _ => ident_char c = false | [] => True end).
  { destruct (rev a) as [|c q]; auto. apply not_true_iff_false. intros K. apply ident_iff in K. tauto. }
  specialize (G _ a (le_n _) H HA'). apply andb_false_iff in G. destruct G as [G|G].
  - left. unfold is_built_in in G. revert G. generalize built_in_constants. induction l as [|[n v] l IH]; cbn; auto.
    destruct (String.eqb name n); [discriminate|auto].
  - right. apply negb_false_iff, existsb_exists in G. destruct G as (y & G1 & G2). apply String.eqb_eq in G2. subst. exact G1.
Qed.

(** Names that are not units are accepted for a quantity: the factor of unit="pi" is pi; the name of
    the second, s, is not, although ns, us and ms are; a mass has no type and gets an internal factor. *)
Theorem C65_not_a_unit_refuted : exists u, type_from_unit u = NONE /\ u <> "" /\
  quantity_scale u (fst (resolve_type "" u)) = Some PI.
Proof. exists "pi". repeat split; discriminate. Qed.
Theorem C65_second_refuted : exists u, Time ("m" ++ u) (/ 10 ^ 3) /\ quantity_scale u TIME = None.
Proof. exists "s". split; [apply (T_short "m" "milli"); [constructor|cbn; tauto]|reflexivity]. Qed.

(** The guard does not see a unit inside a defined name, and rejects a number followed by a name
    only because a letter ends the number. *)
Example C65_case : length_scale "cm" = Some (10 * mm) /\ Length "cm" (/ 10 ^ 2) /\ length_scale "ft" = None /\
  angle_scale "grad" = None /\ Angle "deg" (PI / 180) /\ type_from_unit "kg/m3" = DENSITY /\
  resolve_type "Length" "deg" = (ANGLE, true) /\ resolve_type "lenght" "in" = (LENGTH, false) /\
  contains_unit (List.length (chars "2*pi*gram")) (chars "2*pi*gram") = Some "gram" /\
  contains_unit (List.length (chars "1e3*pi+my_mm")) (chars "1e3*pi+my_mm") = None /\ identifier (chars "gram").
Proof.
  repeat split; try reflexivity.
  - apply (L_short "c" "centi"); [constructor|cbn; tauto].
  - constructor. field.
  - exists "g"%char, (chars "ram"). repeat split; [apply letter_iff; reflexivity|].
    repeat constructor; left; apply letter_iff; reflexivity.
Qed.

Print Assumptions C65_length.
Print Assumptions C65_angle.
Print Assumptions C65_quantity.
Print Assumptions C65_resolve.
Print Assumptions C65_guard_sound.
Print Assumptions C65_guard_complete.
Print Assumptions C65_not_a_unit_refuted.
Print Assumptions C65_second_refuted.
