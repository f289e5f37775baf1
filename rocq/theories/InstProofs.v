(** The names of GDML definitions: lemmas. *)
From Coq Require Import List Bool Arith Lia Ascii String DecimalString DecimalNat.
From Verif Require Import GdmlModel GdmlProofs GdmlLoopModel InstModel InstSpec.
Import ListNotations.
Open Scope char_scope.

Lemma seq_refl : forall a, str_eqb a a = true.
Proof. intros. now apply str_eqb_eq. Qed.
Lemma seq_neq : forall a b, a <> b -> str_eqb a b = false.
Proof. intros a b N. destruct (str_eqb a b) eqn:E; [apply str_eqb_eq in E; contradiction|reflexivity]. Qed.

(** ** Characters *)

Lemma hex_table : forall c, hex_char c = existsb (Ascii.eqb c) (list_ascii_of_string "0123456789abcdefABCDEF").
Proof. intros [[] [] [] [] [] [] [] []]; vm_compute; reflexivity. Qed.
Lemma hex_spec : forall c, hex_char c = true <-> hexadecimal c.
Proof.
  intros c. rewrite hex_table, existsb_exists. unfold hexadecimal. split.
  - intros (x & I & E). apply Ascii.eqb_eq in E. now subst.
  - intros I. exists c. split; [exact I|apply Ascii.eqb_refl].
Qed.
Lemma digit_table : forall c, is_digit c = existsb (Ascii.eqb c) (list_ascii_of_string "0123456789").
Proof. intros [[] [] [] [] [] [] [] []]; vm_compute; reflexivity. Qed.
Lemma digit_spec : forall c, is_digit c = true <-> decimal_digit c.
Proof.
  intros c. rewrite digit_table, existsb_exists. unfold decimal_digit. split.
  - intros (x & I & E). apply Ascii.eqb_eq in E. now subst.
  - intros I. exists c. split; [exact I|apply Ascii.eqb_refl].
Qed.

(** ** rfind *)

Lemma prefix_app : forall p s, prefix_of p (p ++ s) = true.
Proof. induction p as [|a p IH]; intros; cbn; [reflexivity|]. now rewrite Ascii.eqb_refl, IH. Qed.
Lemma prefix_is : forall p s, prefix_of p s = true -> s = p ++ skipn (List.length p) s.
Proof.
  induction p as [|a p IH]; intros [|c s] H; cbn in *; try discriminate; try reflexivity.
  apply andb_prop in H as [A B]. apply Ascii.eqb_eq in A. subst c. f_equal. now apply IH.
Qed.
Lemma rfind_app : forall p a s k, rfind p s = Some k -> rfind p (a ++ s) = Some (List.length a + k)%nat.
Proof. induction a as [|c a IH]; intros s k H; cbn; [exact H|]. now rewrite (IH _ _ H). Qed.
Lemma rfind_found : forall p s k, rfind p s = Some k -> s = firstn k s ++ p ++ skipn (k + List.length p) s.
Proof.
  induction s as [|c s IH]; intros k H.
  - cbn in H. destruct p; cbn in H; [|discriminate]. now injection H as <-.
  - cbn [rfind] in H. destruct (rfind p s) eqn:E.
    + injection H as <-. cbn [firstn skipn app]. cbn [Nat.add skipn]. f_equal. now apply IH.
    + destruct (prefix_of p (c :: s)) eqn:P; [|discriminate]. injection H as <-.
      cbn [firstn app Nat.add]. now apply prefix_is.
Qed.

(** No "cd" in a text without the character d. *)
Lemma rfind_none : forall a d s, (forall c, In c s -> c <> d) -> rfind [a; d] s = None.
Proof.
  induction s as [|c s IH]; intros H; [reflexivity|]. cbn [rfind]. rewrite IH; [|intros; apply H; now right].
  cbn. destruct s as [|e s]; [now rewrite Bool.andb_false_r|].
  destruct (Ascii.eqb d e) eqn:E; [|now rewrite Bool.andb_false_r].
  apply Ascii.eqb_eq in E. subst e. exfalso. apply (H d); [right; now left|reflexivity].
Qed.

Lemma rfind_sep : forall a d n s, (forall c, In c s -> c <> d) -> rfind [a; d] (n ++ [a; d] ++ s) = Some (List.length n).
Proof.
  intros a d n s H. rewrite <- (Nat.add_0_r (List.length n)). apply rfind_app.
  change ([a; d] ++ s) with (a :: d :: s). cbn [rfind].
  rewrite (rfind_none a d s H).
  assert (P : prefix_of [a; d] (d :: s) = false).
  { cbn. destruct s as [|e s]; [now rewrite Bool.andb_false_r|].
    destruct (Ascii.eqb d e) eqn:E; [|now rewrite Bool.andb_false_r].
    apply Ascii.eqb_eq in E. subst e. exfalso. apply (H d); [now left|reflexivity]. }
  rewrite P. cbn. now rewrite !Ascii.eqb_refl.
Qed.

(** ** Suffixes *)

Lemma strip_suffix : forall n b, suffixed n b -> strip true n = b.
Proof.
  intros n b (h & E & F & L & B). unfold strip. cbn [negb].
  change (text "0x") with ["0"; "x"]. change (list_ascii_of_string "0x") with ["0"; "x"] in E.
  assert (R : rfind ["0"; "x"] n = Some (List.length b)).
  { rewrite E. apply rfind_sep. intros c I Q. subst c. rewrite Forall_forall in F. specialize (F _ I).
    apply hex_spec in F. discriminate. }
  rewrite R. destruct (List.length b) as [|p] eqn:LB; [destruct b; [contradiction|discriminate]|].
  rewrite <- LB in *. clear p LB.
  assert (S : skipn (List.length b + 2) n = h).
  { rewrite E. rewrite app_assoc, skipn_app.
    assert (X : List.length (b ++ ["0"; "x"]) = (List.length b + 2)%nat) by (rewrite app_length; reflexivity).
    rewrite <- X, skipn_all, Nat.sub_diag. reflexivity. }
  rewrite S. assert (LN : List.length n = (List.length b + 2 + List.length h)%nat).
  { rewrite E. rewrite !app_length. cbn. lia. }
  rewrite LN. replace (List.length b + 2 + List.length h - (List.length b + 2))%nat with (List.length h) by lia.
  destruct (List.length h <? 7)%nat eqn:Q; [apply Nat.ltb_lt in Q; lia|].
  assert (A : forallb hex_char h = true).
  { apply forallb_forall. intros c I. apply hex_spec. rewrite Forall_forall in F. now apply F. }
  rewrite A. rewrite E, firstn_app, Nat.sub_diag, firstn_all. cbn [firstn]. apply app_nil_r.
Qed.

Lemma strip_changed : forall n, strip true n <> n -> suffixed n (strip true n).
Proof.
  intros n N. unfold strip in *. cbn [negb] in *.
  destruct (rfind (text "0x") n) as [[|p]|] eqn:R; try contradiction.
  destruct (List.length n - (S p + 2) <? 7)%nat eqn:L; [contradiction|]. apply Nat.ltb_ge in L.
  destruct (forallb hex_char (skipn (S p + 2) n)) eqn:F; [|contradiction].
  exists (skipn (S p + 2) n). split; [|split; [|split]].
  - exact (rfind_found _ _ _ R).
  - apply Forall_forall. intros c I. apply hex_spec. rewrite forallb_forall in F. now apply F.
  - rewrite skipn_length. exact L.
  - destruct n; [cbn in L; lia|]. discriminate.
Qed.

Lemma strip_base : forall en n, base en n (strip en n).
Proof.
  intros [|] n.
  - destruct (list_eq_dec ascii_dec (strip true n) n) as [E|E].
    + right. split; [exact E|]. intros _ c S. pose proof (strip_suffix _ _ S) as X. rewrite E in X. subst c.
      destruct S as (h & Q & _ & _ & _). apply (f_equal (@List.length ascii)) in Q. rewrite !app_length in Q. cbn in Q. lia.
    + left. split; [reflexivity|now apply strip_changed].
  - right. split; [reflexivity|discriminate].
Qed.
Lemma base_strip : forall en n b, base en n b <-> strip en n = b.
Proof.
  intros en n b. split.
  - intros [[-> S]|[-> S]]; [now apply strip_suffix|]. destruct en; [|reflexivity].
    destruct (list_eq_dec ascii_dec (strip true n) n) as [E|E]; [exact E|].
    exfalso. exact (S eq_refl _ (strip_changed _ E)).
  - intros <-. apply strip_base.
Qed.

Lemma strip_cons : forall en n, strip en n <> n -> strip en n <> [] /\ exists h, n = strip en n ++ ["0"; "x"] ++ h.
Proof.
  intros [|] n N; [|contradiction]. destruct (strip_changed _ N) as (h & E & _ & _ & B). split; [exact B|now exists h].
Qed.

(** ** Numbers *)

Lemma chars_digits : forall u, Forall decimal_digit (list_ascii_of_string (NilEmpty.string_of_uint u)).
Proof.
  induction u; cbn [NilEmpty.string_of_uint list_ascii_of_string]; constructor; try assumption;
    apply digit_spec; reflexivity.
Qed.
Lemma decimal_digits : forall k, Forall decimal_digit (decimal k).
Proof. intros. apply chars_digits. Qed.
Lemma number_decimal : forall k, number (decimal k) = k.
Proof.
  intros k. unfold number, decimal. rewrite string_of_list_ascii_of_string, NilEmpty.usu. apply Unsigned.of_to.
Qed.
Lemma decimal_some : forall k, decimal (S k) <> [].
Proof. intros k E. pose proof (number_decimal (S k)) as X. rewrite E in X. cbn in X. discriminate. Qed.
Lemma decimal_inj : forall i j, decimal i = decimal j -> i = j.
Proof. intros i j E. rewrite <- (number_decimal i), <- (number_decimal j). now rewrite E. Qed.

Lemma digits_sep : forall n s, Forall decimal_digit s -> rfind ["_"; "_"] (n ++ ["_"; "_"] ++ s) = Some (List.length n).
Proof.
  intros n s F. apply rfind_sep. intros c I Q. subst c. rewrite Forall_forall in F. specialize (F _ I).
  apply digit_spec in F. discriminate.
Qed.

Lemma flat_numbered : forall n i, numbered n (flat n i).
Proof. intros. exists (decimal (S i)). split; [reflexivity|split; [apply decimal_some|apply decimal_digits]]. Qed.

Lemma flat_parts : forall n i m j, flat n i = flat m j -> n = m /\ i = j.
Proof.
  intros n i m j E. unfold flat in E. change (text "__") with ["_"; "_"] in E.
  pose proof (digits_sep n _ (decimal_digits (S i))) as A. pose proof (digits_sep m _ (decimal_digits (S j))) as B.
  rewrite E, B in A. injection A as A.
  assert (X : firstn (List.length n) (n ++ ["_"; "_"] ++ decimal (S i)) = firstn (List.length m) (m ++ ["_"; "_"] ++ decimal (S j))).
  { now rewrite E, A. }
  rewrite !firstn_app, !Nat.sub_diag, !firstn_all in X. cbn [firstn] in X. rewrite !app_nil_r in X. subst m.
  apply app_inv_head in E. apply app_inv_head in E. apply decimal_inj in E. split; [reflexivity|lia].
Qed.

Lemma parse_back : forall n i, n <> [] -> parse_flat (flat n i) = Some (n, i).
Proof.
  intros n i N. unfold parse_flat, flat. change (text "__") with ["_"; "_"].
  rewrite (digits_sep n _ (decimal_digits (S i))).
  destruct (List.length n) as [|p] eqn:L; [destruct n; [contradiction|discriminate]|]. rewrite <- L. clear p L.
  assert (S : skipn (List.length n + 2) (n ++ ["_"; "_"] ++ decimal (S i)) = decimal (S i)).
  { rewrite app_assoc, skipn_app.
    assert (X : List.length (n ++ ["_"; "_"]) = (List.length n + 2)%nat) by (rewrite app_length; reflexivity).
    rewrite <- X, skipn_all, Nat.sub_diag. reflexivity. }
  rewrite S. assert (D : (List.length (n ++ ["_"; "_"] ++ decimal (Datatypes.S i)) <=? List.length n + 2)%nat = false).
  { apply Nat.leb_gt. rewrite !app_length. cbn [List.length].
    pose proof (decimal_some i) as Q. destruct (decimal (Datatypes.S i)); [contradiction|]. cbn. lia. }
  rewrite D. assert (A : forallb is_digit (decimal (Datatypes.S i)) = true).
  { apply forallb_forall. intros c I. apply digit_spec. pose proof (decimal_digits (Datatypes.S i)) as F.
    rewrite Forall_forall in F. now apply F. }
  rewrite A, number_decimal. f_equal. f_equal. rewrite firstn_app, Nat.sub_diag, firstn_all. cbn [firstn]. apply app_nil_r.
Qed.
