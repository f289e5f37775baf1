(** Lemmas on the evaluation of GDML expressions. *)
From Coq Require Import List Bool Arith ZArith Ascii String Lia.
From Verif Require Import GdmlModel GdmlSpec.
Import ListNotations.
Open Scope char_scope.

Scheme Expr_m := Minimality for Expr Sort Prop
with Term_m := Minimality for Term Sort Prop
with Factor_m := Minimality for Factor Sort Prop
with Base_m := Minimality for Base Sort Prop.
Combined Scheme grammar_ind from Expr_m, Term_m, Factor_m, Base_m.

(** ** Characters *)

Lemma digit_iff : forall c, digit c <-> is_digit c = true.
Proof.
  intros c. split.
  - intros H. unfold digit in H. cbn in H. intuition subst; reflexivity.
  - destruct c as [[|] [|] [|] [|] [|] [|] [|] [|]]; cbn; intros H; try discriminate H; unfold digit; cbn; tauto.
Qed.

Lemma letter_iff : forall c, letter c <-> ident_start c = true.
Proof.
  intros c. split.
  - intros H. unfold letter in H. cbn in H. intuition subst; reflexivity.
  - destruct c as [[|] [|] [|] [|] [|] [|] [|] [|]]; cbn; intros H; try discriminate H; unfold letter; cbn; tauto.
Qed.

Lemma ident_iff : forall c, (letter c \/ digit c) <-> ident_char c = true.
Proof.
  intros c. rewrite letter_iff, digit_iff. unfold ident_char, ident_start.
  rewrite !orb_true_iff. tauto.
Qed.

Lemma white_iff : forall c, white c <-> blank c = true.
Proof.
  intros c. unfold white, blank. rewrite !orb_true_iff, !Ascii.eqb_eq. tauto.
Qed.

Lemma fold_lower : forall c, fold_case c = lower c.
Proof. destruct c as [[|] [|] [|] [|] [|] [|] [|] [|]]; reflexivity. Qed.

Lemma str_eqb_eq : forall a b, str_eqb a b = true <-> a = b.
Proof.
  induction a as [|x a IH]; destruct b as [|y b]; cbn; split; try discriminate; auto.
  - rewrite andb_true_iff, Ascii.eqb_eq, IH. intros [-> ->]; reflexivity.
  - intros [= -> ->]. rewrite andb_true_iff, Ascii.eqb_eq, IH. auto.
Qed.

(** A letter is no other kind of character. *)
Lemma letter_kind : forall c, ident_start c = true ->
  blank c = false /\ Ascii.eqb c "(" = false /\ Ascii.eqb c ")" = false /\ Ascii.eqb c "," = false /\
  op_char c = false /\ is_digit c = false /\ Ascii.eqb c "." = false /\ space c = false.
Proof.
  destruct c as [[|] [|] [|] [|] [|] [|] [|] [|]]; cbn; intros H; try discriminate H; repeat split; reflexivity.
Qed.

Lemma digit_kind : forall c, (is_digit c || Ascii.eqb c ".") = true ->
  blank c = false /\ Ascii.eqb c "(" = false /\ Ascii.eqb c ")" = false /\ Ascii.eqb c "," = false /\
  op_char c = false /\ space c = false /\ Ascii.eqb c "+" = false /\ Ascii.eqb c "-" = false.
Proof.
  destruct c as [[|] [|] [|] [|] [|] [|] [|] [|]]; cbn; intros H; try discriminate H; repeat split; reflexivity.
Qed.

(** ** take_while *)

Lemma take_all : forall f a s, forallb f a = true -> match s with c :: _ => f c = false | [] => True end ->
  take_while f (a ++ s) = a /\ drop_while f (a ++ s) = s.
Proof.
  induction a as [|c a IH]; cbn; intros s H1 H2.
  - destruct s as [|c s]; [auto|]. cbn. rewrite H2. auto.
  - apply andb_true_iff in H1 as [E H1]. rewrite E. destruct (IH s H1 H2) as [-> ->]. auto.
Qed.

Lemma take_drop : forall f s, take_while f s ++ drop_while f s = s.
Proof. induction s as [|c s IH]; cbn; auto. destruct (f c); cbn; congruence. Qed.

Lemma take_forall : forall f s, forallb f (take_while f s) = true.
Proof. induction s as [|c s IH]; cbn; auto. destruct (f c) eqn:E; cbn; auto. now rewrite E. Qed.

Lemma drop_head : forall f s, match drop_while f s with c :: _ => f c = false | [] => True end.
Proof. induction s as [|c s IH]; cbn; auto. destruct (f c) eqn:E; auto. Qed.

Lemma forall_digits : forall a, Forall digit a <-> forallb is_digit a = true.
Proof.
  intros a. rewrite forallb_forall, Forall_forall. split; intros H x Hx; apply digit_iff; auto.
Qed.

Lemma ident_forall : forall a, Forall (fun c => letter c \/ digit c) a <-> forallb ident_char a = true.
Proof.
  intros a. rewrite forallb_forall, Forall_forall. split; intros H x Hx; apply ident_iff; auto.
Qed.

Lemma identifier_chars : forall x, identifier x ->
  exists c r, x = c :: r /\ ident_start c = true /\ forallb ident_char x = true.
Proof.
  intros x (c & r & -> & H1 & H2). exists c, r. split; [reflexivity|]. split; [now apply letter_iff|].
  cbn. rewrite (proj1 (ident_iff c)) by auto. now apply ident_forall.
Qed.

Lemma stops_name_head : forall s, stops_name s -> match s with c :: _ => ident_char c = false | [] => True end.
Proof.
  destruct s as [|c s]; cbn; auto. intros [H1 H2]. destruct (ident_char c) eqn:E; auto.
  apply ident_iff in E. tauto.
Qed.

Lemma stops_number_head : forall s, stops_number s ->
  match s with c :: _ => ident_char c = false /\ Ascii.eqb c "." = false | [] => True end.
Proof.
  destruct s as [|c s]; cbn; auto. intros (H1 & H2 & H3). split.
  - destruct (ident_char c) eqn:E; auto. apply ident_iff in E. tauto.
  - now apply Ascii.eqb_neq.
Qed.

(** ** strtod on numerals *)

Lemma not_ident_digit : forall c, ident_char c = false -> is_digit c = false.
Proof. intros c. unfold ident_char. rewrite !orb_false_iff. tauto. Qed.

Lemma mantissa_numeral : forall whole frac rest,
  forallb is_digit whole = true ->
  (frac = [] \/ exists d, frac = "." :: d /\ forallb is_digit d = true) ->
  (whole <> [] \/ exists x d, frac = "." :: x :: d) ->
  match rest with c :: _ => is_digit c = false /\ Ascii.eqb c "." = false | [] => True end ->
  mantissa_len is_digit (whole ++ frac ++ rest) = List.length (whole ++ frac).
Proof.
  intros whole frac rest H1 H2 H3 H4. unfold mantissa_len.
  destruct H2 as [->|(d & -> & H2)].
  - cbn [app]. rewrite app_nil_r.
    destruct (take_all is_digit whole rest H1) as [-> ->]; [destruct rest; tauto|].
    destruct rest as [|c rest]; auto. destruct H4 as [_ H4].
    destruct c as [[|] [|] [|] [|] [|] [|] [|] [|]]; try reflexivity. discriminate H4.
  - destruct (take_all is_digit whole (("." :: d) ++ rest) H1) as [-> ->]; [reflexivity|].
    cbn [app]. destruct (take_all is_digit d rest H2) as [-> _]; [destruct rest; tauto|].
    rewrite app_length. cbn [List.length].
    destruct (Nat.eqb_spec (List.length whole + List.length d) 0) as [E|E]; [|lia].
    exfalso. destruct H3 as [H3|(x & d' & H3)].
    + destruct whole; [congruence|cbn in E; lia].
    + injection H3 as ->. cbn in E. lia.
Qed.

Lemma skipn_app_length : forall A (a b : list A), skipn (List.length a) (a ++ b) = b.
Proof. induction a; cbn; auto. Qed.

Lemma firstn_app_length : forall A (a b : list A), firstn (List.length a) (a ++ b) = a.
Proof. induction a; cbn; intros; f_equal; auto. Qed.

Lemma exponent_numeral : forall expo rest,
  (expo = [] \/ exists m sign x d, expo = m :: sign ++ x :: d /\ (m = "e" \/ m = "E") /\
       (sign = [] \/ sign = ["+"] \/ sign = ["-"]) /\ Forall digit (x :: d)) ->
  match rest with c :: _ => ident_char c = false | [] => True end ->
  exponent_len "e" "E" (expo ++ rest) = List.length expo.
Proof.
  intros expo rest [->|(m & sign & x & d & -> & Hm & Hs & Hd)] H.
  - cbn [app]. destruct rest as [|c rest]; auto. unfold exponent_len.
    destruct (Ascii.eqb c "e" || Ascii.eqb c "E") eqn:E; auto.
    apply orb_true_iff in E as [E|E]; apply Ascii.eqb_eq in E; subst c; discriminate H.
  - apply forall_digits in Hd.
    assert (HR : match rest with c :: _ => is_digit c = false | [] => True end)
      by (destruct rest; auto; now apply not_ident_digit).
    assert (HL : digits_len ((x :: d) ++ rest) = S (List.length d)).
    { unfold digits_len. destruct (take_all is_digit (x :: d) rest Hd HR) as [-> _]. reflexivity. }
    assert (Hm' : (Ascii.eqb m "e" || Ascii.eqb m "E") = true) by (destruct Hm; subst; reflexivity).
    assert (Hx : is_digit x = true) by (cbn in Hd; now apply andb_true_iff in Hd as [? _]).
    cbn [app exponent_len]. rewrite Hm'.
    destruct Hs as [->|[->| ->]]; cbn [app].
    + destruct (digit_kind x) as (_ & _ & _ & _ & _ & _ & E1 & E2); [rewrite Hx; reflexivity|].
      rewrite E1, E2. cbn [orb]. rewrite <- app_comm_cons in HL || idtac. cbn [app] in HL. rewrite HL. reflexivity.
    + cbn [app] in HL. cbn [Ascii.eqb]. change (Ascii.eqb "+" "+" || Ascii.eqb "+" "-") with true. rewrite HL. reflexivity.
    + cbn [app] in HL. change (Ascii.eqb "-" "+" || Ascii.eqb "-" "-") with true. rewrite HL. reflexivity.
Qed.

Lemma decimal_numeral : forall lit rest, numeral lit -> stops_number rest ->
  decimal_len (lit ++ rest) = List.length lit.
Proof.
  intros lit rest (whole & frac & expo & -> & H1 & H2 & H3 & H4) HR.
  apply stops_number_head in HR.
  unfold decimal_len. apply forall_digits in H1.
  assert (HM : mantissa_len is_digit ((whole ++ frac ++ expo) ++ rest) = List.length (whole ++ frac)).
  { rewrite <- !app_assoc. apply mantissa_numeral; auto.
    - destruct H2 as [?|(d & ? & ?)]; [auto|right; exists d; split; auto; now apply forall_digits].
    - destruct H4 as [->|(m & sign & x & d & -> & Hm & _)]; cbn [app].
      + destruct rest as [|c rest]; auto. destruct HR as [HR1 HR2]. split; auto. now apply not_ident_digit.
      + destruct Hm; subst m; split; reflexivity. }
  rewrite HM.
  destruct (Nat.eqb_spec (List.length (whole ++ frac)) 0) as [E|E].
  - exfalso. rewrite app_length in E. destruct H3 as [H3|(x & d & ->)].
    + destruct whole; [congruence|cbn in E; lia].
    + cbn in E; lia.
  - rewrite !app_assoc. rewrite <- (app_assoc (whole ++ frac)). rewrite skipn_app_length.
    rewrite exponent_numeral; auto.
    + rewrite <- !app_assoc, !app_length. lia.
    + destruct rest; tauto.
Qed.

Lemma numeral_head : forall lit, numeral lit -> exists c r, lit = c :: r /\ (is_digit c || Ascii.eqb c ".") = true.
Proof.
  intros lit (whole & frac & expo & -> & H1 & H2 & H3 & H4).
  destruct whole as [|c whole].
  - destruct H3 as [H3|(x & d & ->)]; [congruence|]. cbn [app]. eexists _, _. split; [reflexivity|reflexivity].
  - cbn [app]. eexists _, _. split; [reflexivity|]. inversion H1; subst. rewrite (proj1 (digit_iff c)); auto.
Qed.

(** No numeral has an x as second character. *)
Lemma numeral_second : forall c x r, numeral (c :: x :: r) -> Ascii.eqb x "x" = false /\ Ascii.eqb x "X" = false.
Proof.
  intros c x r (whole & frac & expo & E & H1 & H2 & H3 & H4).
  assert (D : is_digit x = true \/ x = "." \/ x = "e" \/ x = "E" ).
  { destruct whole as [|w1 [|w2 whole]]; cbn [app] in E.
    - destruct H3 as [H3|(y & d & ->)]; [congruence|]. injection E as -> -> _.
      destruct H2 as [H2|(d' & [= <-] & H2)]; [discriminate H2|]. inversion H2; subst. left. now apply digit_iff.
    - injection E as -> E. destruct H2 as [->|(d & -> & H2)]; cbn [app] in E.
      + destruct H4 as [->|(m & sign & y & d & -> & Hm & _)]; [discriminate E|].
        cbn [app] in E. injection E as -> _. destruct Hm; subst; auto.
      + injection E as -> _. auto.
    - injection E as -> -> _. inversion H1 as [|? ? _ H1']; subst. inversion H1'; subst. left. now apply digit_iff. }
  destruct D as [D|[-> | [-> | ->]]]; try (split; reflexivity).
  destruct x as [[|] [|] [|] [|] [|] [|] [|] [|]]; try discriminate D; split; reflexivity.
Qed.

Lemma unsigned_numeral : forall lit rest, numeral lit -> stops_number rest ->
  unsigned_len (lit ++ rest) = List.length lit.
Proof.
  intros lit rest H HR. pose proof (decimal_numeral lit rest H HR) as HD.
  destruct (numeral_head lit H) as (c & r & -> & Hc).
  unfold unsigned_len. cbn [app] in *.
  destruct (r ++ rest) as [|x q] eqn:E; auto.
  assert (Hx : Ascii.eqb x "x" = false /\ Ascii.eqb x "X" = false).
  { destruct r as [|y r]; cbn [app] in E.
    - subst rest. apply stops_number_head in HR as [HR _].
      destruct x as [[|] [|] [|] [|] [|] [|] [|] [|]]; try discriminate HR; split; reflexivity.
    - injection E as -> _. eapply numeral_second; eauto. }
  destruct Hx as [-> ->]. rewrite andb_false_r. rewrite Hc. exact HD.
Qed.

Lemma strtod_numeral : forall lit rest, numeral lit -> stops_number rest ->
  strtod_len (lit ++ rest) = List.length lit.
Proof.
  intros lit rest H HR. pose proof (unsigned_numeral lit rest H HR) as HU.
  destruct (numeral_head lit H) as (c & r & -> & Hc).
  destruct (digit_kind c Hc) as (_ & _ & _ & _ & _ & Hs & E1 & E2).
  unfold strtod_len. cbn [app] in *. cbn [take_while drop_while]. rewrite Hs, E1, E2. cbn [orb].
  rewrite HU. cbn [List.length]. reflexivity.
Qed.

Section Eval.
Variable V : Type.
Variable num : list ascii -> V.
Variable erange : list ascii -> bool.
Variable vadd vsub vmul vdiv vpow : V -> V -> V.
Variable vneg : V -> V.
Variable is_zero : V -> bool.
Variable lib1 : list ascii -> V -> V.
Variable lib2 : list ascii -> V -> V -> V.
Variable to_int : V -> Z.
Variable constants : list ascii -> option V.

Notation means := (means V num vadd vsub vmul vdiv vpow vneg (fun v => is_zero v = true) lib1 lib2 constants).
Notation tokenize := (tokenize V num to_int constants).
Notation rpn_run := (rpn V vadd vsub vmul vdiv vpow vneg is_zero lib1 lib2).
Notation evaluate := (evaluate_tokens V vadd vsub vmul vdiv vpow vneg is_zero lib1 lib2).
Notation eval := (eval V num erange vadd vsub vmul vdiv vpow vneg is_zero lib1 lib2 to_int constants).

(** ** From symbols to tokens *)

Definition signed (c : ascii) (acc : list (token V)) : list (token V) :=
  if prefix_position V acc then (if Ascii.eqb c "-" then UNARY_NEG :: acc else acc) else OP c :: acc.

Fixpoint conv (l : list sym) (acc : list (token V)) : result (list (token V)) :=
  match l with
  | [] => Val (rev acc)
  | SNum lit :: l => conv l (NUM (num lit) :: acc)
  | SVar x :: l => match constants x with Some v => conv l (NUM v :: acc) | None => Thrown end
  | SFun f :: l => conv l (FUNC f 1 :: acc)
  | SAdd :: l => conv l (signed "+" acc)
  | SSub :: l => conv l (signed "-" acc)
  | SMul :: l => conv l (OP "*" :: acc)
  | SDiv :: l => conv l (OP "/" :: acc)
  | SPow :: l => conv l (OP "^" :: acc)
  | SOpen :: l => conv l (LPAREN :: acc)
  | SClose :: l => conv l (RPAREN :: acc)
  | SComma :: l => conv l (COMMA :: acc)
  end.

(** Behind a name no parenthesis or bracket follows. *)
Lemma spell_next : forall l s, spell l s -> (forall l', l <> SOpen :: l') ->
  match drop_while tab s with c :: _ => Ascii.eqb c "(" = false /\ Ascii.eqb c "[" = false | [] => True end.
Proof.
  intros l s H. induction H; intros N; try (cbn; split; reflexivity); try exact Logic.I.
  - cbn [drop_while]. destruct (tab c) eqn:E; [apply IHspell; auto|].
    destruct H as [-> | [-> | [-> | ->]]]; split; reflexivity.
  - destruct (numeral_head lit H) as (c & r & -> & Hc). destruct (digit_kind c Hc) as (Hb & H2 & _).
    cbn [app drop_while].
    assert (E : tab c = false) by (unfold blank, tab in *; rewrite !orb_false_iff in *; tauto).
    rewrite E. split; [exact H2|].
    destruct c as [[|] [|] [|] [|] [|] [|] [|] [|]]; try discriminate Hc; reflexivity.
  - destruct (identifier_chars x H) as (c & r & -> & Hc & _). destruct (letter_kind c Hc) as (Hb & H3 & _).
    cbn [app drop_while].
    assert (E : tab c = false) by (unfold blank, tab in *; rewrite !orb_false_iff in *; tauto).
    rewrite E. split; [exact H3|].
    destruct c as [[|] [|] [|] [|] [|] [|] [|] [|]]; try discriminate Hc; reflexivity.
  - destruct (identifier_chars f H) as (c & r & -> & Hc & _). destruct (letter_kind c Hc) as (Hb & H3 & _).
    cbn [app drop_while].
    assert (E : tab c = false) by (unfold blank, tab in *; rewrite !orb_false_iff in *; tauto).
    rewrite E. split; [exact H3|].
    destruct c as [[|] [|] [|] [|] [|] [|] [|] [|]]; try discriminate Hc; reflexivity.
  - exfalso. exact (N l eq_refl).
Qed.

Lemma signed_step : forall fuel ev m c s acc, (c = "-" \/ c = "+") ->
  tokenize (S fuel) ev m (c :: s) acc = tokenize fuel ev m s (signed c acc).
Proof.
  intros fuel ev m c s acc H. unfold signed.
  destruct H; subst c; cbn [GdmlModel.tokenize blank op_char Ascii.eqb Bool.eqb orb andb];
    destruct (prefix_position V acc); reflexivity.
Qed.

Lemma gap_drop : forall gap s, Forall (fun c => c = " " \/ c = "009") gap ->
  drop_while tab (gap ++ "(" :: s) = "(" :: s.
Proof.
  induction gap as [|c gap IH]; intros s H; cbn; auto. inversion H; subst.
  destruct H2; subst c; cbn; auto.
Qed.

Lemma gap_tokens : forall gap s fuel ev m acc, Forall (fun c => c = " " \/ c = "009") gap ->
  tokenize (List.length gap + S fuel) ev m (gap ++ "(" :: s) acc = tokenize fuel ev m s (LPAREN :: acc).
Proof.
  induction gap as [|c gap IH]; intros s fuel ev m acc H; [reflexivity|].
  inversion H; subst. cbn [List.length Nat.add app].
  rewrite <- IH with (acc := acc) by assumption.
  destruct H2; subst c; reflexivity.
Qed.

(** More fuel does not change the result. *)
Lemma tokenize_more : forall fuel ev m s acc r k, tokenize fuel ev m s acc = Some r ->
  tokenize (fuel + k) ev m s acc = Some r.
Proof.
  induction fuel as [|fuel IH]; intros ev m s acc r k H; [discriminate H|].
  cbn [Nat.add]. cbn [GdmlModel.tokenize] in *.
  destruct s as [|c s]; [exact H|].
  destruct (blank c); [now apply IH|].
  destruct (Ascii.eqb c "("); [now apply IH|].
  destruct (Ascii.eqb c ")"); [now apply IH|].
  destruct (Ascii.eqb c ","); [now apply IH|].
  destruct (op_char c).
  { cbv zeta in *. destruct (_ && Ascii.eqb c "-"); [now apply IH|]. destruct (_ && Ascii.eqb c "+"); now apply IH. }
  destruct (is_digit c || Ascii.eqb c "."); [cbv zeta in *; now apply IH|].
  destruct (ident_start c); [|exact H]. cbv zeta in *.
  set (nm := take_while ident_char (c :: s)) in *. set (rest := drop_while ident_char (c :: s)) in *.
  assert (K : forall k, match constants nm with Some v => tokenize fuel ev m rest (NUM v :: acc) | None => Some Thrown end = Some r ->
     match constants nm with Some v => tokenize (fuel + k) ev m rest (NUM v :: acc) | None => Some Thrown end = Some r).
  { intros k0. destruct (constants nm); auto. }
  destruct (drop_while tab rest) as [|b body]; [now apply K|].
  destruct b as [[|] [|] [|] [|] [|] [|] [|] [|]]; try (now apply K); try (now apply IH).
  destruct (m nm) as [[coldim vals]|]; [|exact H].
  destruct (scan_bracket body 1 0 None) as [[fin [comma|]]|]; [| |exact H].
  - destruct (ev (firstn comma body)) as [[row|]|]; try exact H.
    destruct (ev (firstn (fin - comma - 1) (skipn (S comma) body))) as [[col|]|]; try exact H.
    destruct (entry V vals _); [now apply IH|exact H].
  - destruct (ev (firstn fin body)) as [[row|]|]; try exact H.
    destruct (entry V vals _); [now apply IH|exact H].
Qed.

Lemma tokenize_spell : forall l s, spell l s -> forall ev m acc,
  tokenize (S (List.length s)) ev m s acc = Some (conv l acc).
Proof.
  intros l s H. induction H; intros ev m acc.
  - reflexivity.
  - cbn [List.length]. cbn [GdmlModel.tokenize] in IHspell |- *. apply white_iff in H. rewrite H. apply IHspell.
  - rewrite app_length. destruct (numeral_head lit H) as (c & r & Hl & Hc).
    assert (Hk : strtod_len (lit ++ s) = List.length lit) by now apply strtod_numeral.
    cbn [conv]. specialize (IHspell ev m (NUM (num lit) :: acc)).
    destruct (digit_kind c Hc) as (E1 & E2 & E3 & E4 & E5 & _).
    assert (E : tokenize (S (List.length lit + List.length s)) ev m (lit ++ s) acc
            = tokenize (List.length lit + List.length s) ev m s (NUM (num lit) :: acc)).
    { rewrite Hl in Hk |- *. cbn [app] in Hk |- *. cbn [GdmlModel.tokenize]. rewrite E1, E2, E3, E4, E5, Hc.
      cbv zeta. rewrite Hk. change (c :: r ++ s) with ((c :: r) ++ s).
      rewrite skipn_app_length, firstn_app_length. reflexivity. }
    rewrite E. replace (List.length lit + List.length s) with (S (List.length s) + List.length r) by (rewrite Hl; cbn; lia).
    exact (tokenize_more (S (List.length s)) ev m s _ _ (List.length r) IHspell).
  - rewrite app_length. destruct (identifier_chars x H) as (c & r & Hl & Hc & Hx).
    destruct (letter_kind c Hc) as (E1 & E2 & E3 & E4 & E5 & E6 & E7 & _).
    destruct (take_all ident_char x s Hx (stops_name_head s H0)) as [T1 T2].
    pose proof (spell_next l s H2 H1) as N. cbn [conv].
    assert (E : tokenize (S (List.length x + List.length s)) ev m (x ++ s) acc
            = match constants x with
              | Some v => tokenize (List.length x + List.length s) ev m s (NUM v :: acc)
              | None => Some Thrown
              end).
    { rewrite Hl in T1, T2 |- *. cbn [app] in T1, T2 |- *. cbn [GdmlModel.tokenize]. rewrite E1, E2, E3, E4, E5, E6, E7.
      cbn [orb]. rewrite Hc. cbv zeta. rewrite T1, T2.
      destruct (drop_while tab s) as [|b q]; [reflexivity|].
      destruct N as [N1 N2].
      destruct b as [[|] [|] [|] [|] [|] [|] [|] [|]]; try discriminate N1; try discriminate N2; reflexivity. }
    rewrite E. destruct (constants x) as [v|]; [|reflexivity].
    replace (List.length x + List.length s) with (S (List.length s) + List.length r) by (rewrite Hl; cbn; lia).
    apply tokenize_more, IHspell.
  - rewrite !app_length. cbn [List.length]. destruct (identifier_chars f H) as (c & r & Hl & Hc & Hx).
    destruct (letter_kind c Hc) as (E1 & E2 & E3 & E4 & E5 & E6 & E7 & _).
    assert (HS : match gap ++ "(" :: s with c :: _ => ident_char c = false | [] => True end).
    { destruct gap as [|g gap]; [reflexivity|]. cbn. inversion H0; subst. destruct H4; subst g; reflexivity. }
    destruct (take_all ident_char f (gap ++ "(" :: s) Hx HS) as [T1 T2].
    cbn [conv].
    assert (E : tokenize (S (List.length f + (List.length gap + S (List.length s)))) ev m (f ++ gap ++ "(" :: s) acc
            = tokenize (List.length f + (List.length gap + S (List.length s))) ev m (gap ++ "(" :: s) (FUNC f 1 :: acc)).
    { rewrite Hl in T1, T2 |- *. cbn [app] in T1, T2 |- *. cbn [GdmlModel.tokenize]. rewrite E1, E2, E3, E4, E5, E6, E7.
      cbn [orb]. rewrite Hc. cbv zeta. rewrite T1, T2.
      rewrite gap_drop by assumption. reflexivity. }
    rewrite E.
    replace (List.length f + (List.length gap + S (List.length s)))
      with ((List.length gap + S (S (List.length s))) + List.length r) by (rewrite Hl; cbn; lia).
    apply tokenize_more. rewrite gap_tokens by assumption. apply IHspell.
  - cbn [List.length]. rewrite signed_step by auto. cbn [conv]. apply IHspell.
  - cbn [List.length]. rewrite signed_step by auto. cbn [conv]. apply IHspell.
  - exact (IHspell ev m (OP "*" :: acc)).
  - exact (IHspell ev m (OP "/" :: acc)).
  - exact (IHspell ev m (OP "^" :: acc)).
  - exact (IHspell ev m (LPAREN :: acc)).
  - exact (IHspell ev m (RPAREN :: acc)).
  - exact (IHspell ev m (COMMA :: acc)).
Qed.

(** ** Tokens of expressions *)

Definition leaf (e : ast) : option V :=
  match e with Num lit => Some (num lit) | Var x => constants x | _ => None end.

Inductive TE : list (token V) -> ast -> Prop :=
| TE_term l e : TT l e -> TE l e
| TE_add a b x y : TE a x -> TT b y -> TE (a ++ OP "+" :: b) (Bin Add x y)
| TE_sub a b x y : TE a x -> TT b y -> TE (a ++ OP "-" :: b) (Bin Sub x y)
with TT : list (token V) -> ast -> Prop :=
| TT_factor l e : TF l e -> TT l e
| TT_mul a b x y : TT a x -> TF b y -> TT (a ++ OP "*" :: b) (Bin Mul x y)
| TT_div a b x y : TT a x -> TF b y -> TT (a ++ OP "/" :: b) (Bin Div x y)
with TF : list (token V) -> ast -> Prop :=
| TF_base l e : TB l e -> TF l e
| TF_neg l e : TF l e -> TF (UNARY_NEG :: l) (Neg e)
| TF_pow a b x y : TB a x -> TF b y -> TF (a ++ OP "^" :: b) (Bin Pow x y)
with TB : list (token V) -> ast -> Prop :=
| TB_leaf e v : leaf e = Some v -> TB [NUM v] e
| TB_paren l e : TE l e -> TB (LPAREN :: l ++ [RPAREN]) e
| TB_call1 f l e : TE l e -> TB (FUNC f 1 :: LPAREN :: l ++ [RPAREN]) (Call1 f e)
| TB_call2 f a b x y : TE a x -> TE b y ->
    TB (FUNC f 1 :: LPAREN :: a ++ COMMA :: b ++ [RPAREN]) (Call2 f x y).

Scheme TE_m := Minimality for TE Sort Prop
with TT_m := Minimality for TT Sort Prop
with TF_m := Minimality for TF Sort Prop
with TB_m := Minimality for TB Sort Prop.
Combined Scheme token_ind from TE_m, TT_m, TF_m, TB_m.

Fixpoint known (e : ast) : Prop :=
  match e with
  | Num _ => True
  | Var x => constants x <> None
  | Neg a => known a
  | Bin _ a b => known a /\ known b
  | Call1 _ a => known a
  | Call2 _ a b => known a /\ known b
  end.

Lemma known_dec : forall e, known e \/ ~ known e.
Proof.
  induction e; cbn; try tauto. destruct (constants x); [left; discriminate|right; congruence].
Qed.

Definition conv_ok (P : list (token V) -> ast -> Prop) (l : list sym) (e : ast) : Prop :=
  known e -> exists ts, P ts e /\
    (forall acc, prefix_position V (rev ts ++ acc) = false) /\
    forall rest acc, prefix_position V acc = true -> conv (l ++ rest) acc = conv rest (rev ts ++ acc).

Ltac revs := repeat (rewrite ?rev_app_distr, <- ?app_assoc; cbn [rev app]).

Lemma conv_grammar :
  (forall l e, Expr l e -> conv_ok TE l e) /\ (forall l e, Term l e -> conv_ok TT l e) /\
  (forall l e, Factor l e -> conv_ok TF l e) /\ (forall l e, Base l e -> conv_ok TB l e).
Proof.
  apply grammar_ind; unfold conv_ok.
  - intros l e _ IH K. destruct (IH K) as (ts & H1 & H2 & H3). exists ts. split; [now constructor|auto].
  - intros a b x y _ IHa _ IHb [Ka Kb]. destruct (IHa Ka) as (ta & A1 & A2 & A3).
    destruct (IHb Kb) as (tb & B1 & B2 & B3). exists (ta ++ OP "+" :: tb).
    split; [now constructor|]. split; [intros acc; revs; apply B2|].
    intros rest acc P. rewrite <- app_assoc, A3 by assumption. cbn [app conv]. unfold signed. rewrite A2.
    rewrite B3 by reflexivity. revs. reflexivity.
  - intros a b x y _ IHa _ IHb [Ka Kb]. destruct (IHa Ka) as (ta & A1 & A2 & A3).
    destruct (IHb Kb) as (tb & B1 & B2 & B3). exists (ta ++ OP "-" :: tb).
    split; [now constructor|]. split; [intros acc; revs; apply B2|].
    intros rest acc P. rewrite <- app_assoc, A3 by assumption. cbn [app conv]. unfold signed. rewrite A2.
    rewrite B3 by reflexivity. revs. reflexivity.
  - intros l e _ IH K. destruct (IH K) as (ts & H1 & H2 & H3). exists ts. split; [now constructor|auto].
  - intros a b x y _ IHa _ IHb [Ka Kb]. destruct (IHa Ka) as (ta & A1 & A2 & A3).
    destruct (IHb Kb) as (tb & B1 & B2 & B3). exists (ta ++ OP "*" :: tb).
    split; [now constructor|]. split; [intros acc; revs; apply B2|].
    intros rest acc P. rewrite <- app_assoc, A3 by assumption. cbn [app conv].
    rewrite B3 by reflexivity. revs. reflexivity.
  - intros a b x y _ IHa _ IHb [Ka Kb]. destruct (IHa Ka) as (ta & A1 & A2 & A3).
    destruct (IHb Kb) as (tb & B1 & B2 & B3). exists (ta ++ OP "/" :: tb).
    split; [now constructor|]. split; [intros acc; revs; apply B2|].
    intros rest acc P. rewrite <- app_assoc, A3 by assumption. cbn [app conv].
    rewrite B3 by reflexivity. revs. reflexivity.
  - intros l e _ IH K. destruct (IH K) as (ts & H1 & H2 & H3). exists ts. split; [now constructor|auto].
  - intros l e _ IH K. destruct (IH K) as (ts & H1 & H2 & H3). exists (UNARY_NEG :: ts).
    split; [now constructor|]. split; [intros acc; revs; apply H2|].
    intros rest acc P. cbn [app conv]. unfold signed. rewrite P. cbn [Ascii.eqb Bool.eqb].
    rewrite H3 by reflexivity. revs. reflexivity.
  - intros l e _ IH K. destruct (IH K) as (ts & H1 & H2 & H3). exists ts.
    split; [assumption|]. split; [assumption|].
    intros rest acc P. cbn [app conv]. unfold signed. rewrite P. cbn [Ascii.eqb Bool.eqb].
    now rewrite H3.
  - intros a b x y _ IHa _ IHb [Ka Kb]. destruct (IHa Ka) as (ta & A1 & A2 & A3).
    destruct (IHb Kb) as (tb & B1 & B2 & B3). exists (ta ++ OP "^" :: tb).
    split; [now constructor|]. split; [intros acc; revs; apply B2|].
    intros rest acc P. rewrite <- app_assoc, A3 by assumption. cbn [app conv].
    rewrite B3 by reflexivity. revs. reflexivity.
  - intros lit _. exists [NUM (num lit)]. split; [constructor; reflexivity|]. split; reflexivity.
  - intros x K. cbn in K. destruct (constants x) as [v|] eqn:E; [|congruence].
    exists [NUM v]. split; [constructor; exact E|]. split; [reflexivity|].
    intros rest acc P. cbn [app conv]. rewrite E. reflexivity.
  - intros l e _ IH K. destruct (IH K) as (ts & H1 & H2 & H3). exists (LPAREN :: ts ++ [RPAREN]).
    split; [now constructor|]. split; [intros acc; revs; reflexivity|].
    intros rest acc P. cbn [app conv]. rewrite <- app_assoc, H3 by reflexivity. revs. reflexivity.
  - intros f l e _ IH K. destruct (IH K) as (ts & H1 & H2 & H3). exists (FUNC f 1 :: LPAREN :: ts ++ [RPAREN]).
    split; [now constructor|]. split; [intros acc; revs; reflexivity|].
    intros rest acc P. cbn [app conv]. rewrite <- app_assoc, H3 by reflexivity. revs. reflexivity.
  - intros f a b x y _ IHa _ IHb [Ka Kb]. destruct (IHa Ka) as (ta & A1 & A2 & A3).
    destruct (IHb Kb) as (tb & B1 & B2 & B3).
    exists (FUNC f 1 :: LPAREN :: ta ++ COMMA :: tb ++ [RPAREN]).
    split; [now constructor|]. split; [intros acc; revs; reflexivity|].
    intros rest acc P. cbn [app conv]. rewrite <- app_assoc, A3 by reflexivity. cbn [app conv].
    rewrite <- app_assoc, B3 by reflexivity. revs. reflexivity.
Qed.

(** An unknown name makes the tokenizer throw. *)
Lemma conv_unknown : forall l acc x, In (SVar x) l -> constants x = None -> conv l acc = Thrown.
Proof.
  induction l as [|s l IH]; intros acc x H E; [destruct H|].
  destruct H as [->|H].
  - cbn [conv]. rewrite E. reflexivity.
  - destruct s; cbn [conv]; try (now apply IH with x).
    destruct (constants x0); [now apply IH with x|reflexivity].
Qed.

Definition has_unknown (l : list sym) (e : ast) : Prop :=
  ~ known e -> exists x, In (SVar x) l /\ constants x = None.

Lemma unknown_grammar :
  (forall l e, Expr l e -> has_unknown l e) /\ (forall l e, Term l e -> has_unknown l e) /\
  (forall l e, Factor l e -> has_unknown l e) /\ (forall l e, Base l e -> has_unknown l e).
Proof.
  assert (TWO : forall a b o (k : sym) x y, has_unknown a x -> has_unknown b y -> has_unknown (a ++ k :: b) (Bin o x y)).
  { intros a b o k x y IHa IHb H. cbn in H. destruct (known_dec x) as [K|K].
    - destruct IHb as (n & H1 & H2); [tauto|]. exists n. split; auto. apply in_or_app. right. now right.
    - destruct (IHa K) as (n & H1 & H2). exists n. split; auto. apply in_or_app. now left. }
  apply grammar_ind; intros; auto.
  - intros K. destruct (H0 K) as (n & H1 & H2). exists n. split; auto. now right.
  - intros K. destruct (H0 K) as (n & H1 & H2). exists n. split; auto. now right.
  - intros K. cbn in K. tauto.
  - intros K. exists x. split; [now left|]. cbn in K. destruct (constants x); auto. exfalso. apply K. discriminate.
  - intros K. destruct (H0 K) as (n & H1 & H2). exists n. split; auto. right. apply in_or_app. now left.
  - intros K. destruct (H0 K) as (n & H1 & H2). exists n. split; auto. do 2 right. apply in_or_app. now left.
  - intros K. cbn in K. destruct (known_dec x) as [Kx|Kx].
    + destruct H2 as (n & H3 & H4); [tauto|]. exists n. split; auto. do 2 right. apply in_or_app. do 2 right. apply in_or_app. now left.
    + destruct (H0 Kx) as (n & H3 & H4). exists n. split; auto. do 2 right. apply in_or_app. now left.
Qed.

(** ** Shunting yard *)

Definition op_token (o : binop) : token V :=
  OP (match o with Add => "+" | Sub => "-" | Mul => "*" | Div => "/" | Pow => "^" end).

Fixpoint postfix (e : ast) : list (token V) :=
  match e with
  | Num lit => [NUM (num lit)]
  | Var x => match constants x with Some v => [NUM v] | None => [] end
  | Neg a => postfix a ++ [UNARY_NEG]
  | Bin o a b => postfix a ++ postfix b ++ [op_token o]
  | Call1 f a => postfix a ++ [FUNC f 1]
  | Call2 f a b => postfix a ++ postfix b ++ [FUNC f 2]
  end.

Definition top_ok (L : nat) (ops : list (token V)) : Prop :=
  match ops with
  | OP c :: _ => (L = 3 \/ op_precedence c < L)%nat
  | UNARY_NEG :: _ => L = 3
  | FUNC _ _ :: _ => False
  | _ => True
  end.

Definition pending (L : nat) (q : list (token V)) : Prop :=
  Forall (fun t => is_operator V t = true /\ (L <= precedence V t)%nat) q.

Lemma pending_weaken : forall L M q, (L <= M)%nat -> pending M q -> pending L q.
Proof. intros L M q H. apply Forall_impl. intros t [H1 H2]. split; auto. lia. Qed.

Lemma pop_pending : forall q ops out, pending 1 q ->
  match ops with LPAREN :: _ => True | _ => False end ->
  pop_to_paren V (q ++ ops) out = (ops, rev q ++ out).
Proof.
  induction q as [|t q IH]; intros ops out H1 H2.
  - destruct ops as [|[]]; try destruct H2. reflexivity.
  - inversion H1; subst. destruct H3 as [H3 _]. destruct t; try discriminate H3;
      cbn [app pop_to_paren]; rewrite IH by assumption; revs; reflexivity.
Qed.

Lemma pop_left : forall L q ops out, (L = 1 \/ L = 2)%nat -> pending L q -> top_ok L ops ->
  pop_operators V L false (q ++ ops) out = (ops, rev q ++ out).
Proof.
  induction q as [|t q IH]; intros ops out HL H1 H2.
  - destruct ops as [|[]]; cbn in *; try reflexivity.
    + destruct (Nat.leb_spec L (op_precedence c)); [lia|reflexivity].
    + lia.
  - inversion H1 as [|? ? [H3 H4] H5]; subst. cbn [app pop_operators]. rewrite H3.
    destruct (Nat.leb_spec L (precedence V t)); [|lia]. cbn [andb]. rewrite IH by assumption. revs. reflexivity.
Qed.

Lemma pop_right : forall ops out, pop_operators V 3 true ops out = (ops, out).
Proof.
  intros [|t ops] out; [reflexivity|]. cbn [pop_operators].
  assert (H : (3 <? precedence V t)%nat = false).
  { apply Nat.ltb_ge. destruct t; cbn; try lia. unfold op_precedence.
    destruct (_ || _); [lia|]. destruct (_ || _); [lia|]. destruct (Ascii.eqb c "^"); lia. }
  rewrite H, andb_false_r. reflexivity.
Qed.

Definition shunt_ok (L : nat) (empty : bool) (ts : list (token V)) (e : ast) : Prop :=
  forall ops out, top_ok L ops -> exists p q, p ++ q = postfix e /\ pending L q /\
    (empty = true -> q = []) /\
    forall k, shunt_all V (ts ++ k) (ops, out) = shunt_all V k (q ++ ops, rev p ++ out).

Lemma left_op : forall L o a b x y,
  (L = 1 \/ L = 2)%nat -> op_precedence (match op_token o with OP c => c | _ => "+" end) = L -> o <> Pow ->
  shunt_ok L false a x -> shunt_ok (S L) false b y -> shunt_ok L false (a ++ op_token o :: b) (Bin o x y).
Proof.
  intros L o a b x y HL HP HO IHa IHb ops out HT.
  destruct (IHa ops out HT) as (p1 & q1 & A1 & A2 & _ & A3).
  destruct (IHb (op_token o :: ops) (rev q1 ++ rev p1 ++ out)) as (p2 & q2 & B1 & B2 & _ & B3).
  { unfold op_token in HP |- *. cbn in HP |- *. right. rewrite HP. lia. }
  exists (p1 ++ q1 ++ p2), (q2 ++ [op_token o]). repeat split.
  - cbn [postfix]. rewrite <- A1, <- B1. revs. reflexivity.
  - apply Forall_app. split; [apply pending_weaken with (S L); auto|].
    constructor; [|constructor]. split; [reflexivity|]. unfold op_token in *. cbn in HP |- *. rewrite HP. lia.
  - discriminate.
  - intros k. rewrite <- app_assoc. rewrite A3. cbn [app].
    assert (R : right_associative (match op_token o with OP c => c | _ => "+" end) = false)
      by (destruct o; try reflexivity; congruence).
    assert (E : shunt_all V (op_token o :: b ++ k) (q1 ++ ops, rev p1 ++ out)
              = shunt_all V (b ++ k) (op_token o :: ops, rev q1 ++ rev p1 ++ out)).
    { unfold op_token in HP, R |- *. cbn [shunt_all shunt]. rewrite HP, R, pop_left by assumption. reflexivity. }
    rewrite E, B3. revs. reflexivity.
Qed.

Lemma shunt_grammar :
  (forall l e, TE l e -> shunt_ok 1 false l e) /\ (forall l e, TT l e -> shunt_ok 2 false l e) /\
  (forall l e, TF l e -> shunt_ok 3 false l e) /\ (forall l e, TB l e -> shunt_ok 3 true l e).
Proof.
  apply token_ind.
  - intros l e _ IH ops out HT. destruct (IH ops out) as (p & q & H1 & H2 & _ & H3).
    { destruct ops as [|[]]; cbn in *; auto. lia. lia. }
    exists p, q. repeat split; auto; [|discriminate]. eapply pending_weaken; [|exact H2]. lia.
  - intros a b x y _ IHa _ IHb. apply (left_op 1 Add); auto; discriminate.
  - intros a b x y _ IHa _ IHb. apply (left_op 1 Sub); auto; discriminate.
  - intros l e _ IH ops out HT. destruct (IH ops out) as (p & q & H1 & H2 & _ & H3).
    { destruct ops as [|[]]; cbn in *; auto. }
    exists p, q. repeat split; auto; [|discriminate]. eapply pending_weaken; [|exact H2]. lia.
  - intros a b x y _ IHa _ IHb. apply (left_op 2 Mul); auto; discriminate.
  - intros a b x y _ IHa _ IHb. apply (left_op 2 Div); auto; discriminate.
  - intros l e _ IH ops out HT. destruct (IH ops out HT) as (p & q & H1 & H2 & _ & H3).
    exists p, q. repeat split; auto; discriminate.
  - intros l e _ IH ops out HT. destruct (IH (UNARY_NEG :: ops) out) as (p & q & H1 & H2 & _ & H3); [reflexivity|].
    exists p, (q ++ [UNARY_NEG]). repeat split.
    + cbn [postfix]. rewrite <- H1, app_assoc. reflexivity.
    + apply Forall_app; split; [assumption|constructor; [split; [reflexivity|cbn; lia]|constructor]].
    + discriminate.
    + intros k. cbn [app shunt_all shunt]. rewrite pop_right. rewrite H3. revs. reflexivity.
  - intros a b x y _ IHa _ IHb ops out HT.
    destruct (IHa ops out HT) as (p1 & q1 & A1 & _ & A2 & A3). rewrite (A2 eq_refl) in *. clear A2 q1.
    destruct (IHb (OP "^" :: ops) (rev p1 ++ out)) as (p2 & q2 & B1 & B2 & _ & B3); [left; reflexivity|].
    exists (p1 ++ p2), (q2 ++ [OP "^"]). repeat split.
    + cbn [postfix]. rewrite <- A1, <- B1. rewrite app_nil_r. revs. reflexivity.
    + apply Forall_app; split; [assumption|constructor; [split; [reflexivity|cbn; lia]|constructor]].
    + discriminate.
    + intros k. rewrite <- app_assoc, A3. cbn [app shunt_all shunt].
      change (op_precedence "^") with 3%nat. change (right_associative "^") with true.
      rewrite pop_right, B3. revs. reflexivity.
  - intros e v HL ops out HT. exists [NUM v], []. repeat split.
    + destruct e; cbn in HL |- *; try discriminate HL; [congruence|rewrite HL; reflexivity].
    + constructor.
  - intros l e _ IH ops out HT. destruct (IH (LPAREN :: ops) out Logic.I) as (p & q & H1 & H2 & _ & H3).
    exists (p ++ q), []. repeat split.
    + rewrite app_nil_r. exact H1.
    + constructor.
    + intros k. cbn [app shunt_all shunt]. rewrite <- app_assoc, H3. cbn [app shunt_all shunt].
      rewrite pop_pending by (auto; exact Logic.I).
      destruct ops as [|[]]; cbn in HT; try tauto; revs; reflexivity.
  - intros f l e _ IH ops out HT. destruct (IH (LPAREN :: FUNC f 1 :: ops) out Logic.I) as (p & q & H1 & H2 & _ & H3).
    exists (p ++ q ++ [FUNC f 1]), []. repeat split.
    + rewrite app_nil_r. cbn [postfix]. rewrite <- H1. revs. reflexivity.
    + constructor.
    + intros k. cbn [app shunt_all shunt]. rewrite <- app_assoc, H3. cbn [app shunt_all shunt].
      rewrite pop_pending by (auto; exact Logic.I). revs. reflexivity.
  - intros f a b x y _ IHa _ IHb ops out HT.
    destruct (IHa (LPAREN :: FUNC f 1 :: ops) out Logic.I) as (p1 & q1 & A1 & A2 & _ & A3).
    destruct (IHb (LPAREN :: FUNC f 2 :: ops) (rev q1 ++ rev p1 ++ out) Logic.I) as (p2 & q2 & B1 & B2 & _ & B3).
    exists (p1 ++ q1 ++ p2 ++ q2 ++ [FUNC f 2]), []. repeat split.
    + rewrite app_nil_r. cbn [postfix]. rewrite <- A1, <- B1. revs. reflexivity.
    + constructor.
    + intros k. cbn [app shunt_all shunt]. rewrite <- app_assoc, A3. cbn [app shunt_all shunt].
      rewrite pop_pending by (auto; exact Logic.I). rewrite <- app_assoc, B3. cbn [app shunt_all shunt].
      rewrite pop_pending by (auto; exact Logic.I). revs. reflexivity.
Qed.

(** ** Evaluation of the postfix form *)

Lemma flush_pending : forall q out, pending 1 q -> flush V q out = Val (rev q ++ out).
Proof.
  induction q as [|t q IH]; intros out H; [reflexivity|]. inversion H; subst. destruct H2 as [H2 _].
  destruct t; try discriminate H2; cbn [flush]; rewrite IH by assumption; revs; reflexivity.
Qed.

Lemma means_det : forall e v, means e v -> forall w, means e w -> v = w.
Proof.
  induction 1; intros u Hu; inversion Hu; subst; try reflexivity; try congruence;
    repeat match goal with IH : forall w, means ?a w -> _ = w, H : means ?a ?w |- _ => apply IH in H; subst end;
    reflexivity.
Qed.

Lemma apply1_spec : forall f v, apply1 V lib1 f v = if in_dec (list_eq_dec ascii_dec) f unary_functions then Val (lib1 f v) else Thrown.
Proof.
  intros f v. unfold apply1. destruct (existsb _ _) eqn:E; destruct (in_dec _ _ _) as [I|I]; auto; exfalso.
  - apply I. apply existsb_exists in E as (g & G1 & G2). apply str_eqb_eq in G2. subst g.
    unfold unary_functions. cbn in *. tauto.
  - apply not_true_iff_false in E. apply E. apply existsb_exists. exists f.
    split; [|now apply str_eqb_eq]. unfold unary_functions in I. cbn in *. tauto.
Qed.

Lemma apply2_spec : forall f v w, apply2 V lib2 f v w = if in_dec (list_eq_dec ascii_dec) f binary_functions then Val (lib2 f v w) else Thrown.
Proof.
  intros f v w. unfold apply2. destruct (existsb _ _) eqn:E; destruct (in_dec _ _ _) as [I|I]; auto; exfalso.
  - apply I. apply existsb_exists in E as (g & G1 & G2). apply str_eqb_eq in G2. subst g.
    unfold binary_functions. cbn in *. tauto.
  - apply not_true_iff_false in E. apply E. apply existsb_exists. exists f.
    split; [|now apply str_eqb_eq]. unfold binary_functions in I. cbn in *. tauto.
Qed.

Lemma rpn_postfix : forall e, known e ->
  (exists v, means e v /\ forall k st, rpn_run (postfix e ++ k) st = rpn_run k (v :: st)) \/
  ((forall v, ~ means e v) /\ forall k st, rpn_run (postfix e ++ k) st = Thrown).
Proof.
  induction e as [lit|x|a IH|o a IHa b IHb|f a IH|f a IHa b IHb]; intros K; cbn [postfix known] in *.
  - left. exists (num lit). split; [constructor|reflexivity].
  - destruct (constants x) as [v|] eqn:E; [|congruence]. left. exists v. split; [now constructor|reflexivity].
  - destruct (IH K) as [(v & H1 & H2)|[H1 H2]].
    + left. exists (vneg v). split; [now constructor|]. intros k st. rewrite <- app_assoc, H2. reflexivity.
    + right. split; [|intros k st; rewrite <- app_assoc; apply H2].
      intros v Hv. inversion Hv; subst. eapply H1; eauto.
  - destruct K as [Ka Kb]. destruct (IHa Ka) as [(v & A1 & A2)|[A1 A2]].
    2:{ right. split; [|intros k st; rewrite <- app_assoc; apply A2]. intros v Hv. inversion Hv; subst; eapply A1; eauto. }
    destruct (IHb Kb) as [(w & B1 & B2)|[B1 B2]].
    2:{ right. split; [|intros k st; rewrite <- !app_assoc, A2; apply B2]. intros u Hu. inversion Hu; subst; eapply B1; eauto. }
    assert (DIVZ : o = Div /\ is_zero w = true \/ ~ (o = Div /\ is_zero w = true)).
    { destruct (is_zero w); [|right; intros [_ ?]; discriminate]. destruct o; try (right; intros [? _]; discriminate). auto. }
    destruct DIVZ as [[-> Z]|Z].
    + right. split.
      * intros u Hu. inversion Hu as [| | | | | |? ? v' w' M1 M2 NZ| | |]; subst. apply NZ. rewrite (means_det _ _ M2 _ B1). exact Z.
      * intros k st. rewrite <- !app_assoc, A2, B2. cbn. rewrite Z. reflexivity.
    + left. exists (match o with Add => vadd v w | Sub => vsub v w | Mul => vmul v w | Div => vdiv v w | Pow => vpow v w end).
      split.
      * destruct o; constructor; auto.
      * intros k st. rewrite <- !app_assoc, A2, B2. destruct o; cbn; try reflexivity.
        destruct (is_zero w); [exfalso; auto|reflexivity].
  - destruct (IH K) as [(v & H1 & H2)|[H1 H2]].
    2:{ right. split; [|intros k st; rewrite <- app_assoc; apply H2]. intros v Hv. inversion Hv; subst. eapply H1; eauto. }
    destruct (in_dec (list_eq_dec ascii_dec) f unary_functions) as [I|I].
    + left. exists (lib1 f v). split; [now constructor|]. intros k st. rewrite <- app_assoc, H2.
      cbn [app rpn rpn_step Nat.ltb Nat.leb List.length]. rewrite apply1_spec. destruct (in_dec _ _ _); [reflexivity|contradiction].
    + right. split; [intros u Hu; inversion Hu; subst; contradiction|]. intros k st. rewrite <- app_assoc, H2.
      cbn [app rpn rpn_step Nat.ltb Nat.leb List.length]. rewrite apply1_spec. destruct (in_dec _ _ _); [contradiction|reflexivity].
  - destruct K as [Ka Kb]. destruct (IHa Ka) as [(v & A1 & A2)|[A1 A2]].
    2:{ right. split; [|intros k st; rewrite <- app_assoc; apply A2]. intros v Hv. inversion Hv; subst; eapply A1; eauto. }
    destruct (IHb Kb) as [(w & B1 & B2)|[B1 B2]].
    2:{ right. split; [|intros k st; rewrite <- !app_assoc, A2; apply B2]. intros u Hu. inversion Hu; subst; eapply B1; eauto. }
    destruct (in_dec (list_eq_dec ascii_dec) f binary_functions) as [I|I].
    + left. exists (lib2 f v w). split; [now constructor|]. intros k st. rewrite <- !app_assoc, A2, B2.
      cbn [app rpn rpn_step Nat.ltb Nat.leb List.length]. rewrite apply2_spec. destruct (in_dec _ _ _); [reflexivity|contradiction].
    + right. split; [intros u Hu; inversion Hu; subst; contradiction|]. intros k st. rewrite <- !app_assoc, A2, B2.
      cbn [app rpn rpn_step Nat.ltb Nat.leb List.length]. rewrite apply2_spec. destruct (in_dec _ _ _); [contradiction|reflexivity].
Qed.

(** What the evaluator should return. *)
Definition answers (r : result V) (e : ast) : Prop :=
  (exists v, r = Val v /\ means e v) \/ (r = Thrown /\ forall v, ~ means e v).

Lemma evaluate_expression : forall ts e, TE ts e -> known e -> answers (evaluate ts) e.
Proof.
  intros ts e H K. destruct (proj1 shunt_grammar ts e H [] [] Logic.I) as (p & q & H1 & H2 & _ & H3).
  specialize (H3 []). rewrite !app_nil_r in H3. cbn [shunt_all] in H3.
  unfold evaluate_tokens. rewrite H3. rewrite flush_pending by assumption.
  rewrite <- rev_app_distr, rev_involutive, H1.
  destruct (rpn_postfix e K) as [(v & A & B)|[A B]].
  - left. exists v. split; [|exact A]. specialize (B [] []). rewrite app_nil_r in B. rewrite B. reflexivity.
  - right. split; [|exact A]. specialize (B [] []). rewrite app_nil_r in B. rewrite B. reflexivity.
Qed.

Lemma means_known : forall e v, means e v -> known e.
Proof. induction 1; cbn; auto; congruence. Qed.

(** The pipeline on the symbols of an expression. *)
Definition pipeline (r : result (list (token V))) : result V :=
  match r with Val ts => evaluate ts | Thrown => Thrown end.

Lemma pipeline_expression : forall l e, Expr l e -> answers (pipeline (conv l [])) e.
Proof.
  intros l e H. destruct (known_dec e) as [K|K].
  - destruct (proj1 conv_grammar l e H K) as (ts & H1 & _ & H3).
    specialize (H3 [] [] eq_refl). rewrite !app_nil_r in H3. rewrite H3. cbn [conv pipeline].
    rewrite rev_involutive. now apply evaluate_expression.
  - destruct (proj1 unknown_grammar l e H K) as (x & H1 & H2).
    rewrite (conv_unknown l [] x H1 H2). right. split; [reflexivity|].
    intros v Hv. exact (K (means_known e v Hv)).
Qed.

(** ** White space at the ends *)

Lemma spell_white_inv : forall l c s, spell l (c :: s) -> blank c = true -> spell l s.
Proof.
  intros l c s H Hb. inversion H; subst; auto; try discriminate Hb.
  - destruct (numeral_head lit H1) as (d & r & -> & Hd). injection H0 as -> _.
    destruct (digit_kind c Hd) as (E & _). congruence.
  - destruct (identifier_chars x H1) as (d & r & -> & Hd & _). injection H0 as -> _.
    destruct (letter_kind c Hd) as (E & _). congruence.
  - destruct (identifier_chars f H1) as (d & r & -> & Hd & _). injection H0 as -> _.
    destruct (letter_kind c Hd) as (E & _). congruence.
Qed.

Lemma spell_drop : forall l s, spell l s -> spell l (drop_while blank s).
Proof.
  induction s as [|c s IH]; intros H; cbn; auto. destruct (blank c) eqn:E; auto.
  apply IH. eapply spell_white_inv; eauto.
Qed.

Lemma last_split : forall (a s0 s : list ascii) b, a ++ s0 = s ++ [b] ->
  (s0 = [] /\ a = s ++ [b]) \/ exists s1, s0 = s1 ++ [b] /\ s = a ++ s1.
Proof.
  intros a s0 s b H. destruct s0 as [|x0 s0]; [left; rewrite app_nil_r in H; auto|].
  right. destruct (@exists_last _ (x0 :: s0)) as (s1 & c & E); [discriminate|]. rewrite E in H |- *.
  rewrite app_assoc in H. apply app_inj_tail in H as [H ->]. exists s1. auto.
Qed.

Lemma numeral_chars : forall lit, numeral lit -> Forall (fun c => blank c = false) lit.
Proof.
  intros lit (whole & frac & expo & -> & H1 & H2 & _ & H4).
  assert (D : forall d, Forall digit d -> Forall (fun c => blank c = false) d).
  { intros d. apply Forall_impl. intros c Hc. apply digit_iff in Hc. apply digit_kind. now rewrite Hc. }
  apply Forall_app. split; [now apply D|]. apply Forall_app. split.
  - destruct H2 as [->|(d & -> & H2)]; [constructor|constructor; [reflexivity|now apply D]].
  - destruct H4 as [->|(m & sign & x & d & -> & Hm & Hs & Hd)]; [constructor|].
    constructor; [destruct Hm; subst; reflexivity|]. apply Forall_app. split; [|now apply D].
    destruct Hs as [->|[->| ->]]; repeat constructor.
Qed.

Lemma ident_not_blank : forall x, forallb ident_char x = true -> Forall (fun c => blank c = false) x.
Proof.
  intros x H. apply Forall_forall. intros c Hc. rewrite forallb_forall in H. specialize (H c Hc).
  destruct c as [[|] [|] [|] [|] [|] [|] [|] [|]]; try discriminate H; reflexivity.
Qed.

Lemma spell_snoc : forall l t, spell l t -> forall s b, t = s ++ [b] -> blank b = true -> spell l s.
Proof.
  intros l t H. induction H; intros s' b E Hb.
  - destruct s'; discriminate E.
  - destruct s' as [|c' s']; cbn [app] in E.
    + injection E as -> ->. exact H0.
    + injection E as -> E. apply sp_white; auto. eapply IHspell; eauto.
  - apply last_split in E as [[-> E]|(s1 & -> & ->)].
    + exfalso. pose proof (numeral_chars lit H) as N. rewrite E, Forall_app in N. destruct N as [_ N]. inversion N; congruence.
    + apply sp_num; auto; [destruct s1; cbn in *; auto|]. eapply IHspell; eauto.
  - apply last_split in E as [[-> E]|(s1 & -> & ->)].
    + exfalso. destruct (identifier_chars x H) as (c & r & _ & _ & Hx). apply ident_not_blank in Hx.
      rewrite E, Forall_app in Hx. destruct Hx as [_ N]. inversion N; congruence.
    + apply sp_var; auto; [destruct s1; cbn in *; auto|]. eapply IHspell; eauto.
  - rewrite app_assoc in E. change ("(" :: s) with (["("] ++ s) in E. rewrite app_assoc in E.
    apply last_split in E as [[-> E]|(s1 & -> & ->)].
    + apply app_inj_tail in E as [_ <-]. discriminate Hb.
    + rewrite <- !app_assoc. cbn [app]. apply sp_fun; auto. eapply IHspell; eauto.
  - destruct s' as [|c' s']; cbn [app] in E; injection E as <- E; [discriminate Hb|].
    first [apply sp_add|apply sp_sub|apply sp_mul|apply sp_div|apply sp_pow|apply sp_open|apply sp_close|apply sp_comma]; eapply IHspell; eauto.
  - destruct s' as [|c' s']; cbn [app] in E; injection E as <- E; [discriminate Hb|].
    first [apply sp_add|apply sp_sub|apply sp_mul|apply sp_div|apply sp_pow|apply sp_open|apply sp_close|apply sp_comma]; eapply IHspell; eauto.
  - destruct s' as [|c' s']; cbn [app] in E; injection E as <- E; [discriminate Hb|].
    first [apply sp_add|apply sp_sub|apply sp_mul|apply sp_div|apply sp_pow|apply sp_open|apply sp_close|apply sp_comma]; eapply IHspell; eauto.
  - destruct s' as [|c' s']; cbn [app] in E; injection E as <- E; [discriminate Hb|].
    first [apply sp_add|apply sp_sub|apply sp_mul|apply sp_div|apply sp_pow|apply sp_open|apply sp_close|apply sp_comma]; eapply IHspell; eauto.
  - destruct s' as [|c' s']; cbn [app] in E; injection E as <- E; [discriminate Hb|].
    first [apply sp_add|apply sp_sub|apply sp_mul|apply sp_div|apply sp_pow|apply sp_open|apply sp_close|apply sp_comma]; eapply IHspell; eauto.
  - destruct s' as [|c' s']; cbn [app] in E; injection E as <- E; [discriminate Hb|].
    first [apply sp_add|apply sp_sub|apply sp_mul|apply sp_div|apply sp_pow|apply sp_open|apply sp_close|apply sp_comma]; eapply IHspell; eauto.
  - destruct s' as [|c' s']; cbn [app] in E; injection E as <- E; [discriminate Hb|].
    first [apply sp_add|apply sp_sub|apply sp_mul|apply sp_div|apply sp_pow|apply sp_open|apply sp_close|apply sp_comma]; eapply IHspell; eauto.
  - destruct s' as [|c' s']; cbn [app] in E; injection E as <- E; [discriminate Hb|].
    first [apply sp_add|apply sp_sub|apply sp_mul|apply sp_div|apply sp_pow|apply sp_open|apply sp_close|apply sp_comma]; eapply IHspell; eauto.
Qed.

Lemma spell_trim : forall l s, spell l s -> spell l (trim s).
Proof.
  intros l s H. unfold trim. apply spell_drop in H. set (t := drop_while blank s) in *. clearbody t.
  assert (G : forall r, spell l (rev r) -> spell l (rev (drop_while blank r))).
  { induction r as [|c r IH]; intros Hr; cbn; auto. destruct (blank c) eqn:E; auto.
    apply IH. cbn in Hr. eapply spell_snoc; eauto. }
  apply G. now rewrite rev_involutive.
Qed.

Lemma drop_length : forall f s, List.length (drop_while f s) <= List.length s.
Proof. intros f s. rewrite <- (take_drop f s) at 2. rewrite app_length. lia. Qed.

Lemma trim_length : forall s, List.length (trim s) <= List.length s.
Proof.
  intros s. unfold trim. rewrite rev_length. pose proof (drop_length blank (rev (drop_while blank s))) as H.
  rewrite rev_length in H. pose proof (drop_length blank s). lia.
Qed.

Lemma trim_head : forall s, match trim s with c :: _ => blank c = false | [] => True end.
Proof.
  intros s. unfold trim. pose proof (drop_head blank s) as H. set (t := drop_while blank s) in *. clearbody t.
  destruct t as [|c t]; [exact Logic.I|].
  assert (G : forall r, exists u, rev (drop_while blank (r ++ [c])) = c :: u).
  { induction r as [|d r IH]; cbn [app drop_while].
    - rewrite H. exists []. reflexivity.
    - destruct (blank d); [exact IH|]. exists (rev r ++ [d]). cbn [rev]. rewrite rev_app_distr. reflexivity. }
  cbn [rev]. destruct (G (rev t)) as (u & ->). exact H.
Qed.

(** ** The short cuts *)

Lemma lower_ident : forall c, ident_char (lower c) = ident_char c.
Proof. destruct c as [[|] [|] [|] [|] [|] [|] [|] [|]]; reflexivity. Qed.

Lemma special_name : forall x t, identifier x -> stops_name t -> special_len (x ++ t) <> 0 ->
  special_len (x ++ t) = List.length (x ++ t) -> number_name x.
Proof.
  intros x t Hx Ht H0 HL. destruct (identifier_chars x Hx) as (c & r & _ & _ & HI).
  pose proof (stops_name_head t Ht) as HT.
  assert (ALL : forall p, forallb ident_char p = true -> starts_with p (x ++ t) = true ->
      List.length p = List.length (x ++ t) -> map fold_case x = p).
  { intros p Hp HS HE. unfold starts_with in HS. apply str_eqb_eq in HS. rewrite HE, firstn_all in HS.
    assert (T : t = []).
    { destruct t as [|d t]; auto. exfalso. rewrite HS, map_app in Hp. rewrite forallb_app in Hp.
      apply andb_true_iff in Hp as [_ Hp]. cbn in Hp. rewrite lower_ident, HT in Hp. discriminate Hp. }
    subst t. rewrite app_nil_r in HS. rewrite HS. apply map_ext. exact fold_lower. }
  unfold special_len in H0, HL. unfold number_name.
  destruct (starts_with (text "infinity") (x ++ t)) eqn:E1.
  { right. left. symmetry. apply (ALL (text "infinity")); auto. }
  destruct (starts_with (text "inf") (x ++ t)) eqn:E2.
  { left. symmetry. apply (ALL (text "inf")); auto. }
  destruct (starts_with (text "nan") (x ++ t)) eqn:E3; [|congruence].
  right. right. left. symmetry.
  assert (C : (List.length (x ++ t) = 3)%nat \/ exists q, skipn 3 (x ++ t) = "(" :: q).
  { destruct (skipn 3 (x ++ t)) as [|d q]; auto.
    destruct (Ascii.eqb_spec d "(") as [->|N]; [right; eauto|]. left. rewrite <- HL.
    destruct d as [[|] [|] [|] [|] [|] [|] [|] [|]]; try reflexivity. congruence. }
  destruct C as [C|(q & C)]; [apply (ALL (text "nan")); auto|].
  unfold starts_with in E3. apply str_eqb_eq in E3. change (List.length (text "nan")) with 3%nat in E3.
  assert (F : x = firstn 3 (x ++ t)).
  { assert (I3 : forallb ident_char (firstn 3 (x ++ t)) = true).
    { assert (I4 : forallb ident_char (map lower (firstn 3 (x ++ t))) = true) by (rewrite <- E3; reflexivity).
      rewrite forallb_forall in I4 |- *. intros d Hd. rewrite <- lower_ident. apply I4. now apply in_map. }
    pose proof (take_all ident_char x t HI HT) as [T1 _].
    rewrite <- (firstn_skipn 3 (x ++ t)) in T1. rewrite C in T1.
    destruct (take_all ident_char (firstn 3 (x ++ t)) ("(" :: q) I3 eq_refl) as [T2 _].
    congruence. }
  rewrite <- F in E3. change (chars "nan") with (text "nan"). rewrite E3. apply map_ext. exact fold_lower.
Qed.

Lemma unsigned_name : forall x t, identifier x -> stops_name t -> unsigned_len (x ++ t) <> 0 ->
  unsigned_len (x ++ t) = List.length (x ++ t) -> number_name x.
Proof.
  intros x t Hx Ht. destruct (identifier_chars x Hx) as (c & r & Hl & Hc & HI).
  destruct (letter_kind c Hc) as (_ & _ & _ & _ & _ & E6 & E7 & _).
  assert (E : unsigned_len (x ++ t) = special_len (x ++ t) \/ unsigned_len (x ++ t) = 0).
  { rewrite Hl. cbn [app unsigned_len]. destruct (r ++ t) as [|y q].
    - right. unfold decimal_len, mantissa_len. cbn [take_while drop_while]. rewrite E6. cbn [List.length].
      destruct c as [[|] [|] [|] [|] [|] [|] [|] [|]]; try reflexivity; discriminate E7.
    - left. assert (E8 : Ascii.eqb c "0" = false) by
        (destruct c as [[|] [|] [|] [|] [|] [|] [|] [|]]; try reflexivity; discriminate E6).
      rewrite E8, E6, E7. reflexivity. }
  destruct E as [-> | ->]; [apply special_name; auto|congruence].
Qed.

Lemma spell_nil : forall l, spell l [] -> l = [].
Proof.
  intros l H. inversion H; subst; auto.
  - destruct (numeral_head lit H1) as (c & r & -> & _). discriminate H0.
  - destruct (identifier_chars x H1) as (c & r & -> & _). discriminate H0.
  - destruct (identifier_chars f H1) as (c & r & -> & _). discriminate H0.
Qed.

Definition has_number_name (l : list sym) : Prop :=
  exists x, (In (SVar x) l \/ In (SFun x) l) /\ number_name x.

Lemma unsigned_whole : forall l s, spell l s -> unsigned_len s <> 0 -> unsigned_len s = List.length s ->
  (l = [SNum s] /\ numeral s) \/ has_number_name l.
Proof.
  intros l s H H0 HL. inversion H; subst.
  - exfalso. apply H0. reflexivity.
  - exfalso. apply H0. unfold unsigned_len.
    destruct H1 as [-> | [-> | [-> | ->]]]; destruct s0; reflexivity.
  - left. rewrite unsigned_numeral in HL by assumption. rewrite app_length in HL.
    assert (s0 = []) by (destruct s0; auto; cbn in HL; lia). subst s0. rewrite app_nil_r.
    rewrite (spell_nil l0) by assumption. auto.
  - right. exists x. split; [left; now left|]. eapply unsigned_name; eauto.
  - right. exists f. split; [right; now left|]. eapply unsigned_name; eauto.
    destruct gap as [|g gap]; cbn [app stops_name].
    + rewrite letter_iff, digit_iff. split; discriminate.
    + inversion H2 as [|? ? HG _]; subst. rewrite letter_iff, digit_iff. destruct HG; subst g; split; discriminate.
  - exfalso. apply H0. unfold unsigned_len. destruct s0; reflexivity.
  - exfalso. apply H0. unfold unsigned_len. destruct s0; reflexivity.
  - exfalso. apply H0. unfold unsigned_len. destruct s0; reflexivity.
  - exfalso. apply H0. unfold unsigned_len. destruct s0; reflexivity.
  - exfalso. apply H0. unfold unsigned_len. destruct s0; reflexivity.
  - exfalso. apply H0. unfold unsigned_len. destruct s0; reflexivity.
  - exfalso. apply H0. unfold unsigned_len. destruct s0; reflexivity.
  - exfalso. apply H0. unfold unsigned_len. destruct s0; reflexivity.
Qed.

Lemma strtod_whole : forall l s, spell l s -> match s with c :: _ => blank c = false | [] => True end ->
  strtod_len s <> 0 -> strtod_len s = List.length s ->
  (exists lit, numeral lit /\ ((l = [SNum lit] /\ s = lit) \/ (l = [SAdd; SNum lit] /\ s = "+" :: lit) \/
     (l = [SSub; SNum lit] /\ s = "-" :: lit))) \/ has_number_name l.
Proof.
  intros l s H HB H0 HL.
  assert (SP : match s with c :: _ => space c = false | [] => True end).
  { destruct s as [|c s]; auto. unfold space. rewrite HB. cbn [orb].
    destruct (Ascii.eqb_spec c "011") as [->|N1]; [|destruct (Ascii.eqb_spec c "012") as [->|N2]; [|reflexivity]].
    all: exfalso; inversion H; subst;
      try (destruct (numeral_head lit H2) as (d & r & -> & Hd); injection H1 as -> _; discriminate Hd);
      try (destruct (identifier_chars x H2) as (d & r & -> & Hd & _); injection H1 as -> _; discriminate Hd);
      try (destruct (identifier_chars f H2) as (d & r & -> & Hd & _); injection H1 as -> _; discriminate Hd);
      unfold white in *; intuition discriminate. }
  destruct s as [|c s]; [exfalso; apply H0; reflexivity|].
  unfold strtod_len in H0, HL. cbn [take_while drop_while] in H0, HL. rewrite SP in H0, HL. cbn [List.length Nat.add] in H0, HL.
  destruct (Ascii.eqb c "+" || Ascii.eqb c "-") eqn:E.
  - destruct (Nat.eqb_spec (unsigned_len s) 0) as [E0|E0]; [congruence|].
    assert (HU : unsigned_len s = List.length s) by lia.
    apply orb_true_iff in E.
    assert (HS : exists l', spell l' s /\ ((c = "+" /\ l = SAdd :: l') \/ (c = "-" /\ l = SSub :: l'))).
    { destruct E as [E|E]; apply Ascii.eqb_eq in E; subst c; inversion H; subst; eauto;
      try (destruct (numeral_head lit H2) as (d & r & -> & Hd); injection H1 as -> _; discriminate Hd);
      try (destruct (identifier_chars x H2) as (d & r & -> & Hd & _); injection H1 as -> _; discriminate Hd);
      try (destruct (identifier_chars f H2) as (d & r & -> & Hd & _); injection H1 as -> _; discriminate Hd);
      unfold white in *; exfalso; intuition discriminate. }
    destruct HS as (l' & HS & HC).
    destruct (unsigned_whole l' s HS E0 HU) as [[-> HN]|(x & HX & HN)].
    + left. exists s. split; auto. right. destruct HC as [[-> ->]|[-> ->]]; auto.
    + right. exists x. split; auto. destruct HC as [[-> ->]|[-> ->]]; cbn; tauto.
  - destruct (Nat.eqb_spec (unsigned_len (c :: s)) 0) as [E0|E0]; [congruence|].
    destruct (unsigned_whole l (c :: s) H E0 HL) as [[-> HN]|HN]; auto.
    left. exists (c :: s). auto.
Qed.

(** A string of identifier characters is a single name. *)
Lemma bare_name : forall l c s, spell l (c :: s) -> forallb ident_char (c :: s) = true -> ident_start c = true ->
  l = [SVar (c :: s)].
Proof.
  intros l c s H HA HC. inversion H; subst; try discriminate HC.
  - match goal with W : white c |- _ => apply white_iff in W end. destruct (letter_kind c HC) as (E & _). congruence.
  - destruct (numeral_head lit H1) as (d & r & -> & Hd). injection H0 as -> _.
    destruct (letter_kind c HC) as (_ & _ & _ & _ & _ & E1 & E2 & _). rewrite E1, E2 in Hd. discriminate Hd.
  - assert (s0 = []).
    { destruct s0 as [|d s0]; auto. exfalso. rewrite <- H0 in HA. rewrite forallb_app in HA.
      apply andb_true_iff in HA as [_ HA]. cbn in HA. apply stops_name_head in H2. rewrite H2 in HA. discriminate HA. }
    subst s0. rewrite app_nil_r. rewrite (spell_nil l0) by assumption. reflexivity.
  - exfalso. rewrite <- H0 in HA. rewrite !forallb_app in HA. cbn in HA. rewrite !andb_true_iff in HA.
    destruct HA as (_ & _ & HA). discriminate (proj1 HA) || (destruct HA as [HA _]; discriminate HA).
Qed.

Lemma names_grammar :
  let P := fun l e => forall x, In (SVar x) l \/ In (SFun x) l -> In x (names e) in
  (forall l e, Expr l e -> P l e) /\ (forall l e, Term l e -> P l e) /\
  (forall l e, Factor l e -> P l e) /\ (forall l e, Base l e -> P l e).
Proof.
  apply grammar_ind; intros; auto.
  all: cbn [names] in *; rewrite ?in_app_iff in *; cbn [In] in *; rewrite ?in_app_iff in *; cbn [In] in *;
    try (match goal with H : _ \/ _ |- _ => intuition (try discriminate; eauto) end; fail).
  all: try (rewrite ?in_app_iff in *; cbn [In] in *; intuition (try discriminate; try congruence; eauto)).
Qed.

Lemma numerals_grammar :
  let P := fun l e => forall x, In (SNum x) l -> In x (numerals e) in
  (forall l e, Expr l e -> P l e) /\ (forall l e, Term l e -> P l e) /\
  (forall l e, Factor l e -> P l e) /\ (forall l e, Base l e -> P l e).
Proof.
  apply grammar_ind; intros; auto.
  all: cbn [numerals] in *; rewrite ?in_app_iff in *; cbn [In] in *; rewrite ?in_app_iff in *; cbn [In] in *;
    rewrite ?in_app_iff in *; cbn [In] in *; intuition (try discriminate; try congruence; eauto).
Qed.

Lemma pipeline_number : forall lit, pipeline (conv [SNum lit] []) = Val (num lit).
Proof. reflexivity. Qed.
Lemma pipeline_plus : forall lit, pipeline (conv [SAdd; SNum lit] []) = Val (num lit).
Proof. reflexivity. Qed.
Lemma pipeline_minus : forall lit, pipeline (conv [SSub; SNum lit] []) = Val (vneg (num lit)).
Proof. reflexivity. Qed.

Section Whole.
Hypothesis num_plus : forall lit, numeral lit -> num ("+" :: lit) = num lit.
Hypothesis num_minus : forall lit, numeral lit -> num ("-" :: lit) = vneg (num lit).
Hypothesis erange_plus : forall lit, numeral lit -> erange ("+" :: lit) = erange lit.
Hypothesis erange_minus : forall lit, numeral lit -> erange ("-" :: lit) = erange lit.

Lemma eval_expression_ok : forall b m l e expr fuel, spell l expr -> Expr l e ->
  (forall x, In x (names e) -> ~ number_name x) ->
  (forall lit, In lit (numerals e) -> erange lit = false) ->
  List.length expr < fuel ->
  eval (S b) fuel m expr = Some (pipeline (conv l [])).
Proof.
  intros b m l e expr fuel HS HE HN HR HF. cbn [GdmlModel.eval]. cbv zeta.
  apply spell_trim in HS. pose proof (trim_length expr) as HT. pose proof (trim_head expr) as HH.
  set (s := trim expr) in *. clearbody s.
  assert (NB : ~ has_number_name l).
  { intros (x & H1 & H2). apply (HN x); auto. exact (proj1 names_grammar l e HE x H1). }
  destruct s as [|c s'].
  { exfalso. apply spell_nil in HS. subst l. pose proof (pipeline_expression [] e HE) as A. cbn in A.
    destruct (proj1 conv_grammar [] e HE) as (ts & _ & A2 & A3).
    - destruct (known_dec e) as [K|K]; auto. exfalso. destruct (proj1 unknown_grammar [] e HE K) as (x & [] & _).
    - specialize (A3 [] [] eq_refl). cbn in A3. specialize (A2 []). rewrite app_nil_r in *.
      rewrite rev_involutive in A3. injection A3 as <-. discriminate A2. }
  assert (TOK : match GdmlModel.tokenize V num to_int constants fuel (eval b fuel (no_matrices V)) m (c :: s') [] with
                | Some (Val ts) => Some (evaluate ts)
                | Some Thrown => Some Thrown
                | None => None
                end = Some (pipeline (conv l []))).
  { replace fuel with (S (List.length (c :: s')) + (fuel - S (List.length (c :: s')))) by (cbn in *; lia).
    rewrite (tokenize_more _ _ _ _ _ _ _ (tokenize_spell l (c :: s') HS _ m [])).
    destruct (conv l []); reflexivity. }
  destruct (negb (strtod_len (c :: s') =? 0)%nat && (strtod_len (c :: s') =? List.length (c :: s'))%nat) eqn:F1.
  - apply andb_true_iff in F1 as [F1 F2]. apply Nat.eqb_eq in F2. apply negb_true_iff, Nat.eqb_neq in F1.
    destruct (strtod_whole l (c :: s') HS HH F1 F2) as [(lit & HL & HC)|HX]; [|contradiction].
    assert (ER : erange lit = false).
    { apply HR. apply (proj1 numerals_grammar l e HE). destruct HC as [[-> _]|[[-> _]|[-> _]]]; cbn; tauto. }
    destruct HC as [[-> ->]|[[-> ->]|[-> ->]]].
    + rewrite ER. reflexivity.
    + rewrite erange_plus, ER, num_plus by assumption. reflexivity.
    + rewrite erange_minus, ER, num_minus by assumption. reflexivity.
  - destruct (forallb ident_char (c :: s') && ident_start c) eqn:F2.
    + apply andb_true_iff in F2 as [F2 F3]. pose proof (bare_name l c s' HS F2 F3) as ->.
      destruct (constants (c :: s')) as [v|] eqn:E.
      * cbn [conv]. rewrite E. reflexivity.
      * destruct (m (c :: s')); [exact TOK|]. cbn [conv]. rewrite E. reflexivity.
    + exact TOK.
Qed.
End Whole.
End Eval.
