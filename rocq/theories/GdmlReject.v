(** Lemmas on termination and on rejected GDML expressions. *)
From Coq Require Import List Bool Arith ZArith Ascii String Lia.
From Verif Require Import GdmlModel GdmlSpec GdmlProofs.
Import ListNotations.
Open Scope char_scope.

(** ** What strtod converts *)

Definition plain (c : ascii) : bool := negb (Ascii.eqb c "(" || Ascii.eqb c ")").

Lemma firstn_take : forall f s, firstn (List.length (take_while f s)) s = take_while f s.
Proof. intros f s. rewrite <- (take_drop f s) at 2. apply firstn_app_length. Qed.

Lemma skipn_take : forall f s, skipn (List.length (take_while f s)) s = drop_while f s.
Proof. intros f s. rewrite <- (take_drop f s) at 2. apply skipn_app_length. Qed.

Lemma forallb_impl : forall A (f g : A -> bool) l, (forall x, f x = true -> g x = true) -> forallb f l = true -> forallb g l = true.
Proof. intros A f g l H. rewrite !forallb_forall. auto. Qed.

Lemma digit_plain : forall c, is_digit c = true -> plain c = true.
Proof. destruct c as [[|] [|] [|] [|] [|] [|] [|] [|]]; cbn; intros H; try discriminate H; reflexivity. Qed.
Lemma hex_plain : forall c, is_hex c = true -> plain c = true.
Proof. destruct c as [[|] [|] [|] [|] [|] [|] [|] [|]]; cbn; intros H; try discriminate H; reflexivity. Qed.
Lemma ident_plain : forall c, ident_char c = true -> plain c = true.
Proof. destruct c as [[|] [|] [|] [|] [|] [|] [|] [|]]; cbn; intros H; try discriminate H; reflexivity. Qed.
Lemma tab_plain : forall c, tab c = true -> plain c = true.
Proof. destruct c as [[|] [|] [|] [|] [|] [|] [|] [|]]; cbn; intros H; try discriminate H; reflexivity. Qed.
Lemma space_plain : forall c, space c = true -> plain c = true.
Proof. destruct c as [[|] [|] [|] [|] [|] [|] [|] [|]]; cbn; intros H; try discriminate H; reflexivity. Qed.

Lemma firstn_plus : forall A (n m : nat) (l : list A), firstn (n + m) l = firstn n l ++ firstn m (skipn n l).
Proof. induction n; cbn; intros; auto. destruct l; cbn; [rewrite firstn_nil; auto|f_equal; auto]. Qed.

Lemma mantissa_plain : forall f s, (forall c, f c = true -> plain c = true) ->
  forallb plain (firstn (mantissa_len f s) s) = true.
Proof.
  intros f s H. unfold mantissa_len.
  assert (A : forallb plain (firstn (List.length (take_while f s)) s) = true).
  { rewrite firstn_take. apply forallb_impl with f; auto. apply take_forall. }
  destruct (drop_while f s) as [|c r] eqn:E; auto.
  destruct (Ascii.eqb_spec c ".") as [->|N].
  - destruct (Nat.eqb_spec (List.length (take_while f s) + List.length (take_while f r)) 0); [reflexivity|].
    rewrite !firstn_plus, !forallb_app, A. rewrite <- (skipn_take f s) in E. rewrite E.
    assert (E2 : skipn (List.length (take_while f s) + 1) s = r).
    { rewrite Nat.add_comm. clear -E. revert E. generalize (List.length (take_while f s)). intros n.
      revert s. induction n; cbn; intros s E; [subst; reflexivity|]. destruct s; [discriminate E|]. apply IHn. exact E. }
    rewrite E2, firstn_take. cbn [firstn forallb].
    rewrite (forallb_impl _ f plain) by (auto; apply take_forall). reflexivity.
  - destruct c as [[|] [|] [|] [|] [|] [|] [|] [|]]; auto; congruence.
Qed.

Lemma digits_plain : forall s, forallb plain (firstn (digits_len s) s) = true.
Proof. intros s. unfold digits_len. rewrite firstn_take. apply forallb_impl with is_digit; [exact digit_plain|apply take_forall]. Qed.

Lemma exponent_plain : forall l1 l2 s, plain l1 = true -> plain l2 = true ->
  forallb plain (firstn (exponent_len l1 l2 s) s) = true.
Proof.
  intros l1 l2 s H1 H2. unfold exponent_len. destruct s as [|c r]; auto.
  destruct (Ascii.eqb c l1 || Ascii.eqb c l2) eqn:E; auto.
  assert (P : plain c = true).
  { apply orb_true_iff in E as [E|E]; apply Ascii.eqb_eq in E; subst; auto. }
  destruct r as [|g q]; auto.
  destruct (Ascii.eqb g "+" || Ascii.eqb g "-") eqn:G.
  - destruct (Nat.eqb_spec (digits_len q) 0); auto. cbn [Nat.add firstn forallb]. rewrite P, digits_plain.
    apply orb_true_iff in G as [G|G]; apply Ascii.eqb_eq in G; subst; reflexivity.
  - destruct (Nat.eqb_spec (digits_len (g :: q)) 0); auto.
    change (firstn (1 + digits_len (g :: q)) (c :: g :: q)) with (c :: firstn (digits_len (g :: q)) (g :: q)).
    cbn [forallb]. rewrite P, digits_plain. reflexivity.
Qed.

Lemma decimal_plain : forall s, forallb plain (firstn (decimal_len s) s) = true.
Proof.
  intros s. unfold decimal_len. destruct (Nat.eqb_spec (mantissa_len is_digit s) 0); [reflexivity|].
  rewrite firstn_plus, forallb_app, mantissa_plain, exponent_plain; auto. exact digit_plain.
Qed.

Lemma hex_len_plain : forall s, forallb plain (firstn (hex_len s) s) = true.
Proof.
  intros s. unfold hex_len. destruct (Nat.eqb_spec (mantissa_len is_hex s) 0); [reflexivity|].
  rewrite firstn_plus, forallb_app, mantissa_plain, exponent_plain; auto. exact hex_plain.
Qed.

Lemma strtod_plain : forall c s, (is_digit c || Ascii.eqb c ".") = true ->
  strtod_len (c :: s) = unsigned_len (c :: s) /\ forallb plain (firstn (strtod_len (c :: s)) (c :: s)) = true.
Proof.
  intros c s H. destruct (digit_kind c H) as (_ & _ & _ & _ & _ & HS & E1 & E2).
  assert (L : strtod_len (c :: s) = unsigned_len (c :: s)).
  { unfold strtod_len. cbn [take_while drop_while]. rewrite HS, E1, E2. cbn [orb List.length Nat.add].
    destruct (Nat.eqb_spec (unsigned_len (c :: s)) 0); congruence. }
  split; [exact L|]. rewrite L. unfold unsigned_len.
  destruct s as [|x r]; [apply decimal_plain|].
  destruct (Ascii.eqb c "0" && (Ascii.eqb x "x" || Ascii.eqb x "X")) eqn:E.
  - apply andb_true_iff in E as [E3 E4]. apply Ascii.eqb_eq in E3. subst c.
    destruct (Nat.eqb_spec (hex_len r) 0); [reflexivity|].
    cbn [Nat.add firstn forallb]. rewrite hex_len_plain.
    apply orb_true_iff in E4 as [E4|E4]; apply Ascii.eqb_eq in E4; subst; reflexivity.
  - rewrite H. apply decimal_plain.
Qed.

(** At least one character is converted, unless a point stands alone. *)
Lemma strtod_positive : forall c s, (is_digit c || Ascii.eqb c ".") = true ->
  (is_digit c = true \/ exists d q, s = d :: q /\ is_digit d = true) -> strtod_len (c :: s) <> 0.
Proof.
  intros c s H HD. destruct (strtod_plain c s H) as [-> _].
  assert (M : decimal_len (c :: s) <> 0).
  { unfold decimal_len.
    assert (mantissa_len is_digit (c :: s) <> 0).
    { unfold mantissa_len. cbn [take_while drop_while]. destruct (is_digit c) eqn:E.
      - cbn [List.length]. destruct (drop_while is_digit s) as [|b q]; [lia|].
        destruct b as [[|] [|] [|] [|] [|] [|] [|] [|]]; try lia. cbn [Nat.add Nat.eqb]. lia.
      - cbn [orb] in H. apply Ascii.eqb_eq in H. subst c. destruct HD as [HD|(d & q & -> & HD)]; [discriminate|].
        cbn [take_while List.length]. rewrite HD. cbn [List.length Nat.add Nat.eqb]. lia. }
    destruct (Nat.eqb_spec (mantissa_len is_digit (c :: s)) 0); lia. }
  unfold unsigned_len. destruct s as [|x r]; [exact M|].
  destruct (_ && _); [destruct (hex_len r =? 0)%nat; lia|]. rewrite H. exact M.
Qed.

(** ** Matching brackets *)

Lemma scan_spec : forall s depth pos comma fin com, scan_bracket s depth pos comma = Some (fin, com) ->
  (pos <= fin)%nat /\ nth_error s (fin - pos) = Some "]" /\
  (com = comma \/ exists k, com = Some k /\ (pos <= k < fin)%nat /\ nth_error s (k - pos) = Some ",").
Proof.
  assert (N : forall c (s : list ascii) fin pos, (S pos <= fin)%nat -> nth_error (c :: s) (fin - pos) = nth_error s (fin - S pos)).
  { intros c s fin pos H. replace (fin - pos) with (S (fin - S pos)) by lia. reflexivity. }
  induction s as [|c s IH]; intros depth pos comma fin com H; [discriminate H|]. cbn [scan_bracket] in H.
  assert (STEP : forall d cm, scan_bracket s d (S pos) cm = Some (fin, com) ->
    (cm = comma \/ (cm = Some pos /\ c = ",")) ->
    (pos <= fin)%nat /\ nth_error (c :: s) (fin - pos) = Some "]" /\
    (com = comma \/ exists k, com = Some k /\ (pos <= k < fin)%nat /\ nth_error (c :: s) (k - pos) = Some ",")).
  { intros d cm HS HC. destruct (IH _ _ _ _ _ HS) as (A & B & C). split; [lia|]. split; [rewrite N by lia; exact B|].
    destruct C as [->|(k & -> & K1 & K2)].
    - destruct HC as [->|[-> ->]]; [auto|]. right. exists pos. split; [reflexivity|]. split; [lia|].
      rewrite Nat.sub_diag. reflexivity.
    - right. exists k. split; [reflexivity|]. split; [lia|]. rewrite N by lia. exact K2. }
  destruct (Ascii.eqb c "["); [eapply STEP; eauto|].
  destruct (Ascii.eqb_spec c "]") as [->|_].
  { destruct depth as [|[|depth]]; try (injection H as -> ->; split; [lia|]; split; [rewrite Nat.sub_diag; reflexivity|auto]).
    eapply STEP; eauto. }
  destruct (Ascii.eqb_spec c ",") as [->|_]; cbn [andb] in H; [|eapply STEP; eauto].
  destruct (depth =? 1)%nat; eapply STEP; eauto.
Qed.

Lemma nth_split_at : forall A (s : list A) n c, nth_error s n = Some c -> s = firstn n s ++ c :: skipn (S n) s.
Proof.
  induction s as [|x s IH]; intros n c H; destruct n; cbn in H; try discriminate H.
  - injection H as ->. reflexivity.
  - cbn [firstn app]. f_equal. apply IH. exact H.
Qed.

(** ** Termination *)

Lemma points_suffix : forall a s, points_followed (a ++ s) -> points_followed s.
Proof. intros a s H p q E. apply (H (a ++ p) q). rewrite E, app_assoc. reflexivity. Qed.

Lemma points_tail : forall c s, points_followed (c :: s) -> points_followed s.
Proof. intros c s. apply (points_suffix [c]). Qed.

(** A part that ends before a character which is no digit. *)
Lemma points_prefix : forall a c s, points_followed (a ++ c :: s) -> is_digit c = false -> points_followed a.
Proof.
  intros a c s H HC p q E. subst a. specialize (H p (q ++ c :: s)). rewrite <- app_assoc in H.
  destruct (H eq_refl) as (d & r & E & HD). destruct q as [|x q]; cbn [app] in E.
  - injection E as -> _. apply digit_iff in HD. congruence.
  - injection E as -> _. eauto.
Qed.

Section Eval.
Variable V : Type.
Variable num : list ascii -> V.
Variable erange : list ascii -> bool.
Variable vadd vsub vmul vdiv vpow : V -> V -> V.
Variable vneg : V -> V.
Variable is_zero : V -> bool.
Variable lib1 : list ascii -> V -> V.
Variable lib2 : list ascii -> V -> V -> V.
Variable to_int : V -> Z.
Variable constants : list ascii -> option V.

Notation tokenize := (tokenize V num to_int constants).
Notation rpn_run := (rpn V vadd vsub vmul vdiv vpow vneg is_zero lib1 lib2).
Notation evaluate := (evaluate_tokens V vadd vsub vmul vdiv vpow vneg is_zero lib1 lib2).
Notation eval := (eval V num erange vadd vsub vmul vdiv vpow vneg is_zero lib1 lib2 to_int constants).

Lemma tokenize_total : forall fuel ev m s acc, points_followed s -> (List.length s < fuel)%nat ->
  (forall t, points_followed t -> (List.length t < List.length s)%nat -> ev t <> None) ->
  tokenize fuel ev m s acc <> None.
Proof.
  induction fuel as [|fuel IH]; intros ev m s acc HP HF HE; [lia|].
  destruct s as [|c s]; [discriminate|]. cbn [GdmlModel.tokenize].
  assert (TL : forall acc, tokenize fuel ev m s acc <> None).
  { intros acc'. apply IH; [eapply points_tail; eauto|cbn in HF; lia|].
    intros t H1 H2. apply HE; [exact H1|cbn; lia]. }
  destruct (blank c); [apply TL|].
  destruct (Ascii.eqb c "("); [apply TL|].
  destruct (Ascii.eqb c ")"); [apply TL|].
  destruct (Ascii.eqb c ","); [apply TL|].
  destruct (op_char c).
  { cbv zeta. destruct (_ && Ascii.eqb c "-"); [apply TL|]. destruct (_ && Ascii.eqb c "+"); apply TL. }
  assert (SUF : forall a t acc, c :: s = a ++ t -> a <> [] -> tokenize fuel ev m t acc <> None).
  { intros a t acc' E NA.
    assert (L : (List.length t < List.length (c :: s))%nat) by (rewrite E, app_length; destruct a; [congruence|cbn; lia]).
    apply IH; [rewrite E in HP; eapply points_suffix; eauto|lia|]. intros u H1 H2. apply HE; [exact H1|lia]. }
  destruct (is_digit c || Ascii.eqb c ".") eqn:ED.
  { cbv zeta. apply SUF with (firstn (strtod_len (c :: s)) (c :: s)); [symmetry; apply firstn_skipn|].
    assert (P : strtod_len (c :: s) <> 0).
    { apply strtod_positive; [exact ED|]. destruct (is_digit c) eqn:E; [auto|]. right.
      cbn [orb] in ED. apply Ascii.eqb_eq in ED. subst c. destruct (HP [] s eq_refl) as (d & q & -> & HD).
      exists d, q. split; auto. now apply digit_iff. }
    destruct (strtod_len (c :: s)); [congruence|discriminate]. }
  destruct (ident_start c) eqn:EI; [|discriminate]. cbv zeta.
  set (nm := take_while ident_char (c :: s)) in *. set (rest := drop_while ident_char (c :: s)) in *.
  assert (NS : c :: s = nm ++ rest) by (symmetry; apply take_drop).
  assert (NN : nm <> []).
  { unfold nm. cbn. unfold ident_start in EI. unfold ident_char. apply orb_true_iff in EI as [-> | ->].
    - discriminate.
    - rewrite orb_true_r. discriminate. }
  assert (K : match constants nm with Some v => tokenize fuel ev m rest (NUM v :: acc) | None => Some Thrown end <> None).
  { destruct (constants nm); [|discriminate]. eapply SUF; eauto. }
  destruct (drop_while tab rest) as [|b body] eqn:EB; [exact K|].
  destruct b as [[|] [|] [|] [|] [|] [|] [|] [|]]; try exact K; try (eapply SUF; eauto; fail).
  destruct (m nm) as [[coldim vals]|]; [|discriminate].
  destruct (scan_bracket body 1 0 None) as [[fin com]|] eqn:ES; [|discriminate].
  destruct (scan_spec _ _ _ _ _ _ ES) as (_ & B2 & B3). rewrite Nat.sub_0_r in B2. pose proof (nth_split_at _ _ _ _ B2) as BS.
  assert (WS : c :: s = (nm ++ take_while tab rest ++ ["["]) ++ body).
  { rewrite <- !app_assoc. cbn [app]. rewrite NS at 1. rewrite <- (take_drop tab rest) at 1. rewrite EB. reflexivity. }
  assert (BP : points_followed body) by (rewrite WS in HP; eapply points_suffix; eauto).
  assert (BL : (List.length body < List.length (c :: s))%nat).
  { rewrite WS, !app_length. cbn [List.length]. lia. }
  assert (CONT : forall acc, tokenize fuel ev m (skipn (S fin) body) acc <> None).
  { intros acc'. apply SUF with ((nm ++ take_while tab rest ++ ["["]) ++ firstn fin body ++ ["]"]).
    - rewrite <- !app_assoc. cbn [app]. rewrite <- BS. rewrite WS, <- !app_assoc. reflexivity.
    - destruct nm; [congruence|discriminate]. }
  assert (IN : points_followed (firstn fin body)).
  { rewrite BS in BP. eapply points_prefix; [exact BP|reflexivity]. }
  assert (IL : (List.length (firstn fin body) <= List.length body)%nat) by (rewrite firstn_length; lia).
  destruct com as [comma|].
  - destruct B3 as [?|(k & [= <-] & B3 & B4)]; [discriminate|]. rewrite Nat.sub_0_r in B4.
    pose proof (nth_split_at _ _ _ _ B4) as CS.
    assert (I1 : points_followed (firstn comma body)) by (rewrite CS in BP; eapply points_prefix; [exact BP|reflexivity]).
    assert (FS : firstn fin body = firstn comma body ++ "," :: firstn (fin - comma - 1) (skipn (S comma) body)).
    { replace fin with (comma + S (fin - comma - 1)) at 1 by lia. rewrite firstn_plus. f_equal.
      assert (SK : skipn comma body = "," :: skipn (S comma) body).
      { rewrite CS at 1. rewrite skipn_app. rewrite skipn_all2 by (rewrite firstn_length; lia). cbn [app].
        rewrite firstn_length. assert (comma < List.length body)%nat by (apply nth_error_Some; congruence).
        rewrite Nat.min_l by lia. rewrite Nat.sub_diag. reflexivity. }
      rewrite SK. reflexivity. }
    assert (I2 : points_followed (firstn (fin - comma - 1) (skipn (S comma) body))).
    { rewrite FS in IN. apply (points_suffix (firstn comma body ++ [","])). rewrite <- app_assoc. exact IN. }
    assert (L1 : (List.length (firstn comma body) < List.length (c :: s))%nat) by (rewrite firstn_length; lia).
    assert (L2 : (List.length (firstn (fin - comma - 1) (skipn (S comma) body)) < List.length (c :: s))%nat)
      by (rewrite firstn_length, skipn_length; lia).
    pose proof (HE _ I1 L1) as N1. pose proof (HE _ I2 L2) as N2.
    destruct (ev (firstn comma body)) as [[row|]|]; try congruence.
    destruct (ev (firstn (fin - comma - 1) (skipn (S comma) body))) as [[col|]|]; try congruence.
    destruct (entry V vals _); [apply CONT|discriminate].
  - assert (N1 : ev (firstn fin body) <> None) by (apply HE; [exact IN|lia]).
    destruct (ev (firstn fin body)) as [[row|]|]; try congruence.
    destruct (entry V vals _); [apply CONT|discriminate].
Qed.

Lemma points_trim : forall s, points_followed s -> points_followed (trim s).
Proof.
  intros s H. unfold trim. rewrite <- (take_drop blank s) in H. apply points_suffix in H.
  set (t := drop_while blank s) in *. clearbody t.
  assert (G : forall r, points_followed (rev r) -> points_followed (rev (drop_while blank r))).
  { induction r as [|c r IH]; cbn; auto. destruct (blank c) eqn:E; auto. intros HR. apply IH.
    eapply points_prefix; [exact HR|]. destruct c as [[|] [|] [|] [|] [|] [|] [|] [|]]; try discriminate E; reflexivity. }
  apply G. now rewrite rev_involutive.
Qed.

Lemma eval_total : forall b fuel m s, points_followed s -> (List.length s < fuel)%nat -> eval b fuel m s <> None.
Proof.
  induction b as [|b IH]; intros fuel m s HP HF; [discriminate|]. cbn [GdmlModel.eval]. cbv zeta.
  pose proof (points_trim s HP) as TP. pose proof (trim_length s) as TL. set (t := trim s) in *. clearbody t.
  destruct t as [|c t]; [discriminate|].
  destruct (_ && (strtod_len _ =? _)%nat); [destruct (erange _); discriminate|].
  assert (TOK : match tokenize fuel (eval b fuel (no_matrices V)) m (c :: t) [] with
    | Some (Val ts) => Some (evaluate ts) | Some Thrown => Some Thrown | None => None end <> None).
  { pose proof (tokenize_total fuel (eval b fuel (no_matrices V)) m (c :: t) [] TP) as N.
    destruct (tokenize fuel _ m (c :: t) []) as [[ts|]|]; try discriminate. exfalso. apply N; auto; [lia|].
    intros u H1 H2. apply IH; [exact H1|lia]. }
  destruct (_ && ident_start c); [|exact TOK].
  destruct (constants (c :: t)); [discriminate|]. destruct (m (c :: t)); [exact TOK|discriminate].
Qed.

(** Enough fuel is enough. *)
Lemma eval_more : forall b fuel k m s r, eval b fuel m s = Some r -> eval b (fuel + k) m s = Some r.
Proof.
  induction b as [|b IH]; intros fuel k m s r H; [exact H|]. cbn [GdmlModel.eval] in *. cbv zeta in *.
  destruct (trim s) as [|c t]; [exact H|].
  destruct (_ && (strtod_len _ =? _)%nat); [exact H|].
  assert (EV : forall f ev ev' mm t acc q, (forall t r, ev t = Some r -> ev' t = Some r) ->
     tokenize f ev mm t acc = Some q -> tokenize f ev' mm t acc = Some q).
  { clear. induction f as [|f IH]; intros ev ev' mm t acc q HV H; [discriminate H|]. cbn [GdmlModel.tokenize] in *.
    destruct t as [|c s]; [exact H|].
    destruct (blank c); [eauto|].
    destruct (Ascii.eqb c "("); [eauto|].
    destruct (Ascii.eqb c ")"); [eauto|].
    destruct (Ascii.eqb c ","); [eauto|].
    destruct (op_char c).
    { cbv zeta in *. destruct (_ && Ascii.eqb c "-"); [eauto|]. destruct (_ && Ascii.eqb c "+"); eauto. }
    destruct (is_digit c || Ascii.eqb c "."); [cbv zeta in *; eauto|].
    destruct (ident_start c); [|exact H]. cbv zeta in *.
    set (nm := take_while ident_char (c :: s)) in *. set (rest := drop_while ident_char (c :: s)) in *.
    assert (K : match constants nm with Some v => tokenize f ev mm rest (NUM v :: acc) | None => Some Thrown end = Some q ->
       match constants nm with Some v => tokenize f ev' mm rest (NUM v :: acc) | None => Some Thrown end = Some q).
    { destruct (constants nm); eauto. }
    destruct (drop_while tab rest) as [|b body]; [auto|].
    destruct b as [[|] [|] [|] [|] [|] [|] [|] [|]]; auto; try (eauto; fail).
    destruct (mm nm) as [[coldim vals]|]; [|exact H].
    destruct (scan_bracket body 1 0 None) as [[fin [comma|]]|]; [| |exact H].
    - destruct (ev (firstn comma body)) as [r1|] eqn:E1; [rewrite (HV _ _ E1)|discriminate H].
      destruct r1 as [row|]; [|exact H].
      destruct (ev (firstn (fin - comma - 1) (skipn (S comma) body))) as [r2|] eqn:E2; [rewrite (HV _ _ E2)|discriminate H].
      destruct r2 as [col|]; [|exact H].
      destruct (entry V vals _); [eauto|exact H].
    - destruct (ev (firstn fin body)) as [r1|] eqn:E1; [rewrite (HV _ _ E1)|discriminate H].
      destruct r1 as [row|]; [|exact H].
      destruct (entry V vals _); [eauto|exact H]. }
  assert (TOK : match tokenize fuel (eval b fuel (no_matrices V)) m (c :: t) [] with
    | Some (Val ts) => Some (evaluate ts) | Some Thrown => Some Thrown | None => None end = Some r ->
    match tokenize (fuel + k) (eval b (fuel + k) (no_matrices V)) m (c :: t) [] with
    | Some (Val ts) => Some (evaluate ts) | Some Thrown => Some Thrown | None => None end = Some r).
  { intros H1. destruct (tokenize fuel _ m (c :: t) []) as [q|] eqn:E; [|discriminate H1].
    apply (EV fuel (eval b fuel (no_matrices V)) (eval b (fuel + k) (no_matrices V))) in E.
    2:{ intros u r0 Hr. apply IH. exact Hr. }
    apply tokenize_more with (k := k) in E. rewrite E. exact H1. }
  destruct (_ && ident_start c); [|auto].
  destruct (constants (c :: t)); [exact H|]. destruct (m (c :: t)); [auto|exact H].
Qed.

(** ** A lone point *)

Lemma lone_point : forall fuel ev m acc q, match q with c :: _ => is_digit c = false | [] => True end ->
  tokenize fuel ev m ("." :: q) acc = None.
Proof.
  induction fuel as [|fuel IH]; intros ev m acc q H; [reflexivity|].
  assert (Z : strtod_len ("." :: q) = 0).
  { unfold strtod_len. cbn [take_while drop_while].
    change (space ".") with false. cbn [Ascii.eqb Bool.eqb orb].
    assert (U : unsigned_len ("." :: q) = 0).
    { assert (M : decimal_len ("." :: q) = 0).
      { unfold decimal_len, mantissa_len. cbn [take_while drop_while]. change (is_digit ".") with false. cbv iota.
        destruct q as [|c q]; [reflexivity|]. cbn [take_while]. rewrite H. reflexivity. }
      unfold unsigned_len. destruct q; [exact M|]. exact M. }
    change (Ascii.eqb "." "+" || Ascii.eqb "." "-") with false. rewrite U. reflexivity. }
  assert (E : tokenize (S fuel) ev m ("." :: q) acc =
    let k := strtod_len ("." :: q) in tokenize fuel ev m (skipn k ("." :: q)) (NUM (num (firstn k ("." :: q))) :: acc))
    by reflexivity.
  rewrite E. cbv zeta. rewrite Z. cbn [skipn firstn]. apply IH. exact H.
Qed.

(** ** The depth is never exceeded *)

Lemma tokenize_no_matrices : forall fuel ev ev' s acc,
  tokenize fuel ev (no_matrices V) s acc = tokenize fuel ev' (no_matrices V) s acc.
Proof.
  induction fuel as [|fuel IH]; intros ev ev' s acc; [reflexivity|]. cbn [GdmlModel.tokenize].
  destruct s as [|c s]; [reflexivity|].
  destruct (blank c); [auto|].
  destruct (Ascii.eqb c "("); [auto|].
  destruct (Ascii.eqb c ")"); [auto|].
  destruct (Ascii.eqb c ","); [auto|].
  destruct (op_char c).
  { cbv zeta. destruct (_ && Ascii.eqb c "-"); [auto|]. destruct (_ && Ascii.eqb c "+"); auto. }
  destruct (is_digit c || Ascii.eqb c "."); [cbv zeta; auto|].
  destruct (ident_start c); [|reflexivity]. cbv zeta.
  destruct (drop_while tab _) as [|b body].
  - destruct (constants _); auto.
  - destruct b as [[|] [|] [|] [|] [|] [|] [|] [|]]; auto; destruct (constants _); auto.
Qed.

Lemma eval_depth0 : forall b b' fuel s, eval (S b) fuel (no_matrices V) s = eval (S b') fuel (no_matrices V) s.
Proof.
  intros. cbn [GdmlModel.eval]. cbv zeta. destruct (trim s); [reflexivity|].
  rewrite (tokenize_no_matrices fuel (eval b fuel (no_matrices V)) (eval b' fuel (no_matrices V))). reflexivity.
Qed.

Lemma tokenize_ext : forall fuel ev ev' m s acc, (forall t, ev t = ev' t) ->
  tokenize fuel ev m s acc = tokenize fuel ev' m s acc.
Proof.
  induction fuel as [|fuel IH]; intros ev ev' m s acc HV; [reflexivity|]. cbn [GdmlModel.tokenize].
  destruct s as [|c s]; [reflexivity|].
  destruct (blank c); [auto|].
  destruct (Ascii.eqb c "("); [auto|].
  destruct (Ascii.eqb c ")"); [auto|].
  destruct (Ascii.eqb c ","); [auto|].
  destruct (op_char c).
  { cbv zeta. destruct (_ && Ascii.eqb c "-"); [auto|]. destruct (_ && Ascii.eqb c "+"); auto. }
  destruct (is_digit c || Ascii.eqb c "."); [cbv zeta; auto|].
  destruct (ident_start c); [|reflexivity]. cbv zeta.
  destruct (drop_while tab _) as [|b body].
  - destruct (constants _); auto.
  - destruct b as [[|] [|] [|] [|] [|] [|] [|] [|]]; auto; try (destruct (constants _); auto; fail).
    destruct (m _) as [[coldim vals]|]; [|reflexivity].
    destruct (scan_bracket body 1 0 None) as [[fin [comma|]]|]; [| |reflexivity].
    + rewrite !HV. destruct (ev' (firstn comma body)) as [[|]|]; auto.
      destruct (ev' (firstn (fin - comma - 1) (skipn (S comma) body))) as [[|]|]; auto.
      destruct (entry V vals _); auto.
    + rewrite !HV. destruct (ev' (firstn fin body)) as [[|]|]; auto. destruct (entry V vals _); auto.
Qed.

Lemma eval_depth : forall b b' fuel m s, eval (S (S b)) fuel m s = eval (S (S b')) fuel m s.
Proof.
  intros.
  assert (T : forall t acc, tokenize fuel (eval (S b) fuel (no_matrices V)) m t acc
            = tokenize fuel (eval (S b') fuel (no_matrices V)) m t acc).
  { intros. apply tokenize_ext. intros. apply eval_depth0. }
  revert T. generalize (S b) (S b'). intros n n' T. cbn [GdmlModel.eval]. cbv zeta. destruct (trim s); [reflexivity|].
  rewrite T. reflexivity.
Qed.

(** ** Parentheses *)

Fixpoint nest_tokens (ts : list (token V)) (d : nat) : option nat :=
  match ts with
  | [] => Some d
  | LPAREN :: ts => nest_tokens ts (S d)
  | RPAREN :: ts => match d with S d => nest_tokens ts d | O => None end
  | _ :: ts => nest_tokens ts d
  end.

Lemma nesting_app : forall a b d, nesting (a ++ b) d = match nesting a d with Some e => nesting b e | None => None end.
Proof.
  induction a as [|c a IH]; intros b d; [reflexivity|]. cbn [app nesting].
  destruct (Ascii.eqb c "("); auto. destruct (Ascii.eqb c ")"); auto. destruct d; auto.
Qed.

Lemma nesting_plain : forall a d, forallb plain a = true -> nesting a d = Some d.
Proof.
  induction a as [|c a IH]; intros d H; [reflexivity|]. cbn in H. apply andb_true_iff in H as [H1 H2].
  unfold plain in H1. rewrite negb_true_iff, orb_false_iff in H1. destruct H1 as [E1 E2].
  cbn [nesting]. rewrite E1, E2. auto.
Qed.

Lemma nesting_shift : forall a k j d, nesting a k = Some j -> nesting a (k + d) = Some (j + d).
Proof.
  induction a as [|c a IH]; intros k j d H; cbn [nesting] in *; [congruence|].
  destruct (Ascii.eqb c "("); [apply (IH (S k)); exact H|].
  destruct (Ascii.eqb c ")"); [|apply IH; exact H]. destruct k; [discriminate H|]. cbn [Nat.add]. apply IH. exact H.
Qed.

Lemma nesting_balanced : forall a d, balanced a -> nesting a d = Some d.
Proof. intros a d H. apply (nesting_shift a 0 0 d H). Qed.

Lemma tokenize_nesting : forall fuel ev m s acc ts, tokenize fuel ev m s acc = Some (Val ts) ->
  (forall t v, ev t = Some (Val v) -> balanced t) ->
  exists us, ts = rev acc ++ us /\ forall d, nesting s d = nest_tokens us d.
Proof.
  induction fuel as [|fuel IH]; intros ev m s acc ts H HV; [discriminate H|]. cbn [GdmlModel.tokenize] in H.
  destruct s as [|c s]; [injection H as <-; exists []; rewrite app_nil_r; auto|].
  assert (SKIP : forall acc, plain c = true -> tokenize fuel ev m s acc = Some (Val ts) ->
     exists us, ts = rev acc ++ us /\ forall d, nesting (c :: s) d = nest_tokens us d).
  { intros acc' P HT. destruct (IH _ _ _ _ _ HT HV) as (us & E1 & E2). exists us. split; auto.
    intros d. rewrite <- E2. change (c :: s) with ([c] ++ s). rewrite nesting_app, nesting_plain; auto. cbn. now rewrite P. }
  assert (TOK : forall t, plain c = true -> (forall us d, nest_tokens (t :: us) d = nest_tokens us d) ->
     tokenize fuel ev m s (t :: acc) = Some (Val ts) ->
     exists us, ts = rev acc ++ us /\ forall d, nesting (c :: s) d = nest_tokens us d).
  { intros t P HN HT. destruct (SKIP _ P HT) as (us & E1 & E2). exists (t :: us). cbn [rev] in E1.
    rewrite <- app_assoc in E1. split; auto. intros d. rewrite HN. auto. }
  destruct (blank c) eqn:EB.
  { apply SKIP; auto. apply space_plain. unfold space. now rewrite EB. }
  destruct (Ascii.eqb_spec c "(") as [->|N1].
  { destruct (IH _ _ _ _ _ H HV) as (us & E1 & E2). exists (LPAREN :: us). cbn [rev] in E1. rewrite <- app_assoc in E1.
    split; auto. intros d. cbn. auto. }
  destruct (Ascii.eqb_spec c ")") as [->|N2].
  { destruct (IH _ _ _ _ _ H HV) as (us & E1 & E2). exists (RPAREN :: us). cbn [rev] in E1. rewrite <- app_assoc in E1.
    split; auto. intros d. cbn. destruct d; auto. }
  assert (P : plain c = true).
  { unfold plain. rewrite (proj2 (Ascii.eqb_neq c "(") N1), (proj2 (Ascii.eqb_neq c ")") N2). reflexivity. }
  destruct (Ascii.eqb c ","); [apply (TOK COMMA); auto|].
  destruct (op_char c).
  { cbv zeta in H. destruct (_ && Ascii.eqb c "-"); [apply (TOK UNARY_NEG); auto|].
    destruct (_ && Ascii.eqb c "+"); [apply SKIP; auto|apply (TOK (OP c)); auto]. }
  destruct (is_digit c || Ascii.eqb c ".") eqn:ED.
  { cbv zeta in H. destruct (strtod_plain c s ED) as [_ PL].
    destruct (IH _ _ _ _ _ H HV) as (us & E1 & E2). exists (NUM (num (firstn (strtod_len (c :: s)) (c :: s))) :: us).
    cbn [rev] in E1. rewrite <- app_assoc in E1. split; [exact E1|]. intros d.
    rewrite <- (firstn_skipn (strtod_len (c :: s)) (c :: s)) at 1. rewrite nesting_app, nesting_plain by exact PL.
    rewrite E2. reflexivity. }
  destruct (ident_start c) eqn:EI; [|discriminate H]. cbv zeta in H.
  pose proof (take_drop ident_char (c :: s)) as NS. pose proof (take_forall ident_char (c :: s)) as NF.
  set (nm := take_while ident_char (c :: s)) in *. set (rest := drop_while ident_char (c :: s)) in *.
  assert (NP : forallb plain nm = true) by (eapply forallb_impl; [exact ident_plain|exact NF]).
  assert (REST : forall t u, tokenize fuel ev m u (t :: acc) = Some (Val ts) ->
     (forall us d, nest_tokens (t :: us) d = nest_tokens us d) -> (forall d, nesting rest d = nesting u d) ->
     exists us, ts = rev acc ++ us /\ forall d, nesting (c :: s) d = nest_tokens us d).
  { intros t u HT HN HU. destruct (IH _ _ _ _ _ HT HV) as (us & E1 & E2). exists (t :: us). cbn [rev] in E1.
    rewrite <- app_assoc in E1. split; auto. intros d. rewrite HN, <- E2, <- NS, nesting_app, nesting_plain by exact NP. apply HU. }
  assert (K : match constants nm with Some v => tokenize fuel ev m rest (NUM v :: acc) | None => Some Thrown end = Some (Val ts) ->
     exists us, ts = rev acc ++ us /\ forall d, nesting (c :: s) d = nest_tokens us d).
  { destruct (constants nm); [|discriminate]. intros HT. eapply REST; eauto. }
  destruct (drop_while tab rest) as [|b body] eqn:EBB; [auto|].
  destruct b as [[|] [|] [|] [|] [|] [|] [|] [|]]; auto; try (eapply REST; eauto; fail).
  clear K. destruct (m nm) as [[coldim vals]|]; [|discriminate H].
  destruct (scan_bracket body 1 0 None) as [[fin com]|] eqn:ES; [|discriminate H].
  destruct (scan_spec _ _ _ _ _ _ ES) as (_ & B2 & B3). rewrite Nat.sub_0_r in B2. pose proof (nth_split_at _ _ _ _ B2) as BS.
  assert (RB : forall d, nesting rest d = nesting body d).
  { intros d. rewrite <- (take_drop tab rest), EBB, nesting_app, nesting_plain; [reflexivity|].
    eapply forallb_impl; [exact tab_plain|apply take_forall]. }
  assert (INNER : balanced (firstn fin body) -> forall d, nesting rest d = nesting (skipn (S fin) body) d).
  { intros HB d. rewrite RB. rewrite BS at 1. rewrite nesting_app, (nesting_balanced _ d HB). reflexivity. }
  destruct com as [comma|].
  - destruct B3 as [?|(k & [= <-] & B3 & B4)]; [discriminate|]. rewrite Nat.sub_0_r in B4.
    pose proof (nth_split_at _ _ _ _ B4) as CS.
    assert (FS : firstn fin body = firstn comma body ++ "," :: firstn (fin - comma - 1) (skipn (S comma) body)).
    { replace fin with (comma + S (fin - comma - 1)) at 1 by lia. rewrite firstn_plus. f_equal.
      assert (SK : skipn comma body = "," :: skipn (S comma) body).
      { rewrite CS at 1. rewrite skipn_app. rewrite skipn_all2 by (rewrite firstn_length; lia). cbn [app].
        rewrite firstn_length. assert (comma < List.length body)%nat by (apply nth_error_Some; congruence).
        rewrite Nat.min_l by lia. rewrite Nat.sub_diag. reflexivity. }
      rewrite SK. reflexivity. }
    destruct (ev (firstn comma body)) as [[row|]|] eqn:V1; try discriminate H.
    destruct (ev (firstn (fin - comma - 1) (skipn (S comma) body))) as [[col|]|] eqn:V2; try discriminate H.
    destruct (entry V vals _); [|discriminate H].
    eapply REST; [exact H|reflexivity|]. apply INNER. rewrite FS. unfold balanced. rewrite nesting_app.
    rewrite (HV _ _ V1). cbn. exact (HV _ _ V2).
  - destruct (ev (firstn fin body)) as [[row|]|] eqn:V1; try discriminate H.
    destruct (entry V vals _); [|discriminate H].
    eapply REST; [exact H|reflexivity|]. apply INNER. exact (HV _ _ V1).
Qed.

Definition opens (ops : list (token V)) : nat := count_occ Bool.bool_dec (map (fun t => match t with LPAREN => true | _ => false end) ops) true.

Lemma pop_opens : forall ops out ops' out', pop_to_paren V ops out = (ops', out') ->
  opens ops' = opens ops /\ match ops' with LPAREN :: _ => True | [] => True | _ => False end.
Proof.
  induction ops as [|t ops IH]; intros out ops' out' H; cbn in H.
  - injection H as <- <-. auto.
  - destruct t; try (injection H as <- <-; auto; fail);
      destruct (IH _ _ _ H) as [E1 E2]; split; auto.
Qed.

Lemma pop_operators_opens : forall cur r ops out ops' out', pop_operators V cur r ops out = (ops', out') -> opens ops' = opens ops.
Proof.
  induction ops as [|t ops IH]; intros out ops' out' H; cbn in H; [injection H as <- <-; auto|].
  destruct t; cbn [is_operator andb] in H; try (injection H as <- <-; auto; fail);
    (destruct (if r then _ else _); [rewrite (IH _ _ _ H); reflexivity|injection H as <- <-; reflexivity]).
Qed.

Lemma shunt_nesting : forall ts ops out ops' out', shunt_all V ts (ops, out) = Val (ops', out') ->
  nest_tokens ts (opens ops) = Some (opens ops').
Proof.
  induction ts as [|t ts IH]; intros ops out ops' out' H; [injection H as <- <-; reflexivity|].
  cbn [shunt_all] in H. destruct t; cbn [shunt] in H; cbn [nest_tokens].
  - eapply IH; eauto.
  - destruct (pop_operators V _ _ ops out) as [o1 u1] eqn:E. apply IH in H.
    change (opens (OP c :: o1)) with (opens o1) in H. rewrite (pop_operators_opens _ _ _ _ _ _ E) in H. exact H.
  - apply IH in H. exact H.
  - destruct (pop_to_paren V ops out) as [o1 u1] eqn:E. destruct (pop_opens _ _ _ _ E) as [E1 E2].
    destruct o1 as [|[] o1]; try destruct E2; try discriminate H.
    rewrite <- E1. change (opens (LPAREN :: o1)) with (S (opens o1)).
    destruct o1 as [|[] o1]; apply IH in H; exact H.
  - destruct (pop_to_paren V ops out) as [o1 u1] eqn:E. destruct (pop_opens _ _ _ _ E) as [E1 E2].
    apply IH in H. rewrite <- E1. destruct o1 as [|[] [|[] o1]]; exact H.
  - apply IH in H. exact H.
  - destruct (pop_operators V _ _ ops out) as [o1 u1] eqn:E. apply IH in H.
    change (opens (UNARY_NEG :: o1)) with (opens o1) in H. rewrite (pop_operators_opens _ _ _ _ _ _ E) in H. exact H.
Qed.

Lemma flush_opens : forall ops out out', flush V ops out = Val out' -> opens ops = 0.
Proof.
  induction ops as [|t ops IH]; intros out out' H; [reflexivity|].
  destruct t; cbn [flush] in H; try discriminate H; apply IH in H; exact H.
Qed.

Lemma evaluate_balanced : forall ts v, evaluate ts = Val v -> nest_tokens ts 0 = Some 0.
Proof.
  intros ts v H. unfold evaluate_tokens in H. destruct (shunt_all V ts ([], [])) as [[ops out]|] eqn:E; [|discriminate H].
  destruct (flush V ops out) as [o|] eqn:F; [|discriminate H].
  apply shunt_nesting in E. rewrite (flush_opens _ _ _ F) in E. exact E.
Qed.

Lemma nesting_trim : forall s, nesting (trim s) 0 = Some 0 -> nesting s 0 = Some 0.
Proof.
  intros s H. unfold trim in H.
  assert (B : forall c, blank c = true -> plain c = true) by (intros c Hc; apply space_plain; unfold space; now rewrite Hc).
  rewrite <- (take_drop blank s), nesting_app, nesting_plain by (eapply forallb_impl; [exact B|apply take_forall]).
  set (t := drop_while blank s) in *. clearbody t.
  rewrite <- (rev_involutive t). rewrite <- (take_drop blank (rev t)), rev_app_distr, nesting_app, H.
  apply nesting_plain. rewrite forallb_forall. intros x Hx. apply in_rev in Hx. apply B.
  pose proof (take_forall blank (rev t)) as F. rewrite forallb_forall in F. auto.
Qed.

Lemma starts_prefix : forall p s, starts_with p s = true -> forallb ident_char p = true ->
  forallb plain (firstn (List.length p) s) = true.
Proof.
  intros p s H HP. unfold starts_with in H. apply str_eqb_eq in H. rewrite H in HP.
  rewrite forallb_forall in HP |- *. intros c Hc. apply ident_plain. rewrite <- lower_ident. apply HP. now apply in_map.
Qed.

Lemma special_balanced : forall s, special_len s = List.length s -> balanced s.
Proof.
  intros s H. unfold special_len in H.
  destruct (starts_with (text "infinity") s) eqn:E1.
  { apply starts_prefix in E1; [|reflexivity]. change (List.length (text "infinity")) with 8 in E1.
    rewrite H, firstn_all in E1. now apply nesting_plain. }
  destruct (starts_with (text "inf") s) eqn:E2.
  { apply starts_prefix in E2; [|reflexivity]. change (List.length (text "inf")) with 3 in E2.
    rewrite H, firstn_all in E2. now apply nesting_plain. }
  destruct (starts_with (text "nan") s) eqn:E3.
  2:{ destruct s; [reflexivity|discriminate H]. }
  apply starts_prefix in E3; [|reflexivity]. change (List.length (text "nan")) with 3 in E3.
  assert (T3 : 3 = List.length s -> balanced s).
  { intros L. rewrite L, firstn_all in E3. now apply nesting_plain. }
  destruct (skipn 3 s) as [|c r] eqn:E; [auto|].
  destruct (Ascii.eqb_spec c "(") as [->|N].
  - destruct (drop_while ident_char r) as [|d q] eqn:D; [auto|].
    destruct (Ascii.eqb_spec d ")") as [->|N].
    + assert (S3 : s = firstn 3 s ++ "(" :: take_while ident_char r ++ ")" :: q).
      { rewrite <- (firstn_skipn 3 s) at 1. rewrite E. rewrite <- (take_drop ident_char r) at 1. rewrite D. reflexivity. }
      assert (L3 : List.length (firstn 3 s) = 3) by (rewrite firstn_length; lia).
      assert (Q : q = []).
      { rewrite S3 in H at 1. rewrite app_length, L3 in H. cbn [List.length] in H. rewrite app_length in H. cbn [List.length] in H.
        destruct q; auto. cbn in H. lia. }
      subst q. rewrite S3. unfold balanced. rewrite nesting_app, nesting_plain by exact E3.
      change ("(" :: take_while ident_char r ++ [")"]) with (["("] ++ take_while ident_char r ++ [")"]).
      rewrite nesting_app. cbn [nesting Ascii.eqb Bool.eqb]. rewrite nesting_app, nesting_plain; [reflexivity|].
      eapply forallb_impl; [exact ident_plain|apply take_forall].
    + destruct d as [[|] [|] [|] [|] [|] [|] [|] [|]]; auto; congruence.
  - destruct c as [[|] [|] [|] [|] [|] [|] [|] [|]]; auto; congruence.
Qed.

Lemma unsigned_balanced : forall s, unsigned_len s = List.length s -> balanced s.
Proof.
  intros s H. unfold unsigned_len in H. destruct s as [|c [|x r]].
  - reflexivity.
  - pose proof (decimal_plain [c]) as P. rewrite H, firstn_all in P. now apply nesting_plain.
  - destruct (_ && _) eqn:E.
    + apply andb_true_iff in E as [E3 E4]. apply Ascii.eqb_eq in E3. subst c.
      destruct (Nat.eqb_spec (hex_len r) 0); [discriminate H|].
      pose proof (hex_len_plain r) as P. cbn in H. assert (H' : hex_len r = List.length r) by lia.
      rewrite H', firstn_all in P. apply nesting_plain. cbn [forallb]. rewrite P.
      apply orb_true_iff in E4 as [E4|E4]; apply Ascii.eqb_eq in E4; subst; reflexivity.
    + destruct (is_digit c || Ascii.eqb c ".").
      * pose proof (decimal_plain (c :: x :: r)) as P. rewrite H, firstn_all in P. now apply nesting_plain.
      * now apply special_balanced.
Qed.

Lemma strtod_balanced : forall s, strtod_len s = List.length s -> balanced s.
Proof.
  intros s H. unfold strtod_len in H. pose proof (take_drop space s) as E. pose proof (take_forall space s) as F.
  assert (P : forallb plain (take_while space s) = true) by (eapply forallb_impl; [exact space_plain|exact F]).
  assert (L : List.length s = List.length (take_while space s) + List.length (drop_while space s))
    by (rewrite <- E at 1; apply app_length).
  unfold balanced. rewrite <- E, nesting_app, nesting_plain by exact P.
  destruct (drop_while space s) as [|c r]; [reflexivity|]. cbn [List.length] in L.
  destruct (Ascii.eqb c "+" || Ascii.eqb c "-") eqn:G.
  - destruct (Nat.eqb_spec (unsigned_len r) 0); [lia|].
    assert (U : unsigned_len r = List.length r) by lia. apply unsigned_balanced in U.
    apply orb_true_iff in G as [G|G]; apply Ascii.eqb_eq in G; subst; exact U.
  - destruct (Nat.eqb_spec (unsigned_len (c :: r)) 0); [lia|].
    apply unsigned_balanced. cbn [List.length]. lia.
Qed.

Lemma eval_balanced : forall b fuel m s v, eval b fuel m s = Some (Val v) -> balanced s.
Proof.
  induction b as [|b IH]; intros fuel m s v H; [discriminate H|]. cbn [GdmlModel.eval] in H. cbv zeta in H.
  apply nesting_trim. set (t := trim s) in *. clearbody t.
  destruct t as [|c t]; [reflexivity|].
  destruct (negb (strtod_len (c :: t) =? 0)%nat && (strtod_len (c :: t) =? List.length (c :: t))%nat) eqn:F1.
  { apply andb_true_iff in F1 as [_ F1]. apply Nat.eqb_eq in F1. now apply strtod_balanced. }
  assert (TOK : match tokenize fuel (eval b fuel (no_matrices V)) m (c :: t) [] with
    | Some (Val ts) => Some (evaluate ts) | Some Thrown => Some Thrown | None => None end = Some (Val v) -> nesting (c :: t) 0 = Some 0).
  { destruct (tokenize fuel _ m (c :: t) []) as [[ts|]|] eqn:E; try discriminate.
    intros [= HE]. apply tokenize_nesting in E as (us & E1 & E2).
    - cbn in E1. subst us. rewrite E2. eapply evaluate_balanced; eauto.
    - intros u w Hu. eapply IH; eauto. }
  destruct (forallb ident_char (c :: t) && ident_start c) eqn:F2; [|auto].
  apply andb_true_iff in F2 as [F2 _]. apply nesting_plain. eapply forallb_impl; [exact ident_plain|exact F2].
Qed.

(** ** Numbers of operands *)

Definition is_num (t : token V) : bool := match t with NUM _ => true | _ => false end.
Definition is_op (t : token V) : bool := match t with OP _ => true | _ => false end.
Definition is_comma (t : token V) : bool := match t with COMMA => true | _ => false end.
Definition count (f : token V -> bool) (ts : list (token V)) : nat := List.length (filter f ts).

(** Operands minus one per binary operator and per further argument. *)
Definition weight (t : token V) : Z :=
  match t with NUM _ => 1 | OP _ => -1 | FUNC _ n => 1 - Z.of_nat n | _ => 0 end.
Definition total (ts : list (token V)) : Z := fold_right Z.add 0%Z (map weight ts).

Lemma total_cons : forall t ts, total (t :: ts) = (weight t + total ts)%Z.
Proof. reflexivity. Qed.

Lemma total_app : forall a b, total (a ++ b) = (total a + total b)%Z.
Proof. induction a; intros; [reflexivity|]. cbn [app]. rewrite !total_cons, IHa. lia. Qed.

Lemma total_rev : forall a, total (rev a) = total a.
Proof. induction a; [reflexivity|]. cbn [rev]. rewrite total_app, !total_cons, IHa. cbn. lia. Qed.


(** Tokens as the tokenizer makes them. *)
Definition good (t : token V) : Prop := match t with OP c => op_char c = true | _ => True end.
Definition fresh (t : token V) : Prop := match t with OP c => op_char c = true | FUNC _ n => n = 1 | _ => True end.

Lemma rpn_total : forall ts st st', Forall good ts -> rpn_run ts st = Val st' ->
  Z.of_nat (List.length st') = (Z.of_nat (List.length st) + total ts)%Z.
Proof.
  induction ts as [|t ts IH]; intros st st' HG H; [injection H as <-; cbn; lia|].
  inversion HG as [|? ? HT HG']; subst.
  cbn [rpn] in H. destruct (rpn_step V vadd vsub vmul vdiv vpow vneg is_zero lib1 lib2 t st) as [s1|] eqn:E; [|discriminate H].
  apply IH in H; [|exact HG']. rewrite H, total_cons. clear IH H.
  destruct t; cbn [rpn_step] in E; try discriminate E.
  - injection E as <-. cbn [List.length weight]. lia.
  - destruct st as [|b [|a st]]; try discriminate E. cbn [good] in HT. unfold op_char in HT.
    destruct (Ascii.eqb c "+"); [injection E as <-; cbn [List.length weight]; lia|].
    destruct (Ascii.eqb c "-"); [injection E as <-; cbn [List.length weight]; lia|].
    destruct (Ascii.eqb c "*"); [injection E as <-; cbn [List.length weight]; lia|].
    destruct (Ascii.eqb c "/"); [destruct (is_zero b); [discriminate E|injection E as <-; cbn [List.length weight]; lia]|].
    destruct (Ascii.eqb c "^"); [injection E as <-; cbn [List.length weight]; lia|discriminate HT].
  - destruct argc as [|[|[|argc]]].
    + cbn in E. discriminate E.
    + destruct st as [|a st]; [cbn in E; discriminate E|]. cbn in E. destruct (apply1 V lib1 name a); [|discriminate E].
      injection E as <-. cbn [List.length weight]. lia.
    + destruct st as [|b [|a st]]; [cbn in E; discriminate E|cbn in E; discriminate E|]. cbn in E.
      destruct (apply2 V lib2 name a b); [|discriminate E]. injection E as <-. cbn [List.length weight]. lia.
    + cbn in E. discriminate E.
  - destruct st as [|a st]; [discriminate E|]. injection E as <-. cbn [List.length weight]. lia.
Qed.

Definition both (ops out : list (token V)) : Z := (total ops + total out)%Z.

Lemma pop_paren_total : forall ops out ops' out', pop_to_paren V ops out = (ops', out') ->
  both ops' out' = both ops out /\ (Forall good ops -> Forall good out -> Forall good ops' /\ Forall good out').
Proof.
  unfold both. induction ops as [|t ops IH]; intros out ops' out' H; cbn [pop_to_paren] in H; [injection H as <- <-; auto|].
  destruct t; try (injection H as <- <-; auto; fail);
    (destruct (IH _ _ _ H) as [E G]; split; [rewrite E, !total_cons; lia|];
     intros H1 H2; inversion H1; subst; apply G; auto).
Qed.

Lemma pop_ops_total : forall cur r ops out ops' out', pop_operators V cur r ops out = (ops', out') ->
  both ops' out' = both ops out /\ (Forall good ops -> Forall good out -> Forall good ops' /\ Forall good out').
Proof.
  unfold both. induction ops as [|t ops IH]; intros out ops' out' H; cbn [pop_operators] in H; [injection H as <- <-; auto|].
  destruct (_ && _); [|injection H as <- <-; auto].
  destruct (IH _ _ _ H) as [E G]; split; [rewrite E, !total_cons; lia|].
  intros H1 H2; inversion H1; subst; apply G; auto.
Qed.

Ltac tot := unfold both, count, total in *; cbn [map fold_right filter is_comma List.length weight] in *; lia.

Lemma shunt_total : forall ts ops out ops' out', shunt_all V ts (ops, out) = Val (ops', out') ->
  Forall fresh ts -> Forall good ops -> Forall good out ->
  (both ops out + total ts - Z.of_nat (count is_comma ts) <= both ops' out' <= both ops out + total ts)%Z /\
  Forall good ops' /\ Forall good out'.
Proof.
  induction ts as [|t ts IH]; intros ops out ops' out' H HF HO HU; [injection H as <- <-; cbn; split; [lia|auto]|].
  inversion HF as [|? ? HT HF']; subst. cbn [shunt_all] in H.
  assert (STEP : forall o1 u1, shunt_all V ts (o1, u1) = Val (ops', out') ->
     (both ops out + weight t - Z.of_nat (count is_comma [t]) <= both o1 u1 <= both ops out + weight t)%Z ->
     Forall good o1 -> Forall good u1 ->
     (both ops out + total (t :: ts) - Z.of_nat (count is_comma (t :: ts)) <= both ops' out' <= both ops out + total (t :: ts))%Z /\
     Forall good ops' /\ Forall good out').
  { intros o1 u1 HS HB G1 G2. destruct (IH _ _ _ _ HS HF' G1 G2) as (B & G). split; [|exact G].
    rewrite total_cons. change (t :: ts) with ([t] ++ ts).
    assert (C : count is_comma ([t] ++ ts) = (count is_comma [t] + count is_comma ts)%nat).
    { unfold count. rewrite filter_app, app_length. reflexivity. }
    rewrite C. lia. }
  assert (GT : good t) by (destruct t; cbn in *; auto).
  destruct t; cbn [shunt] in H.
  - eapply STEP; [exact H| |auto|auto]. tot.
  - destruct (pop_operators V _ _ ops out) as [o1 u1] eqn:E. destruct (pop_ops_total _ _ _ _ _ _ E) as [B G].
    destruct (G HO HU) as [G1 G2]. eapply STEP; [exact H| |auto|auto]. tot.
  - eapply STEP; [exact H| |auto|auto]. tot.
  - destruct (pop_to_paren V ops out) as [o1 u1] eqn:E. destruct (pop_paren_total _ _ _ _ E) as [B G].
    destruct (G HO HU) as [G1 G2]. pose proof (pop_opens _ _ _ _ E) as [_ LP].
    destruct o1 as [|p o1]; [discriminate H|]. destruct p; try destruct LP. inversion G1 as [|? ? _ G3]; subst.
    destruct o1 as [|t1 o1]; [eapply STEP; [exact H| |auto|auto]; tot|].
    inversion G3 as [|? ? HT1 G4]; subst.
    destruct t1; (eapply STEP; [exact H| |auto|auto]; tot).
  - destruct (pop_to_paren V ops out) as [o1 u1] eqn:E. destruct (pop_paren_total _ _ _ _ E) as [B G].
    destruct (G HO HU) as [G1 G2].
    assert (SAME : both o1 u1 = both ops out -> (both ops out + weight COMMA - Z.of_nat (count is_comma [COMMA]) <= both o1 u1 <= both ops out + weight COMMA)%Z).
    { intros ->. cbn. lia. }
    destruct o1 as [|p [|f o1]]; [eapply STEP; [exact H|auto|auto|auto]|eapply STEP; [exact H|auto|auto|auto]|].
    destruct f; try (eapply STEP; [exact H|auto|auto|auto]; fail).
    eapply STEP; [exact H| | |auto].
    + tot.
    + inversion G1 as [|? ? X1 X2]; subst. inversion X2; subst. repeat (constructor; auto).
  - eapply STEP; [exact H| |auto|auto]. cbn in HT. subst argc. tot.
  - destruct (pop_operators V _ _ ops out) as [o1 u1] eqn:E. destruct (pop_ops_total _ _ _ _ _ _ E) as [B G].
    destruct (G HO HU) as [G1 G2]. eapply STEP; [exact H| |auto|auto]. tot.
Qed.

Lemma flush_total : forall ops out out', flush V ops out = Val out' -> Forall good ops -> Forall good out ->
  total out' = both ops out /\ Forall good out'.
Proof.
  unfold both. induction ops as [|t ops IH]; intros out out' H H1 H2; [injection H as <-; auto|].
  inversion H1; subst.
  destruct t; cbn [flush] in H; try discriminate H;
    (destruct (IH _ _ H) as [E G]; auto; split; auto; rewrite E, !total_cons; lia).
Qed.

Lemma fresh_total : forall ts, Forall fresh ts -> total ts = (Z.of_nat (count is_num ts) - Z.of_nat (count is_op ts))%Z.
Proof.
  induction 1 as [|t ts HT _ IH]; [reflexivity|]. rewrite total_cons, IH.
  destruct t; unfold count; cbn [filter is_num is_op List.length weight]; try lia.
  cbn in HT. subst. lia.
Qed.

Lemma evaluate_counts : forall ts v, Forall fresh ts -> evaluate ts = Val v ->
  (count is_op ts + 1 <= count is_num ts <= count is_op ts + count is_comma ts + 1)%nat.
Proof.
  intros ts v HF H. unfold evaluate_tokens in H.
  destruct (shunt_all V ts ([], [])) as [[ops out]|] eqn:E; [|discriminate H].
  destruct (flush V ops out) as [o|] eqn:F; [|discriminate H].
  destruct (rpn_run (rev o) []) as [st|] eqn:R; [|discriminate H].
  destruct (shunt_total _ _ _ _ _ E HF) as (B & G1 & G2); [constructor|constructor|].
  destruct (flush_total _ _ _ F G1 G2) as [T G].
  apply rpn_total in R; [|now apply Forall_rev]. rewrite total_rev, T in R.
  destruct st as [|w [|]]; try discriminate H. cbn in R. pose proof (fresh_total ts HF) as FT. change (both [] []) with 0%Z in B. lia.
Qed.

Lemma tokenize_fresh : forall fuel ev m s acc ts, tokenize fuel ev m s acc = Some (Val ts) ->
  Forall fresh acc -> Forall fresh ts.
Proof.
  induction fuel as [|fuel IH]; intros ev m s acc ts H HA; [discriminate H|]. cbn [GdmlModel.tokenize] in H.
  destruct s as [|c s]; [injection H as <-; now apply Forall_rev|].
  destruct (blank c); [eauto|].
  destruct (Ascii.eqb c "("); [eapply IH; [exact H|constructor; cbn; auto]|].
  destruct (Ascii.eqb c ")"); [eapply IH; [exact H|constructor; cbn; auto]|].
  destruct (Ascii.eqb c ","); [eapply IH; [exact H|constructor; cbn; auto]|].
  destruct (op_char c) eqn:EO.
  { cbv zeta in H. destruct (_ && Ascii.eqb c "-"); [eapply IH; [exact H|constructor; cbn; auto]|].
    destruct (_ && Ascii.eqb c "+"); [eauto|eapply IH; [exact H|constructor; cbn; auto]]. }
  destruct (is_digit c || Ascii.eqb c "."); [cbv zeta in H; eapply IH; [exact H|constructor; cbn; auto]|].
  destruct (ident_start c); [|discriminate H]. cbv zeta in H.
  set (nm := take_while ident_char (c :: s)) in *. set (rest := drop_while ident_char (c :: s)) in *.
  assert (K : match constants nm with Some v => tokenize fuel ev m rest (NUM v :: acc) | None => Some Thrown end = Some (Val ts) -> Forall fresh ts).
  { destruct (constants nm); [|discriminate]. intros HK. eapply IH; [exact HK|constructor; cbn; auto]. }
  destruct (drop_while tab rest) as [|b body]; [auto|].
  destruct b as [[|] [|] [|] [|] [|] [|] [|] [|]]; auto; try (eapply IH; [exact H|constructor; cbn; auto]; fail).
  destruct (m nm) as [[coldim vals]|]; [|discriminate H].
  destruct (scan_bracket body 1 0 None) as [[fin [comma|]]|]; [| |discriminate H].
  - destruct (ev (firstn comma body)) as [[row|]|]; try discriminate H.
    destruct (ev (firstn (fin - comma - 1) (skipn (S comma) body))) as [[col|]|]; try discriminate H.
    destruct (entry V vals _); [eapply IH; [exact H|constructor; cbn; auto]|discriminate H].
  - destruct (ev (firstn fin body)) as [[row|]|]; try discriminate H.
    destruct (entry V vals _); [eapply IH; [exact H|constructor; cbn; auto]|discriminate H].
Qed.
End Eval.
