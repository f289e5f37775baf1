(** C62 and C63: GDML expressions. *)
From Coq Require Import List Bool Arith ZArith Ascii String Lia.
From Verif Require Import GdmlModel GdmlSpec GdmlProofs GdmlReject.
Import ListNotations.
Open Scope char_scope.

Section Props.
Variable V : Type.
Variable num : list ascii -> V.
Variable erange : list ascii -> bool.
Variable vadd vsub vmul vdiv vpow : V -> V -> V.
Variable vneg : V -> V.
Variable is_zero : V -> bool.
Variable lib1 : list ascii -> V -> V.
Variable lib2 : list ascii -> V -> V -> V.
Variable to_int : V -> Z.
Variable constants : list ascii -> option V.

Notation means := (means V num vadd vsub vmul vdiv vpow vneg (fun v => is_zero v = true) lib1 lib2 constants).
Notation eval_expression := (eval_expression V num erange vadd vsub vmul vdiv vpow vneg is_zero lib1 lib2 to_int constants).

(** C62: every string that spells an expression evaluates to the value of that expression by the
    usual precedences, or throws if the expression has no value. [strtod] handles a sign the way
    the evaluator does; names are not those which strtod reads as numbers; numerals are in range. *)
Theorem C62_value :
  (forall lit, numeral lit -> num ("+" :: lit) = num lit /\ num ("-" :: lit) = vneg (num lit) /\
     erange ("+" :: lit) = erange lit /\ erange ("-" :: lit) = erange lit) ->
  forall l e s fuel matrices, spell l s -> Expr l e ->
  (forall x, In x (names e) -> ~ number_name x) ->
  (forall lit, In lit (numerals e) -> erange lit = false) ->
  List.length s < fuel ->
  (exists v, eval_expression fuel matrices s = Some (Val v) /\ means e v) \/
  (eval_expression fuel matrices s = Some Thrown /\ forall v, ~ means e v).
Proof.
  intros HN l e s fuel m HS HE H1 H2 HF.
  assert (E : eval_expression fuel m s = Some (pipeline V vadd vsub vmul vdiv vpow vneg is_zero lib1 lib2 (conv V num constants l []))).
  { apply eval_expression_ok with e; auto; intros lit HL; destruct (HN lit HL) as (A & B & C & D); auto. }
  rewrite E.
  destruct (pipeline_expression V num erange vadd vsub vmul vdiv vpow vneg is_zero lib1 lib2 to_int constants l e HE) as [(v & -> & M)|[-> M]].
  - left. exists v. auto.
  - right. auto.
Qed.

(** C63: if every point is followed by a digit, the evaluation ends, and a number of steps
    proportional to the length of the string is enough. *)
Theorem C63_terminates : forall s matrices, points_followed s ->
  exists r, forall fuel, List.length s < fuel -> eval_expression fuel matrices s = Some r.
Proof.
  intros s m H.
  pose proof (eval_total V num erange vadd vsub vmul vdiv vpow vneg is_zero lib1 lib2 to_int constants 65 (S (List.length s)) m s H) as T.
  unfold GdmlModel.eval_expression in *.
  destruct (eval V num erange vadd vsub vmul vdiv vpow vneg is_zero lib1 lib2 to_int constants 65 (S (List.length s)) m s) as [r|] eqn:E;
    [|exfalso; apply T; auto].
  exists r. intros fuel HF. replace fuel with (S (List.length s) + (fuel - S (List.length s))) by lia.
  apply eval_more. exact E.
Qed.

(** The limit on the depth of recursion is never reached: a budget of two levels gives the same. *)
Theorem C63_depth : forall fuel matrices s, eval_expression fuel matrices s =
  eval V num erange vadd vsub vmul vdiv vpow vneg is_zero lib1 lib2 to_int constants 2 fuel matrices s.
Proof. intros. unfold GdmlModel.eval_expression. apply (eval_depth _ _ _ _ _ _ _ _ _ _ _ _ _ _ 63 0). Qed.

(** Every accepted string has balanced parentheses. *)
Theorem C63_balanced : forall fuel matrices s v,
  eval_expression fuel matrices s = Some (Val v) -> balanced s.
Proof.
  intros fuel m s v. rewrite C63_depth.
  exact (eval_balanced V num erange vadd vsub vmul vdiv vpow vneg is_zero lib1 lib2 to_int constants 2 fuel m s v).
Qed.

(** A sequence of tokens is accepted only if it has one operand more than binary operators, not
    counting at most one operand for each comma. *)
Theorem C63_counts : forall fuel ev matrices s ts v,
  tokenize V num to_int constants fuel ev matrices s [] = Some (Val ts) ->
  evaluate_tokens V vadd vsub vmul vdiv vpow vneg is_zero lib1 lib2 ts = Val v ->
  let operands := List.length (filter (fun t => match t with NUM _ => true | _ => false end) ts) in
  let operators := List.length (filter (fun t => match t with OP _ => true | _ => false end) ts) in
  let commas := List.length (filter (fun t => match t with COMMA => true | _ => false end) ts) in
  operators + 1 <= operands <= operators + commas + 1.
Proof.
  intros fuel ev m s ts v HT HE. apply tokenize_fresh in HT; [|constructor].
  exact (evaluate_counts V vadd vsub vmul vdiv vpow vneg is_zero lib1 lib2 ts v HT HE).
Qed.
End Props.

(** ** Cases: integers as values *)

Fixpoint zdigits (s : list ascii) (acc : Z) : Z :=
  match s with
  | [] => acc
  | c :: s => zdigits s (if is_digit c then acc * 10 + Z.of_nat (nat_of_ascii c - 48) else acc)%Z
  end.
Definition znum (s : list ascii) : Z :=
  match s with "-" :: r => (- zdigits r 0)%Z | "+" :: r => zdigits r 0 | _ => zdigits s 0 end.
Definition zlib1 (f : list ascii) (v : Z) : Z := if str_eqb f (text "abs") then Z.abs v else 0%Z.
Definition zlib2 (f : list ascii) (v w : Z) : Z := if str_eqb f (text "max") then Z.max v w else Z.min v w.
Definition zconst (x : list ascii) : option Z :=
  if str_eqb x (text "x") then Some 4%Z else if str_eqb x (text "inf") then Some 5%Z else None.
Definition zmat (x : list ascii) : option (Z * list Z) :=
  if str_eqb x (text "m") then Some (1%Z, [7%Z; 8%Z]) else None.
Definition zev (erange : list ascii -> bool) (fuel : nat) (s : string) : option (result Z) :=
  GdmlModel.eval_expression Z znum erange Z.add Z.sub Z.mul Z.quot Z.pow Z.opp (Z.eqb 0) zlib1 zlib2 (fun v => v) zconst fuel zmat (text s).
Definition no_erange (s : list ascii) : bool := false.

Lemma znum_sign : forall lit, numeral lit -> znum ("+" :: lit) = znum lit /\ znum ("-" :: lit) = Z.opp (znum lit) /\
  no_erange ("+" :: lit) = no_erange lit /\ no_erange ("-" :: lit) = no_erange lit.
Proof.
  intros lit H. destruct (numeral_head lit H) as (c & r & -> & Hc).
  assert (E : znum (c :: r) = zdigits (c :: r) 0).
  { destruct (digit_kind c Hc) as (_ & _ & _ & _ & _ & _ & E1 & E2). unfold znum.
    destruct c as [[|] [|] [|] [|] [|] [|] [|] [|]]; try reflexivity; discriminate. }
  rewrite E. auto.
Qed.

Definition case_symbols : list sym :=
  [SNum (chars "2"); SAdd; SNum (chars "3"); SMul; SSub; SVar (chars "x"); SPow; SNum (chars "2");
   SSub; SFun (chars "max"); SOpen; SNum (chars "1"); SComma; SVar (chars "x"); SClose].
Definition case_ast : ast :=
  Bin Sub (Bin Add (Num (chars "2"))
             (Bin Mul (Num (chars "3")) (Neg (Bin Pow (Var (chars "x")) (Num (chars "2"))))))
    (Call2 (chars "max") (Num (chars "1")) (Var (chars "x"))).

Lemma one_digit : forall c, is_digit c = true -> numeral [c].
Proof.
  intros c H. exists [c], [], []. repeat split; auto; [|left; discriminate].
  constructor; [now apply digit_iff|constructor].
Qed.

Ltac no_chars := try match goal with |- ?P ?s => let t := eval cbv in s in change (P t) end; cbn [stops_number stops_name]; rewrite ?letter_iff, ?digit_iff; repeat split; discriminate.

(** The hypotheses of C62_value hold for 2 + 3*-x^2 - max (1, x), and the value is -50 for x = 4. *)
Example C62_case :
  spell case_symbols (chars "2 + 3*-x^2 - max (1, x)") /\ Expr case_symbols case_ast /\
  (forall x, In x (names case_ast) -> ~ number_name x) /\
  zev no_erange 24 "2 + 3*-x^2 - max (1, x)" = Some (Val (-50)%Z).
Proof.
  split; [|split; [|split; [|reflexivity]]].
  - unfold case_symbols. change (chars "2 + 3*-x^2 - max (1, x)") with (chars "2" ++ chars " + 3*-x^2 - max (1, x)").
    apply sp_num; [apply one_digit; reflexivity|no_chars|].
    apply sp_white; [left; reflexivity|]. apply sp_add. apply sp_white; [left; reflexivity|].
    apply (sp_num (chars "3")); [apply one_digit; reflexivity|no_chars|].
    apply sp_mul, sp_sub.
    apply (sp_var (chars "x")); [exists "x", []; repeat split; [apply letter_iff; reflexivity|constructor]|no_chars|discriminate|].
    apply sp_pow. apply (sp_num (chars "2")); [apply one_digit; reflexivity|no_chars|].
    apply sp_white; [left; reflexivity|]. apply sp_sub. apply sp_white; [left; reflexivity|].
    apply (sp_fun (chars "max") [" "]).
    + exists "m", ["a"; "x"]. repeat split; [apply letter_iff; reflexivity|].
      repeat constructor; left; apply letter_iff; reflexivity.
    + constructor; [left; reflexivity|constructor].
    + apply (sp_num (chars "1")); [apply one_digit; reflexivity|no_chars|].
      apply sp_comma. apply sp_white; [left; reflexivity|].
      apply (sp_var (chars "x")); [exists "x", []; repeat split; [apply letter_iff; reflexivity|constructor]|no_chars|discriminate|].
      apply sp_close, sp_end.
  - apply (E_sub [SNum (chars "2"); SAdd; SNum (chars "3"); SMul; SSub; SVar (chars "x"); SPow; SNum (chars "2")]).
    + apply (E_add [SNum (chars "2")]); [apply E_term, T_factor, F_base, B_num|].
      apply (T_mul [SNum (chars "3")]); [apply T_factor, F_base, B_num|].
      apply F_neg. apply (F_pow [SVar (chars "x")]); [apply B_var|apply F_base, B_num].
    + apply T_factor, F_base. apply (B_call2 (chars "max") [SNum (chars "1")] [SVar (chars "x")]);
        apply E_term, T_factor, F_base; constructor.
  - unfold number_name. cbn. intros x H. intuition (subst; discriminate).
Qed.

(** Errors of sub-expressions: a division by zero, an unknown name, an unknown function. *)
Example C62_case_errors : zev no_erange 20 "1/(x-4)" = Some Thrown /\ zev no_erange 20 "1+y" = Some Thrown /\
  zev no_erange 20 "foo(1)" = Some Thrown /\ zev no_erange 20 "max(1)" = Some Thrown /\
  zev no_erange 20 "-2^2" = Some (Val (-4)%Z) /\ zev no_erange 20 "7-2-1" = Some (Val 4%Z) /\ zev no_erange 20 "2^3^2" = Some (Val 512%Z).
Proof. repeat split; reflexivity. Qed.

(** A constant called inf (or nan) is hidden when it stands alone: strtod reads it as a number.
    So is a call of an unknown function nan. *)
Theorem C62_number_name_refuted : exists fuel,
  zconst (text "inf") = Some 5%Z /\ zev no_erange fuel "inf+0" = Some (Val 5%Z) /\
  zev no_erange fuel "inf" = Some (Val (znum (text "inf"))) /\ znum (text "inf") <> 5%Z /\
  zev no_erange fuel "nan(1)" = Some (Val (znum (text "nan(1)"))) /\ zev no_erange fuel "nan(1)+0" = Some Thrown.
Proof. exists 20. repeat split; discriminate. Qed.

(** A line break between the name of a function and its parenthesis is not skipped. *)
Theorem C62_line_break_refuted : exists fuel,
  zev no_erange fuel "max (1,2)" = Some (Val 2%Z) /\
  zev no_erange fuel (String.append "max" (String "010" "(1,2)"))%string = Some Thrown.
Proof. exists 20. split; reflexivity. Qed.

(** A numeral out of range is an error when it stands alone, but not inside an expression. *)
Theorem C62_range_refuted : exists erange fuel, erange (text "1e999") = true /\
  zev erange fuel "1e999" = Some Thrown /\ zev erange fuel "(1e999)" = Some (Val (znum (text "1e999"))).
Proof. exists (str_eqb (text "1e999")), 20. repeat split; reflexivity. Qed.

(** The index of a matrix element is cut at the last comma, even inside a call. *)
Theorem C62_index_refuted : exists fuel,
  zev no_erange fuel "m[2]" = Some (Val 8%Z) /\ zev no_erange fuel "max(1,2)" = Some (Val 2%Z) /\
  zev no_erange fuel "m[max(1,2)]" = Some Thrown.
Proof. exists 20. repeat split; reflexivity. Qed.

(** C63: a point that is not followed by a digit and does not belong to a numeral keeps the
    tokenizer in its loop for ever. *)
Theorem C63_terminates_refuted : exists s, forall fuel, zev no_erange fuel s = None.
Proof.
  exists "1+."%string. intros fuel. unfold zev. rewrite C63_depth. change 2 with (1 + 1). generalize 1 at 2. intros b. cbn [Nat.add].
  cbn [GdmlModel.eval]. cbv zeta.
  change (trim (text "1+.")) with ["1"; "+"; "."].
  change (negb (strtod_len ["1"; "+"; "."] =? 0)%nat && (strtod_len ["1"; "+"; "."] =? List.length ["1"; "+"; "."])%nat) with false.
  change (forallb ident_char ["1"; "+"; "."] && ident_start "1") with false. cbv iota.
  assert (T : forall ev m, tokenize Z znum (fun v => v) zconst fuel ev m ["1"; "+"; "."] [] = None).
  { intros ev m. destruct fuel as [|[|fuel]]; try reflexivity.
    exact (lone_point Z znum (fun v => v) zconst fuel ev m [OP "+"; NUM 1%Z] [] Logic.I). }
  rewrite T. reflexivity.
Qed.

(** Every string of which all points belong to numerals like 1.5 meets the hypothesis of
    C63_terminates; the counts of C63_counts for max(1,2)+3. *)
Example C63_case : points_followed (text "1.5*(x-2.25)") /\ balanced (text "1.5*(x-2.25)") /\
  zev no_erange 13 "1.5*(x-2.25)" <> None /\
  tokenize Z znum (fun v => v) zconst 20 (fun _ => None) zmat (text "max(1,2)+3") [] =
    Some (Val [FUNC (text "max") 1; LPAREN; NUM 1%Z; COMMA; NUM 2%Z; RPAREN; OP "+"; NUM 3%Z]) /\
  zev no_erange 20 "(1+2" = Some Thrown /\ zev no_erange 20 "1 2" = Some Thrown /\ zev no_erange 20 "1+" = Some Thrown.
Proof.
  split; [|repeat split; try reflexivity; discriminate].
  intros a b H.
  assert (G : forall s, forallb (fun k => match skipn k s with
      | "." :: c :: _ => is_digit c | ["."] => false | _ => true end) (seq 0 (List.length s)) = true -> points_followed s).
  { clear. intros s H a b ->. rewrite forallb_forall in H. specialize (H (List.length a)).
    rewrite skipn_app_length in H. destruct b as [|c q].
    - discriminate H. apply in_seq. rewrite app_length. cbn. lia.
    - exists c, q. split; auto. apply digit_iff. apply H. apply in_seq. rewrite app_length. cbn. lia. }
  exact (G (text "1.5*(x-2.25)") eq_refl a b H).
Qed.

(** Malformed strings are accepted: operators may follow their operands, the argument of a
    function may stand before it, and the empty string counts as zero. *)
Theorem C63_malformed_refuted : exists s fuel v, zev no_erange fuel s = Some (Val v) /\ ~ well_formed (text s).
Proof.
  exists "1 2 +"%string, 20, 3%Z. split; [reflexivity|]. intros (l & e & HS & HE).
  set (none := fun _ : list ascii => @None Z).
  pose proof (tokenize_spell Z znum no_erange Z.add Z.sub Z.mul Z.quot Z.pow Z.opp (Z.eqb 0) zlib1 zlib2 (fun v => v) none l _ HS (fun _ => None) (fun _ => None) []) as T.
  change (tokenize Z znum (fun v => v) none (S (List.length (text "1 2 +"))) (fun _ => None) (fun _ => None) (text "1 2 +") [])
    with (Some (Val [NUM 1%Z; NUM 2%Z; @OP Z "+"])) in T.
  injection T as T.
  destruct (known_dec Z znum no_erange Z.add Z.sub Z.mul Z.quot Z.pow Z.opp (Z.eqb 0) zlib1 zlib2 (fun v => v) none e) as [K|K].
  - destruct (proj1 (conv_grammar Z znum none) l e HE K) as (ts & _ & A2 & A3).
    specialize (A3 [] [] eq_refl). specialize (A2 []). rewrite !app_nil_r in *. rewrite A3 in T. cbn in T.
    rewrite rev_involutive in T. injection T as T. rewrite <- T in A2. discriminate A2.
  - destruct (proj1 (unknown_grammar Z znum no_erange Z.add Z.sub Z.mul Z.quot Z.pow Z.opp (Z.eqb 0) zlib1 zlib2 (fun v => v) none) l e HE K) as (x & H1 & H2).
    rewrite (conv_unknown Z znum none l [] x H1 H2) in T. discriminate T.
Qed.

Example C63_malformed_case : zev no_erange 20 "3 abs()" = Some (Val 3%Z) /\ zev no_erange 20 "" = Some (Val 0%Z) /\
  zev no_erange 20 "1(2+)" = Some (Val 3%Z).
Proof. repeat split; reflexivity. Qed.

Print Assumptions C62_value.
Print Assumptions C62_number_name_refuted.
Print Assumptions C62_line_break_refuted.
Print Assumptions C62_range_refuted.
Print Assumptions C62_index_refuted.
Print Assumptions C63_terminates.
Print Assumptions C63_depth.
Print Assumptions C63_balanced.
Print Assumptions C63_counts.
Print Assumptions C63_terminates_refuted.
Print Assumptions C63_malformed_refuted.
