(** Model of the evaluation of expressions in GDML files.
    Sources: projects/detector/private/gdml/GDMLExpression.cxx and
             projects/detector/private/gdml/GDMLParserPrivate.h.
    Strings are lists of characters. *)
From Coq Require Import List Bool Arith ZArith Ascii String.
Import ListNotations.
Open Scope char_scope.

(** A text in quotes as a list of characters; modelling device for the string literals of
    GDMLExpression.cxx. GDMLExpression.cxx:57-78. *)
Definition text (s : string) : list ascii := list_ascii_of_string s.

(** Equality of strings, as in GDMLExpression.cxx:60-75. *)
Fixpoint str_eqb (a b : list ascii) : bool :=
  match a, b with
  | [], [] => true
  | x :: a, y :: b => Ascii.eqb x y && str_eqb a b
  | _, _ => false
  end.

(** ** Characters *)

(** [std::isdigit] as used in GDMLExpression.cxx:113. *)
Definition is_digit (c : ascii) : bool := ((48 <=? nat_of_ascii c) && (nat_of_ascii c <=? 57))%nat.

(** [std::isalpha] in the C locale, GDMLParserPrivate.h:71. *)
Definition is_alpha (c : ascii) : bool :=
  let n := nat_of_ascii c in (((65 <=? n) && (n <=? 90)) || ((97 <=? n) && (n <=? 122)))%nat.

(** GDMLParserPrivate.h:70-72, [IsIdentStart]. *)
Definition ident_start (c : ascii) : bool := is_alpha c || Ascii.eqb c "_".

(** GDMLParserPrivate.h:74-76, [IsIdentChar]. *)
Definition ident_char (c : ascii) : bool := is_alpha c || is_digit c || Ascii.eqb c "_".

(** GDMLExpression.cxx:23 and 91: the characters skipped. *)
Definition blank (c : ascii) : bool :=
  Ascii.eqb c " " || Ascii.eqb c "009" || Ascii.eqb c "010" || Ascii.eqb c "013".

(** GDMLExpression.cxx:126: the characters skipped behind a name. *)
Definition tab (c : ascii) : bool := Ascii.eqb c " " || Ascii.eqb c "009".

(** GDMLExpression.cxx:97. *)
Definition op_char (c : ascii) : bool :=
  Ascii.eqb c "+" || Ascii.eqb c "-" || Ascii.eqb c "*" || Ascii.eqb c "/" || Ascii.eqb c "^".

(** The longest prefix of characters satisfying a test, and what follows: the loops of
    GDMLExpression.cxx:123 and 126. *)
Fixpoint take_while (f : ascii -> bool) (s : list ascii) : list ascii :=
  match s with c :: r => if f c then c :: take_while f r else [] | [] => [] end.
(** The rest behind [take_while], GDMLExpression.cxx:123 and 126. *)
Fixpoint drop_while (f : ascii -> bool) (s : list ascii) : list ascii :=
  match s with c :: r => if f c then drop_while f r else s | [] => [] end.

(** GDMLExpression.cxx:22-27, [TrimWhitespace]. *)
Definition trim (s : list ascii) : list ascii := rev (drop_while blank (rev (drop_while blank s))).

(** ** strtod *)

(** How many characters [std::strtod] converts (called in GDMLExpression.cxx:115 and 213), by
    the C standard (7.22.1.3) in the C locale: digits. *)
Definition digits_len (s : list ascii) : nat := List.length (take_while is_digit s).

(** Hexadecimal digits of a [strtod] subject, GDMLExpression.cxx:115 and 213. *)
Definition is_hex (c : ascii) : bool :=
  let n := nat_of_ascii c in (is_digit c || ((65 <=? n) && (n <=? 70)) || ((97 <=? n) && (n <=? 102)))%nat.

(** Digits with an optional point, at least one digit; part of [strtod], GDMLExpression.cxx:115
    and 213. *)
Definition mantissa_len (digit : ascii -> bool) (s : list ascii) : nat :=
  let a := List.length (take_while digit s) in
  match drop_while digit s with
  | "." :: r =>
      let b := List.length (take_while digit r) in
      if (a + b =? 0)%nat then 0 else a + 1 + b
  | _ => a
  end.

(** An optional exponent behind one of two letters; part of [strtod], GDMLExpression.cxx:115 and
    213. *)
Definition exponent_len (l1 l2 : ascii) (s : list ascii) : nat :=
  match s with
  | c :: r =>
      if Ascii.eqb c l1 || Ascii.eqb c l2 then
        match r with
        | g :: q =>
            if Ascii.eqb g "+" || Ascii.eqb g "-" then
              (if (digits_len q =? 0)%nat then 0 else 2 + digits_len q)
            else (if (digits_len r =? 0)%nat then 0 else 1 + digits_len r)
        | [] => 0
        end
      else 0
  | [] => 0
  end.

(** A decimal number; part of [strtod], GDMLExpression.cxx:115 and 213. *)
Definition decimal_len (s : list ascii) : nat :=
  let n := mantissa_len is_digit s in
  if (n =? 0)%nat then 0 else n + exponent_len "e" "E" (skipn n s).

(** A hexadecimal number behind 0x; part of [strtod], GDMLExpression.cxx:115 and 213. *)
Definition hex_len (s : list ascii) : nat :=
  let n := mantissa_len is_hex s in
  if (n =? 0)%nat then 0 else n + exponent_len "p" "P" (skipn n s).

(** Lower case, for the comparison of letters in [strtod], GDMLExpression.cxx:115 and 213. *)
Definition lower (c : ascii) : ascii :=
  let n := nat_of_ascii c in if ((65 <=? n) && (n <=? 90))%nat then ascii_of_nat (n + 32) else c.

(** Does [s] start with [p] (in lower case), ignoring case; part of [strtod],
    GDMLExpression.cxx:115 and 213. *)
Definition starts_with (p s : list ascii) : bool :=
  str_eqb p (map lower (firstn (List.length p) s)).

(** INF, INFINITY, NAN and NAN(...); part of [strtod], GDMLExpression.cxx:115 and 213. *)
Definition special_len (s : list ascii) : nat :=
  if starts_with (text "infinity") s then 8
  else if starts_with (text "inf") s then 3
  else if starts_with (text "nan") s then
    match skipn 3 s with
    | "(" :: r =>
        match drop_while ident_char r with
        | ")" :: _ => 5 + List.length (take_while ident_char r)
        | _ => 3
        end
    | _ => 3
    end
  else 0.

(** The number without sign; part of [strtod], GDMLExpression.cxx:115 and 213. *)
Definition unsigned_len (s : list ascii) : nat :=
  match s with
  | c :: x :: r =>
      if Ascii.eqb c "0" && (Ascii.eqb x "x" || Ascii.eqb x "X") then
        (if (hex_len r =? 0)%nat then 1 else 2 + hex_len r)
      else if is_digit c || Ascii.eqb c "." then decimal_len s else special_len s
  | _ => decimal_len s
  end.

(** [std::isspace], the characters [strtod] skips, GDMLExpression.cxx:213. *)
Definition space (c : ascii) : bool := blank c || Ascii.eqb c "011" || Ascii.eqb c "012".

(** [std::strtod]: the number of characters converted, 0 if there is no number.
    GDMLExpression.cxx:115, 213. *)
Definition strtod_len (s : list ascii) : nat :=
  let w := List.length (take_while space s) in
  match drop_while space s with
  | c :: r =>
      if Ascii.eqb c "+" || Ascii.eqb c "-" then
        (if (unsigned_len r =? 0)%nat then 0 else w + 1 + unsigned_len r)
      else
        (if (unsigned_len (c :: r) =? 0)%nat then 0 else w + unsigned_len (c :: r))
  | [] => 0
  end.

(** ** Evaluation *)

(** A call returns a value or throws. Modelling device for GDMLExpression.cxx:57-369. *)
Inductive result (A : Type) := Val (a : A) | Thrown.
Arguments Val {A} a.
Arguments Thrown {A}.

(** GDMLExpression.cxx:34-42, a token with the members its kind uses. *)
Inductive token (V : Type) :=
| NUM (v : V) | OP (c : ascii) | LPAREN | RPAREN | COMMA | FUNC (name : list ascii) (argc : nat) | UNARY_NEG.
Arguments NUM {V} v.
Arguments OP {V} c.
Arguments LPAREN {V}.
Arguments RPAREN {V}.
Arguments COMMA {V}.
Arguments FUNC {V} name argc.
Arguments UNARY_NEG {V}.

(** GDMLExpression.cxx:44-49, [OpPrecedence]. *)
Definition op_precedence (c : ascii) : nat :=
  if Ascii.eqb c "+" || Ascii.eqb c "-" then 1
  else if Ascii.eqb c "*" || Ascii.eqb c "/" then 2
  else if Ascii.eqb c "^" then 3 else 0.

(** GDMLExpression.cxx:51-53, [IsRightAssociative]. *)
Definition right_associative (c : ascii) : bool := Ascii.eqb c "^".

Section Eval.
(** The values, doubles in the code. GDMLExpression.cxx:80. *)
Variable V : Type.
(** The value [strtod] gives the characters it converts (0 if there are none), and whether it
    reports that the value is out of range. GDMLExpression.cxx:115, 213. *)
Variable num : list ascii -> V.
(** GDMLExpression.cxx:115, 213, whether the value is out of range. *)
Variable erange : list ascii -> bool.
(** Arithmetic and the functions of the mathematical library by name.
    GDMLExpression.cxx:57-78, 325-333. *)
Variable vadd vsub vmul vdiv vpow : V -> V -> V.
(** GDMLExpression.cxx:338-344, negation. *)
Variable vneg : V -> V.
(** GDMLExpression.cxx:329, comparison of a divisor with zero. *)
Variable is_zero : V -> bool.
(** GDMLExpression.cxx:57-78, functions of one argument. *)
Variable lib1 : list ascii -> V -> V.
(** GDMLExpression.cxx:57-78, functions of two arguments. *)
Variable lib2 : list ascii -> V -> V -> V.
(** [static_cast<int>(x + 0.5)]. GDMLExpression.cxx:164-165, 175. *)
Variable to_int : V -> Z.
(** The map of constants. GDMLExpression.cxx:185, 228. *)
Variable constants : list ascii -> option V.

(** The map of matrices: number of columns and entries, GDMLExpression.cxx:85 and 153-154. *)
Definition matrix_map := list ascii -> option (Z * list V).

(** The empty map of GDMLExpression.cxx:162, 163 and 174. *)
Definition no_matrices : matrix_map := fun _ => None.

(** GDMLExpression.cxx:57-78, [ApplyFunc] for one and two arguments. *)
Definition apply1 (name : list ascii) (a : V) : result V :=
  if existsb (str_eqb name)
       (map text ["sin"; "cos"; "tan"; "asin"; "acos"; "atan"; "exp"; "log"; "sqrt"; "abs"]%string)
  then Val (lib1 name a) else Thrown.
(** GDMLExpression.cxx:70-77. *)
Definition apply2 (name : list ascii) (a b : V) : result V :=
  if existsb (str_eqb name) (map text ["pow"; "atan2"; "min"; "max"]%string)
  then Val (lib2 name a b) else Thrown.

(** GDMLExpression.cxx:98-101: may a sign be unary here; [acc] are the tokens so far, last
    first. *)
Definition prefix_position (acc : list (token V)) : bool :=
  match acc with
  | [] | LPAREN :: _ | OP _ :: _ | COMMA :: _ | UNARY_NEG :: _ => true
  | _ => false
  end.

(** GDMLExpression.cxx:138-149: from behind the bracket, the position of the closing bracket and
    of the last comma outside inner brackets. *)
Fixpoint scan_bracket (s : list ascii) (depth : nat) (pos : nat) (comma : option nat) : option (nat * option nat) :=
  match s with
  | [] => None
  | c :: r =>
      if Ascii.eqb c "[" then scan_bracket r (S depth) (S pos) comma
      else if Ascii.eqb c "]" then
        match depth with
        | S (S d) => scan_bracket r (S d) (S pos) comma
        | _ => Some (pos, comma)
        end
      else if Ascii.eqb c "," && (depth =? 1)%nat then scan_bracket r depth (S pos) (Some pos)
      else scan_bracket r depth (S pos) comma
  end.

(** GDMLExpression.cxx:166-170 and 176-180: the entry at a position. Simplified: [int] does not
    overflow. *)
Definition entry (vals : list V) (flat : Z) : result V :=
  if ((flat <? 0) || (Z.of_nat (List.length vals) <=? flat))%Z then Thrown
  else match nth_error vals (Z.to_nat flat) with Some v => Val v | None => Thrown end.

(** GDMLExpression.cxx:84-198, [Tokenize]; [ev] evaluates an index (with no matrices). [None] is
    running out of [fuel], which counts the iterations of the loop. *)
Fixpoint tokenize (fuel : nat) (ev : list ascii -> option (result V)) (matrices : matrix_map)
    (s : list ascii) (acc : list (token V)) : option (result (list (token V))) :=
  match fuel with
  | O => None
  | S fuel =>
      match s with
      | [] => Some (Val (rev acc))
      | c :: r =>
          if blank c then tokenize fuel ev matrices r acc
          else if Ascii.eqb c "(" then tokenize fuel ev matrices r (LPAREN :: acc)
          else if Ascii.eqb c ")" then tokenize fuel ev matrices r (RPAREN :: acc)
          else if Ascii.eqb c "," then tokenize fuel ev matrices r (COMMA :: acc)
          else if op_char c then
            let unary := (Ascii.eqb c "-" || Ascii.eqb c "+") && prefix_position acc in
            if unary && Ascii.eqb c "-" then tokenize fuel ev matrices r (UNARY_NEG :: acc)
            else if unary && Ascii.eqb c "+" then tokenize fuel ev matrices r acc
            else tokenize fuel ev matrices r (OP c :: acc)
          else if is_digit c || Ascii.eqb c "." then
            let k := strtod_len s in
            tokenize fuel ev matrices (skipn k s) (NUM (num (firstn k s)) :: acc)
          else if ident_start c then
            let name := take_while ident_char s in
            let rest := drop_while ident_char s in
            match drop_while tab rest with
            | "(" :: _ => tokenize fuel ev matrices rest (FUNC name 1 :: acc)
            | "[" :: body =>
                match matrices name with
                | None => Some Thrown
                | Some (coldim, vals) =>
                    match scan_bracket body 1 0 None with
                    | None => Some Thrown
                    | Some (fin, Some comma) =>
                        match ev (firstn comma body), ev (firstn (fin - comma - 1) (skipn (S comma) body)) with
                        | Some (Val row), Some (Val col) =>
                            match entry vals ((to_int row - 1) * coldim + (to_int col - 1)) with
                            | Val v => tokenize fuel ev matrices (skipn (S fin) body) (NUM v :: acc)
                            | Thrown => Some Thrown
                            end
                        | Some Thrown, _ => Some Thrown
                        | Some (Val _), Some Thrown => Some Thrown
                        | None, _ | _, None => None
                        end
                    | Some (fin, None) =>
                        match ev (firstn fin body) with
                        | Some (Val idx) =>
                            match entry vals (to_int idx - 1) with
                            | Val v => tokenize fuel ev matrices (skipn (S fin) body) (NUM v :: acc)
                            | Thrown => Some Thrown
                            end
                        | Some Thrown => Some Thrown
                        | None => None
                        end
                    end
                end
            | _ =>
                match constants name with
                | None => Some Thrown
                | Some v => tokenize fuel ev matrices rest (NUM v :: acc)
                end
            end
          else Some Thrown
      end
  end.

(** GDMLExpression.cxx:254-257 and 287-290: move operators to the output down to a parenthesis.
    The last element of stack and output comes first. *)
Fixpoint pop_to_paren (ops out : list (token V)) : list (token V) * list (token V) :=
  match ops with
  | [] => ([], out)
  | LPAREN :: _ => (ops, out)
  | t :: r => pop_to_paren r (t :: out)
  end.

(** GDMLExpression.cxx:268 and 272: the precedence of an operator token. *)
Definition precedence (t : token V) : nat :=
  match t with UNARY_NEG => 3 | OP c => op_precedence c | _ => 0 end.

(** GDMLExpression.cxx:271. *)
Definition is_operator (t : token V) : bool := match t with OP _ | UNARY_NEG => true | _ => false end.

(** GDMLExpression.cxx:270-279. *)
Fixpoint pop_operators (cur : nat) (right : bool) (ops out : list (token V)) : list (token V) * list (token V) :=
  match ops with
  | t :: r =>
      if is_operator t && (if right then (cur <? precedence t)%nat else (cur <=? precedence t)%nat)
      then pop_operators cur right r (t :: out) else (ops, out)
  | [] => (ops, out)
  end.

(** GDMLExpression.cxx:245-300: one token. *)
Definition shunt (t : token V) (st : list (token V) * list (token V)) : result (list (token V) * list (token V)) :=
  let '(ops, out) := st in
  match t with
  | NUM _ => Val (ops, t :: out)
  | FUNC _ _ => Val (t :: ops, out)
  | COMMA =>
      let '(ops, out) := pop_to_paren ops out in
      Val (match ops with p :: FUNC f n :: r => p :: FUNC f (S n) :: r | _ => ops end, out)
  | UNARY_NEG =>
      let '(ops, out) := pop_operators 3 true ops out in Val (t :: ops, out)
  | OP c =>
      let '(ops, out) := pop_operators (op_precedence c) (right_associative c) ops out in Val (t :: ops, out)
  | LPAREN => Val (t :: ops, out)
  | RPAREN =>
      let '(ops, out) := pop_to_paren ops out in
      match ops with
      | [] => Thrown
      | _ :: ops =>
          match ops with
          | FUNC f n :: r => Val (r, FUNC f n :: out)
          | _ => Val (ops, out)
          end
      end
  end.

(** GDMLExpression.cxx:244-301. *)
Fixpoint shunt_all (ts : list (token V)) (st : list (token V) * list (token V)) : result (list (token V) * list (token V)) :=
  match ts with
  | [] => Val st
  | t :: r => match shunt t st with Val st => shunt_all r st | Thrown => Thrown end
  end.

(** GDMLExpression.cxx:302-308. *)
Fixpoint flush (ops out : list (token V)) : result (list (token V)) :=
  match ops with
  | [] => Val out
  | LPAREN :: _ => Thrown
  | t :: r => flush r (t :: out)
  end.

(** GDMLExpression.cxx:314-363: one step of the evaluation; the top of the stack comes first. *)
Definition rpn_step (t : token V) (st : list V) : result (list V) :=
  match t with
  | NUM v => Val (v :: st)
  | OP c =>
      match st with
      | b :: a :: st =>
          if Ascii.eqb c "+" then Val (vadd a b :: st)
          else if Ascii.eqb c "-" then Val (vsub a b :: st)
          else if Ascii.eqb c "*" then Val (vmul a b :: st)
          else if Ascii.eqb c "/" then (if is_zero b then Thrown else Val (vdiv a b :: st))
          else if Ascii.eqb c "^" then Val (vpow a b :: st)
          else Val st
      | _ => Thrown
      end
  | UNARY_NEG => match st with a :: st => Val (vneg a :: st) | [] => Thrown end
  | FUNC f n =>
      if (2 <? n)%nat then Thrown
      else if (List.length st <? n)%nat then Thrown
      else match n, st with
           | 1, a :: st => match apply1 f a with Val v => Val (v :: st) | Thrown => Thrown end
           | 2, b :: a :: st => match apply2 f a b with Val v => Val (v :: st) | Thrown => Thrown end
           | _, _ => Thrown
           end
  | _ => Thrown
  end.

(** GDMLExpression.cxx:310-364. *)
Fixpoint rpn (ts : list (token V)) (st : list V) : result (list V) :=
  match ts with
  | [] => Val st
  | t :: r => match rpn_step t st with Val st => rpn r st | Thrown => Thrown end
  end.

(** GDMLExpression.cxx:238-368: from the tokens to the value. *)
Definition evaluate_tokens (ts : list (token V)) : result V :=
  match shunt_all ts ([], []) with
  | Thrown => Thrown
  | Val (ops, out) =>
      match flush ops out with
      | Thrown => Thrown
      | Val out => match rpn (rev out) [] with Val [v] => Val v | _ => Thrown end
      end
  end.

(** GDMLExpression.cxx:200-369, [EvalExpression]; [budget] is 65 minus the depth, so that 0 is the
    exception of line 204. *)
Fixpoint eval (budget : nat) (fuel : nat) (matrices : matrix_map) (expr : list ascii) : option (result V) :=
  match budget with
  | O => Some Thrown
  | S budget =>
      let s := trim expr in
      match s with
      | [] => Some (Val (num []))
      | c :: _ =>
          let k := strtod_len s in
          if negb (k =? 0)%nat && (k =? List.length s)%nat then
            (if erange s then Some Thrown else Some (Val (num s)))
          else
            let tokens :=
              match tokenize fuel (eval budget fuel no_matrices) matrices s [] with
              | None => None
              | Some Thrown => Some Thrown
              | Some (Val ts) => Some (evaluate_tokens ts)
              end in
            if forallb ident_char s && ident_start c then
              match constants s with
              | Some v => Some (Val v)
              | None => match matrices s with None => Some Thrown | Some _ => tokens end
              end
            else tokens
      end
  end.

(** GDMLExpression.cxx:200-202 with the default depth of GDMLParserPrivate.h. *)
Definition eval_expression (fuel : nat) (matrices : matrix_map) (expr : list ascii) : option (result V) :=
  eval 65 fuel matrices expr.

End Eval.
