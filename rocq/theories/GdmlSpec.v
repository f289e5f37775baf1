(** What an expression in a GDML file means: a grammar with the usual precedences, the way the
    symbols are written down, and the value. Written without reference to the evaluator. *)
From Coq Require Import List Bool Ascii String.
Import ListNotations.
Open Scope char_scope.

Definition chars (s : string) : list ascii := list_ascii_of_string s.

Definition digit (c : ascii) : Prop := In c (chars "0123456789").
Definition letter (c : ascii) : Prop :=
  In c (chars "abcdefghijklmnopqrstuvwxyzABCDEFGHIJKLMNOPQRSTUVWXYZ_").
Definition white (c : ascii) : Prop := c = " " \/ c = "009" \/ c = "010" \/ c = "013".

(** Decimal numerals: digits with an optional point and an optional exponent. *)
Definition numeral (lit : list ascii) : Prop :=
  exists whole frac expo, lit = whole ++ frac ++ expo /\ Forall digit whole /\
    (frac = [] \/ exists d, frac = "." :: d /\ Forall digit d) /\
    (whole <> [] \/ exists x d, frac = "." :: x :: d) /\
    (expo = [] \/ exists m sign x d, expo = m :: sign ++ x :: d /\ (m = "e" \/ m = "E") /\
       (sign = [] \/ sign = ["+"] \/ sign = ["-"]) /\ Forall digit (x :: d)).

Definition identifier (x : list ascii) : Prop :=
  exists c r, x = c :: r /\ letter c /\ Forall (fun c => letter c \/ digit c) r.

(** Names which the C library reads as numbers. *)
Definition fold_case (c : ascii) : ascii :=
  match find (fun p => Ascii.eqb (fst p) c)
          (combine (chars "ABCDEFGHIJKLMNOPQRSTUVWXYZ") (chars "abcdefghijklmnopqrstuvwxyz")) with
  | Some p => snd p
  | None => c
  end.
Definition number_name (x : list ascii) : Prop :=
  In (map fold_case x) [chars "inf"; chars "infinity"; chars "nan"].

(** ** Grammar *)

Inductive binop := Add | Sub | Mul | Div | Pow.

Inductive ast :=
| Num (lit : list ascii)
| Var (x : list ascii)
| Neg (a : ast)
| Bin (o : binop) (a b : ast)
| Call1 (f : list ascii) (a : ast)
| Call2 (f : list ascii) (a b : ast).

Inductive sym := SNum (lit : list ascii) | SVar (x : list ascii) | SFun (f : list ascii)
| SAdd | SSub | SMul | SDiv | SPow | SOpen | SClose | SComma.

Inductive Expr : list sym -> ast -> Prop :=
| E_term l e : Term l e -> Expr l e
| E_add a b x y : Expr a x -> Term b y -> Expr (a ++ SAdd :: b) (Bin Add x y)
| E_sub a b x y : Expr a x -> Term b y -> Expr (a ++ SSub :: b) (Bin Sub x y)
with Term : list sym -> ast -> Prop :=
| T_factor l e : Factor l e -> Term l e
| T_mul a b x y : Term a x -> Factor b y -> Term (a ++ SMul :: b) (Bin Mul x y)
| T_div a b x y : Term a x -> Factor b y -> Term (a ++ SDiv :: b) (Bin Div x y)
with Factor : list sym -> ast -> Prop :=
| F_base l e : Base l e -> Factor l e
| F_neg l e : Factor l e -> Factor (SSub :: l) (Neg e)
| F_plus l e : Factor l e -> Factor (SAdd :: l) e
| F_pow a b x y : Base a x -> Factor b y -> Factor (a ++ SPow :: b) (Bin Pow x y)
with Base : list sym -> ast -> Prop :=
| B_num lit : Base [SNum lit] (Num lit)
| B_var x : Base [SVar x] (Var x)
| B_paren l e : Expr l e -> Base (SOpen :: l ++ [SClose]) e
| B_call1 f l e : Expr l e -> Base (SFun f :: SOpen :: l ++ [SClose]) (Call1 f e)
| B_call2 f a b x y : Expr a x -> Expr b y ->
    Base (SFun f :: SOpen :: a ++ SComma :: b ++ [SClose]) (Call2 f x y).

(** ** Writing symbols down

    White space may stand between any two symbols, except that only blanks and tabs may stand
    between the name of a function and its parenthesis. A numeral or a name must not run into
    what follows. *)
Definition stops_number (s : list ascii) : Prop :=
  match s with c :: _ => ~ letter c /\ ~ digit c /\ c <> "." | [] => True end.
Definition stops_name (s : list ascii) : Prop :=
  match s with c :: _ => ~ letter c /\ ~ digit c | [] => True end.

Inductive spell : list sym -> list ascii -> Prop :=
| sp_end : spell [] []
| sp_white c l s : white c -> spell l s -> spell l (c :: s)
| sp_num lit l s : numeral lit -> stops_number s -> spell l s -> spell (SNum lit :: l) (lit ++ s)
| sp_var x l s : identifier x -> stops_name s -> (forall l', l <> SOpen :: l') -> spell l s ->
    spell (SVar x :: l) (x ++ s)
| sp_fun f gap l s : identifier f -> Forall (fun c => c = " " \/ c = "009") gap -> spell l s ->
    spell (SFun f :: SOpen :: l) (f ++ gap ++ "(" :: s)
| sp_add l s : spell l s -> spell (SAdd :: l) ("+" :: s)
| sp_sub l s : spell l s -> spell (SSub :: l) ("-" :: s)
| sp_mul l s : spell l s -> spell (SMul :: l) ("*" :: s)
| sp_div l s : spell l s -> spell (SDiv :: l) ("/" :: s)
| sp_pow l s : spell l s -> spell (SPow :: l) ("^" :: s)
| sp_open l s : spell l s -> spell (SOpen :: l) ("(" :: s)
| sp_close l s : spell l s -> spell (SClose :: l) (")" :: s)
| sp_comma l s : spell l s -> spell (SComma :: l) ("," :: s).

(** ** Value *)

Definition unary_functions : list (list ascii) :=
  map chars ["abs"; "acos"; "asin"; "atan"; "cos"; "exp"; "log"; "sin"; "sqrt"; "tan"]%string.
Definition binary_functions : list (list ascii) := map chars ["atan2"; "max"; "min"; "pow"]%string.

Section Value.
Variable V : Type.
Variable num : list ascii -> V.
Variable vadd vsub vmul vdiv vpow : V -> V -> V.
Variable vneg : V -> V.
Variable zero : V -> Prop.
Variable lib1 : list ascii -> V -> V.
Variable lib2 : list ascii -> V -> V -> V.
Variable constants : list ascii -> option V.

(** [means e v]: the expression is defined and has the value [v]. *)
Inductive means : ast -> V -> Prop :=
| m_num lit : means (Num lit) (num lit)
| m_var x v : constants x = Some v -> means (Var x) v
| m_neg a v : means a v -> means (Neg a) (vneg v)
| m_add a b v w : means a v -> means b w -> means (Bin Add a b) (vadd v w)
| m_sub a b v w : means a v -> means b w -> means (Bin Sub a b) (vsub v w)
| m_mul a b v w : means a v -> means b w -> means (Bin Mul a b) (vmul v w)
| m_div a b v w : means a v -> means b w -> ~ zero w -> means (Bin Div a b) (vdiv v w)
| m_pow a b v w : means a v -> means b w -> means (Bin Pow a b) (vpow v w)
| m_call1 f a v : In f unary_functions -> means a v -> means (Call1 f a) (lib1 f v)
| m_call2 f a b v w : In f binary_functions -> means a v -> means b w ->
    means (Call2 f a b) (lib2 f v w).
End Value.

(** Names of an expression. *)
Fixpoint names (e : ast) : list (list ascii) :=
  match e with
  | Num _ => []
  | Var x => [x]
  | Neg a => names a
  | Bin _ a b => names a ++ names b
  | Call1 f a => f :: names a
  | Call2 f a b => f :: names a ++ names b
  end.

(** Numerals of an expression. *)
Fixpoint numerals (e : ast) : list (list ascii) :=
  match e with
  | Num lit => [lit]
  | Var _ => []
  | Neg a => numerals a
  | Bin _ a b => numerals a ++ numerals b
  | Call1 _ a => numerals a
  | Call2 _ a b => numerals a ++ numerals b
  end.

(** A string is well formed if it spells an expression. *)
Definition well_formed (s : list ascii) : Prop := exists l e, spell l s /\ Expr l e.

(** Nesting of parentheses: the depth behind [s], if it never falls below zero. *)
Fixpoint nesting (s : list ascii) (d : nat) : option nat :=
  match s with
  | [] => Some d
  | c :: s =>
      if Ascii.eqb c "(" then nesting s (S d)
      else if Ascii.eqb c ")" then match d with S d => nesting s d | O => None end
      else nesting s d
  end.
Definition balanced (s : list ascii) : Prop := nesting s 0 = Some 0.

(** Every point is followed by a digit. *)
Definition points_followed (s : list ascii) : Prop :=
  forall a b, s = a ++ "." :: b -> exists c q, b = c :: q /\ digit c.
