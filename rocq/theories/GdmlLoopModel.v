(** Model of the expansion of loops in GDML files.
    Source: projects/detector/private/gdml/GDMLPreprocess.cxx. Strings are lists of characters. *)
From Coq Require Import List Bool Arith ZArith Ascii String.
From Verif Require Import GdmlModel.
Import ListNotations.
Open Scope char_scope.

(** ** Substitution *)

(** Does [s] start with [p]; part of [std::string::find] in GDMLPreprocess.cxx:324-325 and 343. *)
Fixpoint prefix_of (p s : list ascii) : bool :=
  match p, s with
  | [], _ => true
  | a :: p, c :: s => Ascii.eqb a c && prefix_of p s
  | _ :: _, [] => false
  end.

(** [std::string::find] from the start, GDMLPreprocess.cxx:324-325 and 343; [None] is npos. *)
Fixpoint find (p s : list ascii) : option nat :=
  if prefix_of p s then Some 0
  else match s with [] => None | _ :: r => option_map S (find p r) end.

(** [std::string::find] from a position, GDMLPreprocess.cxx:324-325 and 343. *)
Definition find_from (p s : list ascii) (pos : nat) : option nat :=
  if (pos <=? List.length s)%nat then option_map (Nat.add pos) (find p (skipn pos s)) else None.

(** [std::string::replace], GDMLPreprocess.cxx:331 and 347. *)
Definition replace (s : list ascii) (pos len : nat) (t : list ascii) : list ascii :=
  firstn pos s ++ t ++ skipn (pos + len) s.

(** Is there an identifier character at a position, GDMLPreprocess.cxx:344-345; no position is no
    character. *)
Definition ident_at (s : list ascii) (pos : nat) : bool :=
  match nth_error s pos with Some c => ident_char c | None => false end.

(** GDMLPreprocess.cxx:341-352, the second pass. [None] is running out of [fuel], which counts the
    iterations of the loop. *)
Fixpoint replace_names (fuel : nat) (x val result : list ascii) (pos : nat) : option (list ascii) :=
  match fuel with
  | O => None
  | S fuel =>
      match find_from x result pos with
      | None => Some result
      | Some pos =>
          let left_ok := (pos =? 0)%nat || negb (ident_at result (pos - 1)) in
          let right_ok := negb (ident_at result (pos + List.length x)) in
          if left_ok && right_ok
          then replace_names fuel x val (replace result pos (List.length x) val) (pos + List.length val)
          else replace_names fuel x val result (pos + List.length x)
      end
  end.

Section Loop.
(** Values (doubles), the map of constants, the evaluation of expressions (modelled in
    GdmlModel.v; [Thrown] is an exception) and the text of a value converted to an integer.
    GDMLPreprocess.cxx:314-331. *)
Variable V Env : Type.
(** GDMLPreprocess.cxx:329, the evaluation of an expression. *)
Variable ev : Env -> list ascii -> result V.
(** GDMLPreprocess.cxx:330-331, the text of an integer. *)
Variable print : V -> list ascii.

(** GDMLPreprocess.cxx:322-339, the first pass; the second component collects the expressions for
    which errors are recorded. *)
Fixpoint replace_brackets (fuel : nat) (env : Env) (result : list ascii) (pos : nat) (errors : list (list ascii))
    : option (list ascii * list (list ascii)) :=
  match fuel with
  | O => None
  | S fuel =>
      match find_from ["["] result pos with
      | None => Some (result, errors)
      | Some pos =>
          match find_from ["]"] result (pos + 1) with
          | None => Some (result, errors)
          | Some fin =>
              let expr := firstn (fin - pos - 1) (skipn (pos + 1) result) in
              match ev env expr with
              | Val v => replace_brackets fuel env (replace result pos (fin - pos + 1) (print v)) pos errors
              | Thrown => replace_brackets fuel env result (fin + 1) (errors ++ [expr])
              end
          end
      end
  end.

(** GDMLPreprocess.cxx:314-355, [SubstLoopVar], with the recorded errors. *)
Definition subst_loop_var (fuel : nat) (val x value : list ascii) (env : Env) : option (list ascii * list (list ascii)) :=
  match replace_brackets fuel env val 0 [] with
  | None => None
  | Some (r, errors) =>
      match replace_names fuel x value r 0 with Some t => Some (t, errors) | None => None end
  end.

(** ** Documents *)

(** An element: name, attributes, children. rapidxml nodes as used in GDMLPreprocess.cxx:359-382. *)
Inductive node := Node (name : list ascii) (attributes : list (list ascii * list ascii)) (children : list node).

(** GDMLExpression.cxx:14-19, [SafeAttrVal]: the first attribute of a name, or the empty string. *)
Fixpoint attribute (attrs : list (list ascii * list ascii)) (name : list ascii) : list ascii :=
  match attrs with
  | (n, v) :: r => if str_eqb n name then v else attribute r name
  | [] => []
  end.

(** GDMLPreprocess.cxx:370-376: the attributes of a clone. *)
Fixpoint clone_attributes (fuel : nat) (attrs : list (list ascii * list ascii)) (x value : list ascii) (env : Env)
    : option (list (list ascii * list ascii)) :=
  match attrs with
  | [] => Some []
  | (n, v) :: r =>
      match subst_loop_var fuel v x value env, clone_attributes fuel r x value env with
      | Some (t, _), Some r => Some ((n, t) :: r)
      | _, _ => None
      end
  end.

(** GDMLPreprocess.cxx:359-382, [CloneNodeWithSubst]; the errors recorded are left out. *)
Fixpoint clone (fuel : nat) (n : node) (x value : list ascii) (env : Env) : option node :=
  match n with
  | Node name attrs children =>
      match clone_attributes fuel attrs x value env,
            (fix clones (l : list node) : option (list node) :=
               match l with
               | [] => Some []
               | c :: l => match clone fuel c x value env, clones l with
                           | Some c, Some l => Some (c :: l)
                           | _, _ => None
                           end
               end) children with
      | Some attrs, Some children => Some (Node name attrs children)
      | _, _ => None
      end
  end.

(** GDMLPreprocess.cxx:467-471: all nodes of the body of a loop. *)
Fixpoint clone_all (fuel : nat) (l : list node) (x value : list ascii) (env : Env) : option (list node) :=
  match l with
  | [] => Some []
  | c :: l => match clone fuel c x value env, clone_all fuel l x value env with
              | Some c, Some l => Some (c :: l)
              | _, _ => None
              end
  end.

(** The value of an attribute (SafeParseDouble, GDMLExpression.cxx:373-385), the entry of the
    loop variable or zero (GDMLPreprocess.cxx:439-440), storing it (456), the arithmetic of the
    loop (444, 450-452) and the text of a value (458-465). *)
Variable parse : Env -> list ascii -> result V.
(** GDMLPreprocess.cxx:439-440. *)
Variable lookup : Env -> list ascii -> V.
(** GDMLPreprocess.cxx:456. *)
Variable store : Env -> list ascii -> V -> Env.
(** GDMLPreprocess.cxx:444. *)
Variable default_step : V -> V.
(** GDMLPreprocess.cxx:450-452. *)
Variable goes_on : V -> V -> V -> bool.
(** GDMLPreprocess.cxx:450-452. *)
Variable next : V -> V -> V.
(** GDMLPreprocess.cxx:458-465. *)
Variable format : V -> list ascii.
(** GDMLUnits.cxx:127-129. *)
Variable built_in : list ascii -> bool.

(** GDMLPreprocess.cxx:453: the largest number of iterations. *)
Definition max_iterations : nat := Z.to_nat 10000.

(** GDMLPreprocess.cxx:449-472: the iterations, [allowed] being those still allowed; the clones are
    collected in order. *)
Fixpoint iterate (fuel allowed : nat) (x : list ascii) (body : list node) (v to step : V) (env : Env) (clones : list node)
    : option (result (list node * Env)) :=
  if goes_on step v to then
    match allowed with
    | O => Some Thrown
    | S allowed =>
        let env := store env x v in
        match clone_all fuel body x (format v) env with
        | None => None
        | Some b => iterate fuel allowed x body (next v step) to step env (clones ++ b)
        end
    end
  else Some (Val (clones, env)).

(** GDMLPreprocess.cxx:389-481, [ExpandLoops], as a recursion over the children of the frame at
    [depth]; [depth] counts the frames that may still be pushed, so that 0 is line 406. Behind a
    loop the processing resumes with the first clone (476-479), the clones standing in front of
    the next sibling. *)
Fixpoint expand (fuel : nat) (depth : nat) (l : list node) (env : Env) : option (result (list node * Env)) :=
  match fuel with
  | O => None
  | S fuel =>
      match l with
      | [] => Some (Val ([], env))
      | Node name attrs children :: rest =>
          if str_eqb name (text "loop") then
            let x := attribute attrs (text "for") in
            if built_in x then expand fuel depth rest env
            else
              let from := attribute attrs (text "from") in
              match (match from with [] => Val (lookup env x) | _ => parse env from end),
                    parse env (attribute attrs (text "to")), parse env (attribute attrs (text "step")) with
              | Val from, Val to, Val step =>
                  match iterate fuel max_iterations x children from to (default_step step) env [] with
                  | None => None
                  | Some Thrown => Some Thrown
                  | Some (Val (clones, env)) => expand fuel depth (clones ++ rest) env
                  end
              | _, _, _ => Some Thrown
              end
          else
            match depth with
            | S below =>
                match expand fuel below children env with
                | None => None
                | Some Thrown => Some Thrown
                | Some (Val (children, env)) =>
                    match expand fuel depth rest env with
                    | Some (Val (rest, env)) => Some (Val (Node name attrs children :: rest, env))
                    | r => r
                    end
                end
            | O =>
                match expand fuel depth rest env with
                | Some (Val (rest, env)) => Some (Val (Node name attrs children :: rest, env))
                | r => r
                end
            end
      end
  end.

(** GDMLPreprocess.cxx:400-403: the frame of the root is the first of at most 64. *)
Definition expand_loops (fuel : nat) (children : list node) (env : Env) : option (result (list node * Env)) :=
  expand fuel 63 children env.

End Loop.
