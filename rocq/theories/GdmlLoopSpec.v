(** What substituting a loop variable and unrolling loops should do. Written without reference to
    the parser. *)
From Coq Require Import List Bool Ascii String.
From Verif Require Import GdmlSpec.
Import ListNotations.
Open Scope char_scope.

Definition name_char (c : ascii) : Prop := letter c \/ digit c.
Definition begins_with_name_char (s : list ascii) : Prop :=
  match s with c :: _ => name_char c | [] => False end.

(** [Replaced x val s t]: [t] is [s] with each maximal run of name characters that equals [x]
    replaced by [val]. *)
Inductive Replaced (x val : list ascii) : list ascii -> list ascii -> Prop :=
| R_end : Replaced x val [] []
| R_other c s t : ~ name_char c -> Replaced x val s t -> Replaced x val (c :: s) (c :: t)
| R_match s t : ~ begins_with_name_char s -> Replaced x val s t -> Replaced x val (x ++ s) (val ++ t)
| R_word w s t : w <> [] -> Forall name_char w -> w <> x -> ~ begins_with_name_char s ->
    Replaced x val s t -> Replaced x val (w ++ s) (w ++ t).

(** [Evaluated value s t failed]: [t] is [s] with each pair of brackets replaced by the text
    [value] gives for what stands between them; brackets without a text stay, and their contents
    are listed in [failed]. *)
Inductive Evaluated (value : list ascii -> option (list ascii)) : list ascii -> list ascii -> list (list ascii) -> Prop :=
| V_none s : (forall a e b, s <> a ++ "[" :: e ++ "]" :: b) -> Evaluated value s s []
| V_text a e b v t failed : ~ In "[" a -> ~ In "]" e -> value e = Some v -> Evaluated value b t failed ->
    Evaluated value (a ++ "[" :: e ++ "]" :: b) (a ++ v ++ t) failed
| V_fail a e b t failed : ~ In "[" a -> ~ In "]" e -> value e = None -> Evaluated value b t failed ->
    Evaluated value (a ++ "[" :: e ++ "]" :: b) (a ++ "[" :: e ++ "]" :: t) (e :: failed).

(** The values a loop runs through, at most [n]. *)
Inductive Runs {V : Type} (goes_on : V -> bool) (next : V -> V) : nat -> V -> list V -> Prop :=
| Run_end n v : goes_on v = false -> Runs goes_on next n v []
| Run_step n v vs : goes_on v = true -> Runs goes_on next n (next v) vs -> Runs goes_on next (S n) v (v :: vs).

(** Replacing a variable by a numeral in an expression. *)
Fixpoint put_ast (x lit : list ascii) (e : ast) : ast :=
  match e with
  | Num l => Num l
  | Var y => if list_eq_dec ascii_dec y x then Num lit else Var y
  | Neg a => Neg (put_ast x lit a)
  | Bin o a b => Bin o (put_ast x lit a) (put_ast x lit b)
  | Call1 f a => Call1 f (put_ast x lit a)
  | Call2 f a b => Call2 f (put_ast x lit a) (put_ast x lit b)
  end.

(** ** Documents *)
From Verif Require Import GdmlLoopModel.

(** A node [d] levels below the nodes of a list. *)
Inductive Below : nat -> node -> list node -> Prop :=
| Below_here n l : In n l -> Below 0 n l
| Below_child d n name attrs children l : In (Node name attrs children) l -> Below d n children -> Below (S d) n l.

Definition is_loop (n : node) : Prop := match n with Node name _ _ => name = chars "loop" end.

(** The value of an attribute, as the parser sees it: the first with that name. *)
Inductive Attribute (name : list ascii) : list (list ascii * list ascii) -> list ascii -> Prop :=
| A_here v r : Attribute name ((name, v) :: r) v
| A_later n v r w : n <> name -> Attribute name r w -> Attribute name ((n, v) :: r) w.

(** Every loop of a document names its variable. *)
Definition variables_named (l : list node) : Prop :=
  forall d attrs children, Below d (Node (chars "loop") attrs children) l ->
  exists x, Attribute (chars "for") attrs x /\ x <> [].

Definition loop_free (l : list node) : Prop := forall d n, Below d n l -> ~ is_loop n.

(** [Copy value x val n m]: [m] is [n] with the substitution made in every attribute. *)
Inductive Copy (value : list ascii -> option (list ascii)) (x val : list ascii) : node -> node -> Prop :=
| Copy_node name attrs attrs' children children' :
    Forall2 (fun a b => fst a = fst b /\ exists m failed, Evaluated value (snd a) m failed /\ Replaced x val m (snd b)) attrs attrs' ->
    Forall2 (Copy value x val) children children' ->
    Copy value x val (Node name attrs children) (Node name attrs' children').

(** One copy of the body for each value, in order. *)
Inductive Unrolled {V Env : Type} (value : Env -> list ascii -> option (list ascii)) (store : Env -> list ascii -> V -> Env)
    (format : V -> list ascii) (x : list ascii) (body : list node) : Env -> list V -> list node -> Env -> Prop :=
| U_end env : Unrolled value store format x body env [] [] env
| U_value env v vs copy rest env' :
    Forall2 (Copy (value (store env x v)) x (format v)) body copy ->
    Unrolled value store format x body (store env x v) vs rest env' ->
    Unrolled value store format x body env (v :: vs) (copy ++ rest) env'.
