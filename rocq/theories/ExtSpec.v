(** What a table of primary particles means. *)
From Coq Require Import Reals ZArith Ascii String List Bool.
From Verif Require Import VectorModel RecordModel.
Import ListNotations.
Open Scope R_scope.

(** The pieces [l] of a text: none contains the separator; each is followed by it, but the last one,
    if not empty, may also end the text. *)
Definition cut (c : ascii) (s : list ascii) (l : list (list ascii)) : Prop :=
  (forall p, In p l -> ~ In c p) /\
  (s = flat_map (fun p => p ++ [c]) l \/
   exists l' p, l = l' ++ [p] /\ p <> [] /\ s = flat_map (fun p => p ++ [c]) l' ++ p).

(** White space. *)
Definition white (c : ascii) : Prop :=
  c = " "%char \/ c = "009"%char \/ c = "010"%char \/ c = "013"%char.

(** The text without the white space around it. *)
Definition stripped (s t : list ascii) : Prop :=
  exists a b, s = a ++ t ++ b /\ (forall c, In c a \/ In c b -> white c) /\
  (forall c r, t = c :: r -> ~ white c) /\ (forall c r, t = r ++ [c] -> ~ white c).

(** A line without data: blank, or a comment. *)
Definition idle (line : list ascii) : Prop :=
  stripped line [] \/ exists r, stripped line ("#"%char :: r).

(** A name. *)
Definition name (s : string) : list ascii := list_ascii_of_string s.

(** All or none of these columns. *)
Definition together (keys : list (list ascii)) (l : list string) : Prop :=
  (forall k, In k l -> In (name k) keys) \/ (forall k, In k l -> ~ In (name k) keys).

(** The line is read as this row of numbers. *)
Definition read_as (number : list ascii -> option R) (keys : list (list ascii)) (line : list ascii)
  (xs : list R) : Prop :=
  exists vs, cut "," line vs /\ length vs = length keys /\ Forall2 (fun v x => number v = Some x) vs xs.

(** No energy of the row is below the threshold. *)
Definition passing (emin : R) (keys : list (list ascii)) (xs : list R) : Prop :=
  forall i x, nth_error keys i = Some (name "E") -> nth_error xs i = Some x -> emin <= x.

(** The rows kept of the lines, in order. *)
Inductive kept (number : list ascii -> option R) (emin : R) (keys : list (list ascii)) :
  list (list ascii) -> list (list R) -> Prop :=
| kept_end : kept number emin keys [] []
| kept_idle : forall l ls d, idle l -> kept number emin keys ls d -> kept number emin keys (l :: ls) d
| kept_row : forall l ls xs d, ~ idle l -> read_as number keys l xs -> passing emin keys xs ->
    kept number emin keys ls d -> kept number emin keys (l :: ls) (xs :: d)
| kept_not : forall l ls xs d, ~ idle l -> read_as number keys l xs -> ~ passing emin keys xs ->
    kept number emin keys ls d -> kept number emin keys (l :: ls) d.

(** The value in the column named [k] of a row; the last one if there are several. *)
Definition cell (keys : list (list ascii)) (xs : list R) (k : list ascii) (v : R) : Prop :=
  exists a b, combine keys xs = a ++ (k, v) :: b /\ ~ In k (map fst b).

(** The columns with a meaning of their own. *)
Definition reserved : list (list ascii) :=
  map name ["x0"; "y0"; "z0"; "x"; "y"; "z"; "px"; "py"; "pz"; "t0"; "E"; "m"]%string.

(** A number member of the record after taking over the column [k]. *)
Definition takes {A} (keys : list (list ascii)) (xs : list R) (k : string) (inject : R -> A) (before after : A) :
  Prop :=
  (forall v, cell keys xs (name k) v -> after = inject v) /\ (~ In (name k) keys -> after = before).

(** The vector in three columns. *)
Definition cells (keys : list (list ascii)) (xs : list R) (kx ky kz : string) (v : vec) : Prop :=
  cell keys xs (name kx) (vx v) /\ cell keys xs (name ky) (vy v) /\ cell keys xs (name kz) (vz v).
