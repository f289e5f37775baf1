(** Model of the coordinate transforms and of the interpolation operators.
    Source: projects/math/public/SIREN/math/Interpolation.h.  Numbers are real. *)
From Coq Require Import Reals List Bool.
From Verif Require Import TraversalModel.
Import ListNotations.
Open Scope R_scope.

(** Interpolation.h:68, 97, 126-128, 201-203: the four classes of [Transform] with their members.
    [log_min_x] is always the logarithm of [min_x] (130, 147) and is not kept. *)
Inductive transform :=
| Identity
| Log
| SymLog (min_x : R)
| Range (min_x range : R).

(** Interpolation.h:130-134, the constructor from a number; [None] is the exception. *)
Definition symlog_of (m : R) : option transform :=
  if Req_EM_T m 0 then None else Some (SymLog (Rabs m)).

(** Interpolation.h:136-146: the loop of the constructor from a vector, with [first] and [min_x]. *)
Fixpoint least_abs (first : bool) (m : R) (l : list R) : R :=
  match l with
  | [] => m
  | x :: t =>
      if Req_EM_T x 0 then least_abs first m t
      else
        let m1 := if first then Rabs x else m in
        least_abs false (if Rlt_dec (Rabs x) m1 then Rabs x else m1) t
  end.
(** Interpolation.h:135-151, the constructor from a vector; the logarithm at 147 of zero is minus
    infinity and the exception follows. *)
Definition symlog_of_list (l : list R) : option transform :=
  let m := least_abs true 0 l in if Req_EM_T m 0 then None else Some (SymLog m).

(** Interpolation.h:205-209, the constructor; [None] is the exception. *)
Definition range_of (low high : R) : option transform :=
  if Req_EM_T (high - low) 0 then None else Some (Range low (high - low)).

(** [std::copysign] of Interpolation.h:157, 165 for a sign argument that is not zero (its absolute
    value is there at least [min_x]). *)
Definition copysign (a s : R) : R := if Rlt_dec s 0 then - Rabs a else Rabs a.

(** Interpolation.h:71-73, 100-102, 152-159, 210-212, [Function]; [None] is the logarithm of a
    number that is not positive. *)
Definition apply (t : transform) (x : R) : option R :=
  match t with
  | Identity => Some x
  | Log => if Rlt_dec 0 x then Some (ln x) else None
  | SymLog m => Some (if Rlt_dec (Rabs x) m then x else copysign (ln (Rabs x) - ln m + m) x)
  | Range a r => Some ((x - a) / r)
  end.

(** Interpolation.h:74-76, 103-105, 160-167, 213-215, [Inverse]. *)
Definition invert (t : transform) (y : R) : R :=
  match t with
  | Identity => y
  | Log => exp y
  | SymLog m => if Rlt_dec (Rabs y) m then y else copysign (exp (Rabs y - m + ln m)) y
  | Range a r => y * r + a
  end.

(** Interpolation.h:77-82, 106-111, 168-173, 216-221 with 46-51, [operator==] and [equal]: the
    dynamic types are compared, the members are not. *)
Definition same_transform (s t : transform) : bool :=
  match s, t with
  | Identity, Identity | Log, Log | SymLog _, SymLog _ | Range _ _, Range _ _ => true
  | _, _ => false
  end.

(** Interpolation.h:52-57, [operator<].  [typeid(this)] and [typeid(&other)] are the types of two
    pointers to [Transform], hence always the same, and [less] is always called: 83-85, 112-114,
    174-177, 222-225.  A [dynamic_cast] to another class is the null pointer, and reading its
    members is [UB]. *)
Definition less_transform (s t : transform) : outcome bool :=
  match s with
  | Identity | Log => Ok false
  | SymLog m => match t with SymLog n => Ok (if Rlt_dec m n then true else false) | _ => UB end
  | Range a r =>
      match t with
      | Range b q => Ok (if Rlt_dec a b then true else if Rlt_dec b a then false else if Rlt_dec r q then true else false)
      | _ => UB
      end
  end.

(** Interpolation.h:86-93, 115-122, 178-186, 226-235, what is saved: the class and its numbers. *)
Inductive archive := AIdentity | ALog | ASymLog (m : R) | ARange (low high : R).
(** Interpolation.h:86-93, 115-122, 178-186, 226-235, [save]. *)
Definition save (t : transform) : archive :=
  match t with
  | Identity => AIdentity
  | Log => ALog
  | SymLog m => ASymLog m
  | Range a r => ARange a (a + r)
  end.
(** Interpolation.h:86-93, 115-122, 187-197, 236-248, [load_and_construct]. *)
Definition load (a : archive) : option transform :=
  match a with
  | AIdentity => Some Identity
  | ALog => Some Log
  | ASymLog m => symlog_of m
  | ARange low high => range_of low high
  end.

(** ** Operators *)

(** Interpolation.h:255-259, [LinearInterpolationOperator]; [None] is a division by zero. *)
Definition linear (x0 y0 x1 y1 x : R) : option R :=
  if Req_EM_T (x1 - x0) 0 then None else Some ((x - x0) * (y1 - y0) / (x1 - x0) + y0).

(** Interpolation.h:292-296, [DropLinearInterpolationOperator]. *)
Definition drop_linear (x0 y0 x1 y1 x : R) : option R :=
  if Req_EM_T y0 0 then Some 0 else if Req_EM_T y1 0 then Some 0 else linear x0 y0 x1 y1 x.

(** Interpolation.h:252, 289: the two classes of linear operators. *)
Inductive operator := Plain | Drop.
(** Interpolation.h:260-262, 266-271, 297-302, [operator==] of the left one. *)
Definition same_operator (s t : operator) : bool :=
  match s, t with Plain, _ => true | Drop, Drop => true | Drop, Plain => false end.
(** Interpolation.h:255-259, 292-296: the call, by class. *)
Definition operate (o : operator) : R -> R -> R -> R -> R -> option R :=
  match o with Plain => linear | Drop => drop_linear end.

(** Interpolation.h:782-798, [BiLinearInterpolationOperator]. *)
Definition bilinear (x0 y0 x1 y1 z00 z01 z10 z11 x y : R) : option R :=
  if Req_EM_T ((x1 - x0) * (y1 - y0)) 0 then None
  else Some (((x1 - x) * (y1 - y) * z00 + (x1 - x) * (y - y0) * z01 + (x - x0) * (y1 - y) * z10 + (x - x0) * (y - y0) * z11)
             / ((x1 - x0) * (y1 - y0))).

(** [z == 0] of Interpolation.h:805. *)
Definition zerob (z : R) : bool := if Req_EM_T z 0 then true else false.

(** Interpolation.h:804-809, [DropBiLinearInterpolationOperator].  Its second and third parameters
    are named [x1] and [y0], but they are passed on in the same places. *)
Definition drop_bilinear (x0 y0 x1 y1 z00 z01 z10 z11 x y : R) : option R :=
  if (zerob z00 && (zerob z01 || zerob z10)) || (zerob z11 && (zerob z01 || zerob z10)) then Some 0
  else bilinear x0 y0 x1 y1 z00 z01 z10 z11 x y.
