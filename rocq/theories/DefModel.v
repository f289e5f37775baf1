(** Model of the resolution of <define> sections of GDML files.
    Source: projects/detector/private/gdml/GDMLDefineParser.cxx. Doubles are real numbers; a number
    that is not a number cannot occur. Warnings are left out. The evaluation of texts is a parameter. *)
From Coq Require Import Reals ZArith Bool List String.
From Verif Require Import VectorModel.
Import ListNotations.
Open Scope R_scope.

(** An element other than a loop, with the attributes read at GDMLDefineParser.cxx:124-218. A missing
    attribute is the empty text. *)
Inductive leaf :=
| Constant (name value : string)
| Quantity (name value unit type : string)
| Position (name unit x y z : string)
| Rotation (name unit x y z : string)
| Matrix (name coldim : string) (values : list string)
| Ignored.

(** A node inside <define>, GDMLDefineParser.cxx:93-97. *)
Inductive dnode :=
| Leaf (l : leaf)
| Loop (var from to step : string) (body : list dnode).

(** The parts of GDMLData used, GDMLDefineParser.cxx:78, 139, 162, 180, 197 and 213. [Q] stands for
    quaternions, [T] for GDMLQuantityType. *)
Record data (Q T : Type) := mkdata {
  constants : string -> option R;
  quantity_types : string -> option T;
  positions : string -> option vec;
  rotations : string -> option Q;
  matrices : string -> option (Z * list R)
}.
Arguments mkdata {Q T}. Arguments constants {Q T}. Arguments quantity_types {Q T}. Arguments positions {Q T}.
Arguments rotations {Q T}. Arguments matrices {Q T}.

(** What is not modelled here, as parameters: [resolveBrackets] (GDMLDefineParser.cxx:29-45),
    [SafeParseDouble], [EvalExpression] (GDMLExpression.cxx), [std::stoi], [ParseLength], [ParseAngle],
    [QuatFromGDMLRotation], [ResolveQuantityType], [QuantityUnitScale] and [IsBuiltInConstant]
    (GDMLUnits.cxx). [None] is an exception. *)
Record texts (Q T : Type) := mktexts {
  brackets : data Q T -> string -> string;
  number : data Q T -> string -> option R;
  expression : data Q T -> string -> option R;
  integer : string -> option Z;
  len : data Q T -> string -> string -> option R;
  angle : data Q T -> string -> string -> option R;
  quat_of : R -> R -> R -> Q;
  quantity_type : string -> string -> string -> data Q T -> option T;
  unit_scale : string -> option T -> R;
  built_in : string -> bool
}.
Arguments brackets {Q T}. Arguments number {Q T}. Arguments expression {Q T}. Arguments integer {Q T}. Arguments len {Q T}.
Arguments angle {Q T}. Arguments quat_of {Q T}. Arguments quantity_type {Q T}. Arguments unit_scale {Q T}.
Arguments built_in {Q T}.

(** [operator[]] and assignment of the maps, GDMLDefineParser.cxx:83, 120, 139, 160, 162, 180, 197, 213. *)
Definition put {A : Type} (k : string) (v : A) (f : string -> option A) : string -> option A :=
  fun x => if String.eqb x k then Some v else f x.
(** The same for the map of constants. *)
Definition put_constant {Q T : Type} (k : string) (v : R) (d : data Q T) : data Q T :=
  mkdata (put k v (constants d)) (quantity_types d) (positions d) (rotations d) (matrices d).

(** GDMLDefineParser.cxx:211: all the values, or an exception. *)
Fixpoint all_values {Q T : Type} (t : texts Q T) (d : data Q T) (l : list string) : option (list R) :=
  match l with
  | [] => Some []
  | s :: l =>
      match expression t d s, all_values t d l with
      | Some x, Some xs => Some (x :: xs)
      | _, _ => None
      end
  end.

(** GDMLDefineParser.cxx:124-218: the effect of one element, inside a loop or not; [None] is an
    exception. *)
Definition effect {Q T : Type} (t : texts Q T) (in_loop : bool) (l : leaf) (d : data Q T) : option (data Q T) :=
  let value_text := fun s => if in_loop then brackets t d s else s in
  match l with
  | Constant n v =>
      let name := brackets t d n in
      if String.eqb name "" then Some d
      else if built_in t name then Some d
      else
        match number t d (value_text v) with
        | Some x => Some (put_constant name x d)
        | None => None
        end
  | Quantity n v u ty =>
      let name := brackets t d n in
      if String.eqb name "" then Some d
      else if built_in t name then Some d
      else
        match number t d (value_text v) with
        | Some x =>
            let r := quantity_type t ty u name d in
            let d1 := put_constant name (x * unit_scale t u r) d in
            Some (match r with
                  | Some q => mkdata (constants d1) (put name q (quantity_types d1)) (positions d1) (rotations d1) (matrices d1)
                  | None => d1
                  end)
        | None => None
        end
  | Position n u x y z =>
      let name := brackets t d n in
      if String.eqb name "" then Some d
      else
        match len t d (value_text x) u, len t d (value_text y) u, len t d (value_text z) u with
        | Some a, Some b, Some c =>
            Some (mkdata (constants d) (quantity_types d) (put name (mkv a b c) (positions d)) (rotations d) (matrices d))
        | _, _, _ => None
        end
  | Rotation n u x y z =>
      let name := brackets t d n in
      if String.eqb name "" then Some d
      else
        match angle t d (value_text x) u, angle t d (value_text y) u, angle t d (value_text z) u with
        | Some a, Some b, Some c =>
            Some (mkdata (constants d) (quantity_types d) (positions d) (put name (quat_of t a b c) (rotations d)) (matrices d))
        | _, _, _ => None
        end
  | Matrix n cd vs =>
      let name := brackets t d n in
      if String.eqb name "" then Some d
      else
        let c := if String.eqb cd "" then 1%Z else match integer t cd with Some k => k | None => 1%Z end in
        let c := if Z.ltb c 1 then 1%Z else c in
        match all_values t d vs with
        | Some [] => Some d
        | Some xs =>
            Some (mkdata (constants d) (quantity_types d) (positions d) (rotations d) (put name (c, xs) (matrices d)))
        | None => None
        end
  | Ignored => Some d
  end.

(** What the head of a loop says, GDMLDefineParser.cxx:99-118. *)
Inductive heading := Bad | Skipped | Runs (from to step : R).
(** GDMLDefineParser.cxx:80-81 and 117. *)
Definition in_range (v to step : R) : bool :=
  if Rlt_dec 0 step then (if Rle_dec v (to + / 10 ^ 9) then true else false)
  else (if Rle_dec (to - / 10 ^ 9) v then true else false).
(** The value of a constant, zero if there is none; GDMLDefineParser.cxx:78 and 109-110. *)
Definition value_of {Q T : Type} (d : data Q T) (v : string) : R :=
  match constants d v with Some x => x | None => 0 end.
(** GDMLDefineParser.cxx:99-118. *)
Definition head {Q T : Type} (t : texts Q T) (d : data Q T) (var from to step : string) (body : list dnode) : heading :=
  if built_in t var then Skipped
  else
    match (if String.eqb from "" then Some (value_of d var) else number t d from), number t d to, number t d step with
    | Some f, Some e, Some s =>
        let s := if Req_EM_T s 0 then 1 else s in
        if in_range f e s then match body with [] => Skipped | _ => Runs f e s end else Skipped
    | _, _, _ => Bad
    end.

(** GDMLDefineParser.cxx:48-55, [Frame]: the nodes from [current] on, and for a loop the variable,
    [to_val], [step_val] and the nodes from [body_first] on. *)
Record frame := mkframe { rest : list dnode; looping : option (string * R * R * list dnode) }.
(** The data, the stack with its top first, and [loop_depth]; GDMLDefineParser.cxx:57-58. *)
Record machine (Q T : Type) := mkmachine { m_data : data Q T; m_stack : list frame; m_depth : Z }.
Arguments mkmachine {Q T}. Arguments m_data {Q T}. Arguments m_stack {Q T}. Arguments m_depth {Q T}.
(** Still running, finished, or left by an exception. *)
Inductive outcome (Q T : Type) := Running (m : machine Q T) | Done (d : data Q T) | Failed.
Arguments Running {Q T}. Arguments Done {Q T}. Arguments Failed {Q T}.

(** GDMLDefineParser.cxx:69. *)
Definition MAX_DEPTH : nat := 64.

(** GDMLDefineParser.cxx:71-219: one turn of the loop. *)
Definition turn {Q T : Type} (t : texts Q T) (m : machine Q T) : outcome Q T :=
  let d := m_data m in
  match m_stack m with
  | [] => Done d
  | top :: below =>
      match rest top with
      | [] =>
          match looping top with
          | Some (var, to, step, body) =>
              let next := value_of d var + step in
              if in_range next to step
              then Running (mkmachine (put_constant var next d) (mkframe body (looping top) :: below) (m_depth m))
              else Running (mkmachine d below (m_depth m - 1))
          | None => Running (mkmachine d below (m_depth m))
          end
      | node :: siblings =>
          let stack := mkframe siblings (looping top) :: below in
          match node with
          | Loop var from to step body =>
              if Nat.leb MAX_DEPTH (List.length stack) then Running (mkmachine d stack (m_depth m))
              else
                match head t d var from to step body with
                | Bad => Failed
                | Skipped => Running (mkmachine d stack (m_depth m))
                | Runs f e s =>
                    Running (mkmachine (put_constant var f d) (mkframe body (Some (var, e, s, body)) :: stack) (m_depth m + 1))
                end
          | Leaf l =>
              match effect t (Z.ltb 0 (m_depth m)) l d with
              | Some d' => Running (mkmachine d' stack (m_depth m))
              | None => Failed
              end
          end
      end
  end.

(** GDMLDefineParser.cxx:71-219: a number of turns. *)
Fixpoint turns {Q T : Type} (t : texts Q T) (n : nat) (m : machine Q T) : outcome Q T :=
  match n with
  | O => Running m
  | S n => match turn t m with Running m' => turns t n m' | o => o end
  end.

(** GDMLDefineParser.cxx:57-67: the start, with the nodes of the <define> sections in the order of the
    document. *)
Definition start {Q T : Type} (d : data Q T) (sections : list (list dnode)) : machine Q T :=
  mkmachine d (map (fun s => mkframe s None) sections) 0.
