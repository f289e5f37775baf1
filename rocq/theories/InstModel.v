(** Model of the names of GDML definitions: Geant4 pointer suffixes, repeated definitions, aliases.
    Sources: projects/detector/private/gdml/GDMLParserPrivate.h and
             projects/detector/private/gdml/GDMLStructureParser.cxx.
    Strings are lists of characters. A hash map is the function that looks keys up; where the code goes
    through a hash map, the order is an argument. *)
From Coq Require Import List Bool Arith Ascii String DecimalString.
From Verif Require Import GdmlModel GdmlLoopModel.
Import ListNotations.
Open Scope char_scope.

(** Names; modelling device for [std::string] in GDMLParserPrivate.h:49. *)
Notation name := (list ascii).

(** [std::string::rfind], GDMLParserPrivate.h:51 and 281; [None] is npos. *)
Fixpoint rfind (p s : name) : option nat :=
  match s with
  | [] => if prefix_of p [] then Some 0 else None
  | _ :: r =>
      match rfind p r with
      | Some k => Some (S k)
      | None => if prefix_of p s then Some 0 else None
      end
  end.

(** The hexadecimal digits, GDMLParserPrivate.h:57. *)
Definition hex_char (c : ascii) : bool :=
  let n := nat_of_ascii c in
  (((48 <=? n) && (n <=? 57)) || ((97 <=? n) && (n <=? 102)) || ((65 <=? n) && (n <=? 70)))%nat.

(** [StripPointerSuffix], GDMLParserPrivate.h:49-61. *)
Definition strip (enabled : bool) (n : name) : name :=
  if negb enabled then n
  else match rfind (text "0x") n with
       | None | Some 0 => n
       | Some pos =>
           if (List.length n - (pos + 2) <? 7)%nat then n
           else if forallb hex_char (skipn (pos + 2) n) then firstn pos n else n
       end.

(** [std::to_string] of a number that is not negative, GDMLParserPrivate.h:275. *)
Definition decimal (k : nat) : name := list_ascii_of_string (NilEmpty.string_of_uint (Nat.to_uint k)).

(** [InstanceTracker::FlatName], GDMLParserPrivate.h:274-276. *)
Definition flat (n : name) (i : nat) : name := n ++ text "__" ++ decimal (S i).

(** [std::stoi] of a text of digits, GDMLParserPrivate.h:293. Simplification: int does not overflow. *)
Definition number (s : name) : nat :=
  match NilEmpty.uint_of_string (string_of_list_ascii s) with Some u => Nat.of_uint u | None => 0 end.

(** [InstanceTracker::ParseFlatName], GDMLParserPrivate.h:280-295; [None] is ("", -1), and also the
    index -1 of "name__0". *)
Definition parse_flat (s : name) : option (name * nat) :=
  match rfind (text "__") s with
  | None | Some 0 => None
  | Some sep =>
      if (List.length s <=? sep + 2)%nat then None
      else if forallb is_digit (skipn (sep + 2) s) then
        match number (skipn (sep + 2) s) with
        | 0 => None
        | S i => Some (firstn sep s, i)
        end
      else None
  end.

(** Assignment to a key of a hash map, e.g. GDMLParserPrivate.h:172, 177 and 244. *)
Definition put {A : Type} (m : name -> option A) (k : name) (v : A) : name -> option A :=
  fun x => if str_eqb x k then Some v else m x.

(** Removal of a key of a hash map, GDMLParserPrivate.h:259. *)
Definition erase {A : Type} (m : name -> option A) (k : name) : name -> option A :=
  fun x => if str_eqb x k then None else m x.

Section Tracker.
Variable T : Type.
(** The equality that the caller gives to [Store], GDMLParserPrivate.h:158. *)
Variable eq : T -> T -> bool.
(** The setter of names that the caller gives to [Flatten], GDMLParserPrivate.h:224; the identity if
    there is none. *)
Variable set_name : T -> name -> T.
(** [strip_], GDMLParserPrivate.h:298. *)
Variable enabled : bool.

(** The fields of [InstanceTracker] with the aliases of the data, GDMLParserPrivate.h:297-300. *)
Record tracker := mktracker {
  instances : name -> list T;           (** no entry is the empty vector, as by operator[] in 169 *)
  counts : name -> option nat;
  aliases : name -> option name
}.

(** A tracker before the first [Store], GDMLParserPrivate.h:160-161; the aliases are those of the data. *)
Definition fresh (al : name -> option name) : tracker := mktracker (fun _ => []) (fun _ => None) al.

(** [InstanceTracker::Store], GDMLParserPrivate.h:166-181. *)
Definition store (st : tracker) (original : name) (item : T) : tracker :=
  let stripped := strip enabled original in
  let had_suffix := negb (str_eqb stripped original) in
  let vec := instances st stripped in
  let alias (k : nat) := if had_suffix then put (aliases st) original (flat stripped k) else aliases st in
  match rev vec with
  | back :: _ =>
      if eq back item then mktracker (instances st) (counts st) (alias (List.length vec - 1))
      else mktracker (fun x => if str_eqb x stripped then vec ++ [item] else instances st x)
                     (put (counts st) stripped (S (List.length vec))) (alias (List.length vec))
  | [] => mktracker (fun x => if str_eqb x stripped then vec ++ [item] else instances st x)
                    (put (counts st) stripped (S (List.length vec))) (alias (List.length vec))
  end.

(** Definitions in the order of the document, e.g. GDMLStructureParser.cxx:135-253. *)
Definition store_all (log : list (name * T)) (st : tracker) : tracker :=
  fold_left (fun st e => store st (fst e) (snd e)) log st.

(** [InstanceTracker::Resolve], GDMLParserPrivate.h:185-192; the counts begin with one. *)
Definition resolve (st : tracker) (ref : name) : name :=
  let n := strip enabled ref in
  match counts st n with Some c => flat n (c - 1) | None => n end.

(** [InstanceTracker::Lookup], GDMLParserPrivate.h:196-213. *)
Definition lookup (st : tracker) (original : name) : option T :=
  let stripped :=
    let n := strip enabled original in
    match counts st n with Some c => nth_error (instances st n) (c - 1) | None => None end in
  match aliases st original with
  | Some a =>
      match parse_flat a with
      | Some (b, i) =>
          match nth_error (instances st b) i with Some t => Some t | None => stripped end
      | None => stripped
      end
  | None => stripped
  end.

(** ** Flatten *)

(** The instances of one name into the map, GDMLParserPrivate.h:242-246. *)
Fixpoint spread (n : name) (i : nat) (vec : list T) (dest : name -> option T) : name -> option T :=
  match vec with
  | [] => dest
  | v :: r => spread n (S i) r (put dest (flat n i) (set_name v (flat n i)))
  end.

(** The first loop of [Flatten], in the order [keys] of the instances, GDMLParserPrivate.h:236-247. *)
Definition spread_all (st : tracker) (keys : list name) (dest : name -> option T) : name -> option T :=
  fold_left (fun d n => spread n 0 (instances st n) d) keys dest.

(** Names with one instance, GDMLParserPrivate.h:251. *)
Definition sole (st : tracker) (n : name) : bool := (List.length (instances st n) =? 1)%nat.

(** The map of renames, GDMLParserPrivate.h:249-254; [keys] are the keys of the instances. *)
Definition renames (st : tracker) (keys : list name) (s : name) : option name :=
  List.find (fun n => sole st n && str_eqb (flat n 0) s) keys.

(** The last part of one rename, GDMLParserPrivate.h:256-262. *)
Definition rename_one (dest : name -> option T) (n : name) : name -> option T :=
  match dest (flat n 0) with
  | Some v => put (erase dest (flat n 0)) n (set_name v n)
  | None => dest
  end.

(** The loop over the renames in the order [order] of the names, GDMLParserPrivate.h:255-263. *)
Definition rename_all (order : list name) (dest : name -> option T) : name -> option T :=
  fold_left rename_one order dest.

(** The map that [InstanceTracker::Flatten] leaves, GDMLParserPrivate.h:232-263. *)
Definition flatten (st : tracker) (keys order : list name) (dest : name -> option T) : name -> option T :=
  rename_all order (spread_all st keys dest).

(** The aliases that [Flatten] leaves, GDMLParserPrivate.h:265-270. *)
Definition flatten_aliases (st : tracker) (keys : list name) : name -> option name :=
  fun o => match aliases st o with
           | Some a => match renames st keys a with Some b => Some b | None => Some a end
           | None => None
           end.

(** The counts that [Flatten] leaves, GDMLParserPrivate.h:239-241. *)
Definition instance_counts (st : tracker) (keys : list name) : name -> option nat :=
  fun n => if existsb (str_eqb n) keys then Some (List.length (instances st n)) else None.

End Tracker.
Arguments mktracker {T}.
Arguments instances {T}.
Arguments counts {T}.
Arguments aliases {T}.
Arguments fresh {T}.
Arguments store {T}.
Arguments store_all {T}.
Arguments resolve {T}.
Arguments lookup {T}.
Arguments spread {T}.
Arguments spread_all {T}.
Arguments sole {T}.
Arguments renames {T}.
Arguments rename_one {T}.
Arguments rename_all {T}.
Arguments flatten {T}.
Arguments flatten_aliases {T}.
Arguments instance_counts {T}.

(** The reference of a volume to a material or solid with [ResolveAlias] and the check for ambiguity,
    GDMLStructureParser.cxx:151-162 and 168-179, GDMLParserPrivate.h:65-68. *)
Definition reference (al : name -> option name) (cnt : name -> option nat) (raw : name) : result name :=
  let ref := match al raw with Some a => a | None => raw end in
  let was_aliased := negb (str_eqb ref raw) in
  if negb was_aliased && negb (str_eqb ref []) then
    match cnt ref with
    | Some c => if (1 <? c)%nat then Thrown else Val ref
    | None => Val ref
    end
  else Val ref.
