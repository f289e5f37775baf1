(** Model of the parsing of GDML solids: primitives, booleans, and booleans of solids defined further down.
    Source: projects/detector/private/gdml/GDMLSolidParser.cxx. The solids themselves are a parameter. *)
From Coq Require Import List Bool Arith Ascii String.
From Verif Require Import GdmlModel GdmlLoopModel InstModel.
Import ListNotations.

Section Solids.
(** Geometries and their operator==, GDMLSolidParser.cxx:419-420. *)
Context {T : Type}.
Variable eq : T -> T -> bool.
Variable enabled : bool.

(** A child of a <solids> section, GDMLSolidParser.cxx:462-482: a primitive with what ParsePrimitiveSolid makes of
    it, a boolean with its references and BuildBooleanGeometry with its placements, or a boolean without operands.
    Simplification: ReadPlacement throws nothing. *)
Inductive node :=
| Primitive (n : name) (g : option T)
| Boolean (n first second : name) (make : T -> T -> T)
| Incomplete (n : name).

(** [DeferredBoolean], GDMLSolidParser.cxx:450-457. *)
Record deferred := mkdeferred { d_name : name; d_first : name; d_second : name; d_fi : nat; d_si : nat; d_make : T -> T -> T }.

(** The instance to wait for, GDMLSolidParser.cxx:508-509; [Count] is GDMLParserPrivate.h:216-219. Simplification:
    an instance of -1 is 0. *)
Definition instance_of (st : tracker T) (found : option T) (key : name) : nat :=
  match found with
  | Some _ => match counts st key with Some c => c - 1 | None => 0 end
  | None => 0
  end.

(** One child of a section, GDMLSolidParser.cxx:462-511. *)
Definition parse_node (s : tracker T * list deferred) (x : node) : tracker T * list deferred :=
  let '(st, ds) := s in
  match x with
  | Primitive [] _ | Boolean [] _ _ _ | Incomplete _ => s
  | Primitive n None => s
  | Primitive n (Some g) => (store eq enabled st n g, ds)
  | Boolean n f t make =>
      let left := lookup enabled st f in
      let right := lookup enabled st t in
      match left, right with
      | Some a, Some b => (store eq enabled st n (make a b), ds)
      | _, _ =>
          let fk := strip enabled f in
          let sk := strip enabled t in
          (st, ds ++ [mkdeferred n fk sk (instance_of st left fk) (instance_of st right sk) make])
      end
  end.

(** [isAvailable], GDMLSolidParser.cxx:520-523. *)
Definition available (st : tracker T) (ref : name) (i : nat) : bool := (i <? List.length (instances st ref))%nat.

(** Both operands, GDMLSolidParser.cxx:527-529 and 569-570. *)
Definition both (st : tracker T) (d : deferred) : bool :=
  available st (d_first d) (d_fi d) && available st (d_second d) (d_si d).

(** The reverse dependencies, GDMLSolidParser.cxx:516-535: pairs of a missing name and who waits for it, in the
    order of the insertions. *)
Definition waiting (st : tracker T) (ds : list deferred) : list (name * nat) :=
  flat_map (fun e => let '(i, d) := e in
              if both st d then []
              else (if available st (d_first d) (d_fi d) then [] else [(d_first d, i)]) ++
                   (if available st (d_second d) (d_si d) then [] else [(d_second d, i)]))
           (combine (seq 0 (List.length ds)) ds).

(** The first stack of those ready, GDMLSolidParser.cxx:525-530; the top is the head. *)
Definition first_ready (st : tracker T) (ds : list deferred) : list nat :=
  rev (map fst (filter (fun e => both st (snd e)) (combine (seq 0 (List.length ds)) ds))).

(** Whether a number is in a list; modelling device for node == nullptr in GDMLSolidParser.cxx:541 and 567. *)
Definition is_done (done : list nat) (i : nat) : bool := existsb (Nat.eqb i) done.

(** Those of [deps] that wait for [key] and now have both operands, GDMLSolidParser.cxx:563-574. *)
Definition wake (ds : list deferred) (deps : list (name * nat)) (key : name) (done : list nat) (st : tracker T) : list nat :=
  filter (fun i => negb (is_done done i) && match nth_error ds i with Some d => both st d | None => false end)
         (map snd (filter (fun e => str_eqb (fst e) key) deps)).

(** The loop over those ready, GDMLSolidParser.cxx:537-575; [None] is no end in so many rounds. *)
Fixpoint resolve_loop (fuel : nat) (ds : list deferred) (deps : list (name * nat)) (ready done : list nat) (st : tracker T)
  : option (tracker T * list nat) :=
  match fuel with
  | O => None
  | S fuel =>
      match ready with
      | [] => Some (st, done)
      | i :: rest =>
          match nth_error ds i with
          | None => resolve_loop fuel ds deps rest done st
          | Some d =>
              if is_done done i then resolve_loop fuel ds deps rest done st
              else match nth_error (instances st (d_first d)) (d_fi d), nth_error (instances st (d_second d)) (d_si d) with
                   | Some a, Some b =>
                       let st := store eq enabled st (d_name d) (d_make d a b) in
                       let done := i :: done in
                       resolve_loop fuel ds deps (rev (wake ds deps (strip enabled (d_name d)) done st) ++ rest) done st
                   | _, _ => resolve_loop fuel ds deps rest done st
                   end
          end
      end
  end.

(** [ParseAllSolids] up to Flatten, GDMLSolidParser.cxx:409-581: the solids and the names of the booleans that are
    skipped with a warning. *)
Definition parse_solids (fuel : nat) (al : name -> option name) (doc : list node) : option (tracker T * list name) :=
  let '(st, ds) := fold_left parse_node doc (fresh al, []) in
  match resolve_loop fuel ds (waiting st ds) (first_ready st ds) [] st with
  | None => None
  | Some (st, done) =>
      Some (st, map (fun e => d_name (snd e)) (filter (fun e => negb (is_done done (fst e))) (combine (seq 0 (List.length ds)) ds)))
  end.

End Solids.
Arguments node : clear implicits.
Arguments deferred : clear implicits.
