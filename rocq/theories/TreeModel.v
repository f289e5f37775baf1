(** Model of the interaction tree.
    Sources: projects/dataclasses/private/InteractionTree.cxx,
             projects/dataclasses/public/SIREN/dataclasses/InteractionTree.h. *)
From Coq Require Import List Bool ZArith.
From Verif Require Import TraversalModel.
Import ListNotations.
Open Scope Z_scope.

(** InteractionTree.h:52: largest uint32 value. *)
Definition kNoParent : Z := 4294967295.

(** Conversion [static_cast<std::uint32_t>] (InteractionTree.cxx:56, 89, 93). *)
Definition to_u32 (z : Z) : Z := z mod 4294967296.

(** A [std::shared_ptr] target: an address in the heap below. *)
Notation ptr := nat.

Section Tree.
(** The interaction record carried by a datum; only copied and compared. InteractionTree.h:58. *)
Variable R : Type.

(** InteractionTree.h:54-74, all data members of [InteractionTreeDatum].
    [daughter_indices] and the legacy pointers are in vector order; a legacy
    pointer may be null. *)
Record datum := mkdatum {
  d_record : R;
  d_node_id : Z;
  d_parent : Z;
  d_daughters : list Z;
  d_legacy_parent : option ptr;
  d_legacy_daughters : list (option ptr)
}.

(** InteractionTree.h:55-62: the constructor from a record. *)
Definition new_datum (r : R) : datum := mkdatum r kNoParent kNoParent [] None [].

(** All data ever allocated, by address. Simplification: nothing is freed, which
    is unobservable through shared pointers. InteractionTree.h:129. *)
Definition heap := list datum.

(** InteractionTree.h:126-130 without the header, which no tree operation
    looks at; the header is modelled separately in [header] below.
    Entries of [tree] may be null only after loading an archive. *)
Record state := mkstate { st_heap : heap; st_tree : list (option ptr) }.

(** Writing through a pointer. InteractionTree.cxx:56-62. *)
Fixpoint heap_set (h : heap) (p : ptr) (d : datum) : heap :=
  match h, p with
  | [], _ => []
  | _ :: r, O => d :: r
  | x :: r, S q => x :: heap_set r q d
  end.

(** InteractionTree.cxx:56-62, writing the three indices. *)
Definition set_ids (d : datum) (nid par : Z) (ds : list Z) : datum :=
  mkdatum (d_record d) nid par ds (d_legacy_parent d) (d_legacy_daughters d).

(** InteractionTree.cxx:54-68, [add_entry(shared_ptr, shared_ptr)], statement by
    statement through the heap so that [datum] and [parent] may be the same
    object. The [assert] at line 66 is not modelled (it is compiled out with
    NDEBUG). Dereferencing an invalid pointer is UB. *)
Definition add_ptr (s : state) (p : ptr) (parent : option ptr) : outcome (state * ptr) :=
  let h0 := st_heap s in
  match nth_error h0 p with
  | None => UB
  | Some d =>
      let nid := to_u32 (Z.of_nat (length (st_tree s))) in
      let d1 := set_ids d nid (d_parent d) [] in
      let h1 := heap_set h0 p d1 in
      match parent with
      | Some q =>
          match nth_error h1 q with
          | None => UB
          | Some dq =>
              let h2 := heap_set h1 p (set_ids d1 nid (d_node_id dq) (d_daughters d1)) in
              match nth_error h2 q with
              | None => UB
              | Some dq2 =>
                  let h3 := heap_set h2 q (set_ids dq2 (d_node_id dq2) (d_parent dq2)
                                             (d_daughters dq2 ++ [nid])) in
                  Ok (mkstate h3 (st_tree s ++ [Some p]), p)
              end
          end
      | None =>
          let h2 := heap_set h1 p (set_ids d1 nid kNoParent (d_daughters d1)) in
          Ok (mkstate h2 (st_tree s ++ [Some p]), p)
      end
  end.

(** [std::make_shared]. InteractionTree.cxx:72, 78. *)
Definition alloc (s : state) (d : datum) : state * ptr :=
  (mkstate (st_heap s ++ [d]) (st_tree s), length (st_heap s)).

(** InteractionTree.cxx:70-74: [add_entry(InteractionTreeDatum &, parent)]. *)
Definition add_copy (s : state) (d : datum) (parent : option ptr) : outcome (state * ptr) :=
  let (s1, p) := alloc s d in add_ptr s1 p parent.

(** InteractionTree.cxx:76-80: [add_entry(InteractionRecord &, parent)]. *)
Definition add_record (s : state) (r : R) (parent : option ptr) : outcome (state * ptr) :=
  let (s1, p) := alloc s (new_datum r) in add_ptr s1 p parent.

(** [owner.tree.at(i)->...]: [at] throws out of range, a null entry is UB. InteractionTree.cxx:24. *)
Definition at_deref (s : state) (i : Z) : outcome datum :=
  if (i <? 0) || (Z.of_nat (length (st_tree s)) <=? i) then Throw
  else match nth_error (st_tree s) (Z.to_nat i) with
       | Some (Some p) => match nth_error (st_heap s) p with Some d => Ok d | None => UB end
       | _ => UB
       end.

(** InteractionTree.cxx:20-25: the loop of [depth]. [None] means the fuel ran out
    (the loop still runs). Simplification: the [int] counter is unbounded. *)
Fixpoint depth_loop (fuel : nat) (s : state) (p : Z) (depth : Z) : option (outcome Z) :=
  match fuel with
  | O => None
  | S f =>
      if p =? kNoParent then Some (Ok depth)
      else let depth := depth + 1 in
           if Z.of_nat (length (st_tree s)) <? depth then Some Throw
           else match at_deref s p with
                | Ok d => depth_loop f s (d_parent d) depth
                | Throw => Some Throw
                | UB => Some UB
                end
  end.

(** InteractionTree.cxx:14-27, [InteractionTreeDatum::depth(owner)]. *)
Definition depth_fuel (fuel : nat) (s : state) (d : datum) : option (outcome Z) :=
  depth_loop fuel s (d_parent d) 0.

(** InteractionTree.h:140, [InteractionTree::depth(node_id)]. *)
Definition tree_depth (fuel : nat) (s : state) (i : Z) : option (outcome Z) :=
  match at_deref s i with
  | Ok d => depth_fuel fuel s d
  | Throw => Some Throw
  | UB => Some UB
  end.

(** InteractionTree.cxx:122-133: the range checks of one datum, [n] the tree size
    as uint32; null targets throw. *)
Definition link_ok (s : state) (n i : Z) : bool :=
  (i <? n) &&
  match nth_error (st_tree s) (Z.to_nat i) with Some (Some _) => true | _ => false end.

(** InteractionTree.cxx:117-133: the body of the validation loop for index [i]. *)
Definition validate_one (s : state) (n : Z) (i : Z) (e : option ptr) : outcome unit :=
  match e with
  | None => Throw
  | Some p =>
      match nth_error (st_heap s) p with
      | None => UB
      | Some d =>
          if negb (d_node_id d =? i) then Throw
          else if negb (d_parent d =? kNoParent) && negb (link_ok s n (d_parent d)) then Throw
          else if forallb (link_ok s n) (d_daughters d) then Ok tt
          else Throw
      end
  end.

(** InteractionTree.cxx:116: the loop over positions. *)
Fixpoint validate_from (s : state) (n : Z) (i : Z) (l : list (option ptr)) : outcome unit :=
  match l with
  | [] => Ok tt
  | e :: r =>
      match validate_one s n i e with
      | Ok _ => validate_from s n (i + 1) r
      | Throw => Throw
      | UB => UB
      end
  end.

(** InteractionTree.cxx:114-135, [validate_indices]. The loop bound is the tree
    size converted to uint32. *)
Definition validate_indices (s : state) : outcome unit :=
  let n := to_u32 (Z.of_nat (length (st_tree s))) in
  validate_from s n 0 (firstn (Z.to_nat n) (st_tree s)).

(** ** Archives *)

(** What cereal writes for one [shared_ptr] of the vector: null, a first
    occurrence with its id and contents, or a reference to an earlier id.
    The contents of a version-1 datum are the four members of
    InteractionTree.h:77-86; the record is written through its own serialiser
    and treated as a value here. Simplification: tokens instead of bytes. *)
Inductive token :=
| TNull
| TNew (id : Z) (r : R) (nid par : Z) (ds : list Z)
| TRef (id : Z).

(** cereal's output pointer table: address -> id. InteractionTree.h:147. *)
Fixpoint find_id (m : list (ptr * Z)) (p : ptr) : option Z :=
  match m with
  | [] => None
  | (q, i) :: r => if Nat.eqb p q then Some i else find_id r p
  end.

(** InteractionTree.h:145-152, "Tree" member of [save]: cereal registers each
    pointer on first sight with the next id, starting at 1. *)
Fixpoint save_ptrs (h : heap) (m : list (ptr * Z)) (next : Z) (l : list (option ptr)) : outcome (list token) :=
  match l with
  | [] => Ok []
  | None :: r =>
      match save_ptrs h m next r with Ok t => Ok (TNull :: t) | e => e end
  | Some p :: r =>
      match find_id m p with
      | Some i => match save_ptrs h m next r with Ok t => Ok (TRef i :: t) | e => e end
      | None =>
          match nth_error h p with
          | None => UB
          | Some d =>
              match save_ptrs h ((p, next) :: m) (next + 1) r with
              | Ok t => Ok (TNew next (d_record d) (d_node_id d) (d_parent d) (d_daughters d) :: t)
              | e => e
              end
          end
      end
  end.

(** InteractionTree.h:145-152. *)
Definition save_tree (s : state) : outcome (list token) := save_ptrs (st_heap s) [] 1 (st_tree s).

(** cereal's input pointer table: id -> address. InteractionTree.h:154-161. *)
Fixpoint find_ptr (m : list (Z * ptr)) (i : Z) : option ptr :=
  match m with
  | [] => None
  | (j, q) :: r => if Z.eqb i j then Some q else find_ptr r i
  end.

(** InteractionTree.h:156 / 87-93: reading the vector back. An unknown id makes
    cereal throw. *)
Fixpoint load_ptrs (h : heap) (m : list (Z * ptr)) (l : list token) : outcome (heap * list (option ptr)) :=
  match l with
  | [] => Ok (h, [])
  | TNull :: r =>
      match load_ptrs h m r with Ok (h', t) => Ok (h', None :: t) | e => e end
  | TRef i :: r =>
      match find_ptr m i with
      | None => Throw
      | Some p => match load_ptrs h m r with Ok (h', t) => Ok (h', Some p :: t) | e => e end
      end
  | TNew i x nid par ds :: r =>
      let p := length h in
      match load_ptrs (h ++ [mkdatum x nid par ds None []]) ((i, p) :: m) r with
      | Ok (h', t) => Ok (h', Some p :: t)
      | e => e
      end
  end.

(** InteractionTree.h:153-158, [load] of version 1, into a fresh heap. *)
Definition load_tree (l : list token) : outcome state :=
  match load_ptrs [] [] l with
  | Ok (h, t) =>
      match validate_indices (mkstate h t) with
      | Ok _ => Ok (mkstate h t)
      | Throw => Throw
      | UB => UB
      end
  | Throw => Throw
  | UB => UB
  end.

(** InteractionTree.cxx:29-34, [InteractionTreeDatum::operator==], given
    equality of records. *)
Definition datum_eqb (reqb : R -> R -> bool) (a b : datum) : bool :=
  (d_node_id a =? d_node_id b) && (d_parent a =? d_parent b)
  && (if list_eq_dec Z.eq_dec (d_daughters a) (d_daughters b) then true else false)
  && reqb (d_record a) (d_record b).

(** InteractionTree.cxx:45-50: the element-wise comparison. *)
Fixpoint entries_eqb (reqb : R -> R -> bool) (h1 h2 : heap) (l1 l2 : list (option ptr)) : outcome bool :=
  match l1, l2 with
  | [], [] => Ok true
  | None :: r1, None :: r2 => entries_eqb reqb h1 h2 r1 r2
  | Some p :: r1, Some q :: r2 =>
      match nth_error h1 p, nth_error h2 q with
      | Some a, Some b => if datum_eqb reqb a b then entries_eqb reqb h1 h2 r1 r2 else Ok false
      | _, _ => UB
      end
  | _, _ => Ok false
  end.

(** InteractionTree.cxx:42-52, [InteractionTree::operator==] (headers apart). *)
Definition tree_eqb (reqb : R -> R -> bool) (s1 s2 : state) : outcome bool :=
  if negb (Nat.eqb (length (st_tree s1)) (length (st_tree s2))) then Ok false
  else entries_eqb reqb (st_heap s1) (st_heap s2) (st_tree s1) (st_tree s2).

(** ** Legacy archives *)

(** InteractionTree.cxx:86-90: the map from pointer to position; a later
    position overwrites an earlier one. A null entry is a key as well. *)
Fixpoint index_of (l : list (option ptr)) (i : Z) (p : option ptr) : option Z :=
  match l with
  | [] => None
  | q :: r =>
      match index_of r (i + 1) p with
      | Some j => Some j
      | None =>
          match q, p with
          | Some a, Some b => if Nat.eqb a b then Some (to_u32 i) else None
          | None, None => Some (to_u32 i)
          | _, _ => None
          end
      end
  end.

(** InteractionTree.cxx:101-104. *)
Fixpoint positions (l : list (option ptr)) (ds : list (option ptr)) : list Z :=
  match ds with
  | [] => []
  | d :: r =>
      match index_of l 0 d with
      | Some j => j :: positions l r
      | None => positions l r
      end
  end.

(** InteractionTree.cxx:91-105: the second loop. *)
Fixpoint rebuild_from (l : list (option ptr)) (h : heap) (i : Z) (todo : list (option ptr)) : outcome heap :=
  match todo with
  | [] => Ok h
  | None :: _ => UB
  | Some p :: r =>
      match nth_error h p with
      | None => UB
      | Some d =>
          let par :=
            match d_legacy_parent d with
            | None => kNoParent
            | Some q => match index_of l 0 (Some q) with Some j => j | None => kNoParent end
            end in
          rebuild_from l
            (heap_set h p (set_ids d (to_u32 i) par (positions l (d_legacy_daughters d)))) (i + 1) r
      end
  end.

(** InteractionTree.cxx:107-110: clearing the legacy pointers. *)
Fixpoint clear_legacy (h : heap) (todo : list (option ptr)) : heap :=
  match todo with
  | [] => h
  | None :: r => clear_legacy h r
  | Some p :: r =>
      match nth_error h p with
      | None => clear_legacy h r
      | Some d => clear_legacy (heap_set h p (mkdatum (d_record d) (d_node_id d) (d_parent d) (d_daughters d) None [])) r
      end
  end.

(** InteractionTree.cxx:82-112, [rebuild_indices_from_legacy], applied to the
    pointers read by InteractionTree.h:159-161. *)
Definition rebuild_legacy (s : state) : outcome state :=
  match rebuild_from (st_tree s) (st_heap s) 0 (st_tree s) with
  | Ok h =>
      let s' := mkstate (clear_legacy h (st_tree s)) (st_tree s) in
      match validate_indices s' with
      | Ok _ => Ok s'
      | Throw => Throw
      | UB => UB
      end
  | Throw => Throw
  | UB => UB
  end.

End Tree.

Arguments mkdatum {R}. Arguments d_record {R}. Arguments d_node_id {R}. Arguments d_parent {R}.
Arguments d_daughters {R}. Arguments d_legacy_parent {R}. Arguments d_legacy_daughters {R}.
Arguments mkstate {R}. Arguments st_heap {R}. Arguments st_tree {R}.
Arguments new_datum {R}. Arguments heap_set {R}. Arguments set_ids {R}. Arguments add_ptr {R}.
Arguments alloc {R}. Arguments add_copy {R}. Arguments add_record {R}. Arguments at_deref {R}.
Arguments depth_loop {R}. Arguments depth_fuel {R}. Arguments tree_depth {R}. Arguments link_ok {R}.
Arguments validate_one {R}. Arguments validate_from {R}. Arguments validate_indices {R}.
Arguments TNull {R}. Arguments TNew {R}. Arguments TRef {R}. Arguments save_ptrs {R}.
Arguments save_tree {R}. Arguments load_ptrs {R}. Arguments load_tree {R}. Arguments datum_eqb {R}.
Arguments entries_eqb {R}. Arguments tree_eqb {R}. Arguments rebuild_from {R}. Arguments clear_legacy {R}.
Arguments rebuild_legacy {R}.
