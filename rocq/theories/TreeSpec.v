(** What it means for an interaction tree to be well formed, independently of how
    it is stored. *)
From Coq Require Import List Bool ZArith Relations.
From Verif Require Import TraversalModel TreeModel.
Import ListNotations.
Open Scope Z_scope.

(** A tree as the reader of the event sees it: record, own id, parent id,
    daughter ids, by position. *)
Definition row (R : Type) : Type := R * Z * Z * list Z.
Definition row_id {R} (x : row R) : Z := let '(_, i, _, _) := x in i.
Definition row_parent {R} (x : row R) : Z := let '(_, _, p, _) := x in p.
Definition row_daughters {R} (x : row R) : list Z := let '(_, _, _, d) := x in d.
Definition row_record {R} (x : row R) : R := let '(r, _, _, _) := x in r.

(** [t] is what a state shows. *)
Definition shows {R} (s : state R) (t : list (row R)) : Prop :=
  Forall2 (fun e x => exists p d, e = Some p /\ nth_error (st_heap s) p = Some d /\
             x = (d_record d, d_node_id d, d_parent d, d_daughters d)) (st_tree s) t.

(** Row at position [i]. *)
Definition at_pos {R} (t : list (row R)) (i : Z) (x : row R) : Prop :=
  0 <= i /\ nth_error t (Z.to_nat i) = Some x.

(** [p] names no parent, or the parent at an earlier position. *)
Record well_formed {R} (t : list (row R)) : Prop := {
  wf_id : forall i x, at_pos t i x -> row_id x = i;
  wf_parent : forall i x, at_pos t i x -> row_parent x = kNoParent \/ 0 <= row_parent x < i;
  wf_mirror : forall i j x y, at_pos t i x -> at_pos t j y ->
     count_occ Z.eq_dec (row_daughters x) j = if row_parent y =? i then 1%nat else 0%nat;
  wf_daughters : forall i x j, at_pos t i x -> In j (row_daughters x) -> i < j < Z.of_nat (length t)
}.

(** Histories of one tree: states reachable by adding records, copies of data, or
    fresh data, under no parent or under a datum that this tree returned
    before, and by overwriting the record of any datum. [ps] lists the returned
    pointers. *)
Inductive built {R : Type} : state R -> list ptr -> Prop :=
| built_empty h : built (mkstate h []) []
| built_alloc s ps d : built s ps -> built (fst (alloc s d)) ps
| built_record s ps r parent s' p :
    built s ps -> (parent = None \/ exists q, parent = Some q /\ In q ps) ->
    add_record s r parent = Ok (s', p) -> built s' (ps ++ [p])
| built_copy s ps d parent s' p :
    built s ps -> (parent = None \/ exists q, parent = Some q /\ In q ps) ->
    add_copy s d parent = Ok (s', p) -> built s' (ps ++ [p])
| built_ptr s ps parent s' p0 p :
    built s ps -> (parent = None \/ exists q, parent = Some q /\ In q ps) ->
    ~ In p0 ps -> (p0 < length (st_heap s))%nat ->
    add_ptr s p0 parent = Ok (s', p) -> built s' (ps ++ [p])
| built_write s ps p d r :
    built s ps -> nth_error (st_heap s) p = Some d ->
    built (mkstate (heap_set (st_heap s) p
             (mkdatum r (d_node_id d) (d_parent d) (d_daughters d) (d_legacy_parent d) (d_legacy_daughters d)))
             (st_tree s)) ps.

(** [j] is the parent of [i]. *)
Definition parent_of {R} (t : list (row R)) (i j : Z) : Prop :=
  exists x y, at_pos t i x /\ row_parent x = j /\ j <> kNoParent /\ at_pos t j y.

(** [j] is a proper ancestor of [i]. *)
Definition ancestor {R} (t : list (row R)) (j i : Z) : Prop := clos_trans Z (parent_of t) i j.
