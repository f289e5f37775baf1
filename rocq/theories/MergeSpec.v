(** Merging GDML files: specification. *)
From Coq Require Import List Ascii.
From Verif Require Import MergeModel.
Import ListNotations.

(** The three namespaces of materials. *)
Inductive kind := Isotopes | Elements | Materials.

Section Spec.
Context {F G P : Type}.
Variable numbers_eq : F * F * F -> F * F * F -> bool.
Variable composition_eq : list (list ascii * F) -> list (list ascii * F) -> bool.
Variable solid_eq : G -> G -> bool.
Variable placement_eq : P -> P -> bool.

(** The definitions of a namespace. *)
Definition namespace (k : kind) (d : data F G P) : list (list ascii * material F) :=
  match k with Isotopes => d_isotopes d | Elements => d_elements d | Materials => d_materials d end.

(** [n] is [a] in the map. *)
Definition is {A : Type} (m : list (list ascii * A)) (n : list ascii) (a : A) : Prop := In (n, a) m.
(** Each name once. *)
Definition once {A : Type} (m : list (list ascii * A)) : Prop := NoDup (map fst m).

(** A map as the parser leaves it: names once, and each definition knows its name. *)
Definition sound (d : data F G P) : Prop :=
  (forall k, once (namespace k d) /\ forall n a, is (namespace k d) n a -> m_name a = n /\ once (m_composition a)) /\
  once (d_solids d) /\
  (once (d_volumes d) /\ forall n a, is (d_volumes d) n a -> v_name a = n) /\
  once (d_positions d) /\ once (d_rotations d) /\ once (d_constants d).

(** Two materials or volumes are the same on paper. *)
Definition same_material (a b : material F) : bool := material_eq numbers_eq composition_eq a b.
Definition same_volume (a b : volume P) : bool := volume_eq placement_eq a b.

(** The two files define [n] differently. *)
Definition differs (this other : data F G P) (n : list ascii) : Prop :=
  (exists k a b, is (namespace k this) n a /\ is (namespace k other) n b /\ same_material a b = false) \/
  (exists a b, is (d_solids this) n a /\ is (d_solids other) n b /\ solid_eq a b = false) \/
  (exists a b, is (d_volumes this) n a /\ is (d_volumes other) n b /\ same_volume a b = false).

(** [n] is a name of the file. *)
Definition known (d : data F G P) (n : list ascii) : Prop :=
  (exists k a, is (namespace k d) n a) \/ (exists a, is (d_solids d) n a) \/ (exists a, is (d_volumes d) n a) \/
  (exists a, is (d_positions d) n a) \/ (exists a, is (d_rotations d) n a) \/ (exists a, is (d_constants d) n a).

(** The names that a definition mentions. *)
Definition material_mentions (a : material F) (n : list ascii) : Prop := In n (map fst (m_composition a)).
Definition volume_mentions (a : volume P) (n : list ascii) : Prop :=
  n = v_solid a \/ n = v_material a \/ In n (map fst (v_children a)).

(** A definition on which both files agree mentions no name on which they differ. *)
Definition deep (this other : data F G P) : Prop :=
  (forall k n a b m, is (namespace k this) n a -> is (namespace k other) n b -> same_material a b = true ->
     material_mentions b m -> ~ differs this other m) /\
  (forall n a b m, is (d_volumes this) n a -> is (d_volumes other) n b -> same_volume a b = true ->
     volume_mentions b m -> ~ differs this other m).

(** A definition with other names. *)
Definition volume_under (r : list ascii -> list ascii) (a b : volume P) : Prop :=
  v_name b = r (v_name a) /\ v_solid b = r (v_solid a) /\ v_material b = r (v_material a) /\ v_assembly b = v_assembly a /\
  Forall2 (fun x y => fst y = r (fst x) /\ snd y = snd x) (v_children a) (v_children b).
Definition material_under (r : list ascii -> list ascii) (a b : material F) : Prop :=
  m_name b = r (m_name a) /\ m_numbers b = m_numbers a /\
  Forall2 (fun x y => fst y = r (fst x) /\ snd y = snd x) (m_composition a) (m_composition b).

End Spec.
