(** Model of the merging of a GDML file into the file that includes it.
    Sources: projects/detector/private/GDMLParser.cxx and projects/detector/public/SIREN/detector/GDMLParser.h.
    A hash map is the list of its entries in the order in which the code would go through it. *)
From Coq Require Import List Bool Arith Ascii String.
From Verif Require Import GdmlModel InstModel.
Import ListNotations.

(** [find] in a hash map, GDMLParser.cxx:59, 69, 75 and 99. *)
Fixpoint assoc {A : Type} (m : list (name * A)) (k : name) : option A :=
  match m with
  | [] => None
  | (x, v) :: r => if str_eqb x k then Some v else assoc r k
  end.

(** [count] in a hash map, GDMLParser.cxx:35-38. *)
Definition has {A : Type} (m : list (name * A)) (k : name) : bool :=
  match assoc m k with Some _ => true | None => false end.

(** Assignment through operator[], GDMLParser.cxx:61, 71, 93 and 119. *)
Fixpoint assign {A : Type} (m : list (name * A)) (k : name) (v : A) : list (name * A) :=
  match m with
  | [] => [(k, v)]
  | (x, w) :: r => if str_eqb x k then (x, v) :: r else (x, w) :: assign r k v
  end.

(** [emplace]: no effect on a key that is there, GDMLParser.cxx:131 and 133. *)
Definition emplace {A : Type} (m : list (name * A)) (k : name) (v : A) : list (name * A) :=
  if has m k then m else m ++ [(k, v)].

Section Merge.
(** Numbers, bodies of solids and placements; the code compares them with ==. *)
Variable F G P : Type.
(** == of the numbers of a material and of its composition, GDMLParser.h:29-32. *)
Variable numbers_eq : F * F * F -> F * F * F -> bool.
Variable composition_eq : list (name * F) -> list (name * F) -> bool.
(** == of solids, GDMLParser.cxx:70. *)
Variable solid_eq : G -> G -> bool.
(** == of positions and rotations, GDMLParser.cxx:86-87. *)
Variable placement_eq : P -> P -> bool.

(** [GDMLMaterial], GDMLParser.h:21-33; density, Z and A together. Simplification: the composition is a
    list without the order of std::map. *)
Record material := mkmaterial { m_name : name; m_numbers : F * F * F; m_composition : list (name * F) }.

(** GDMLParser.h:29-32. *)
Definition material_eq (a b : material) : bool :=
  str_eqb (m_name a) (m_name b) && numbers_eq (m_numbers a) (m_numbers b) && composition_eq (m_composition a) (m_composition b).

(** [GDMLVolume] and [GDMLPhysVol], GDMLParser.h:35-47; position and rotation together. *)
Record volume := mkvolume { v_name : name; v_solid : name; v_material : name; v_assembly : bool; v_children : list (name * P) }.

(** The comparison of volumes, GDMLParser.cxx:77-92. *)
Fixpoint children_eq (a b : list (name * P)) : bool :=
  match a, b with
  | [], [] => true
  | (x, p) :: a, (y, q) :: b => str_eqb x y && placement_eq p q && children_eq a b
  | _, _ => false
  end.
(** Not [differ], GDMLParser.cxx:77-92. *)
Definition volume_eq (a b : volume) : bool :=
  str_eqb (v_solid a) (v_solid b) && str_eqb (v_material a) (v_material b) &&
  Bool.eqb (v_assembly a) (v_assembly b) && children_eq (v_children a) (v_children b).

(** The part of [GDMLData] that is merged, GDMLParser.h:68-94. Simplification: the warnings are left out, and
    positions, rotations and constants are one map of placements each. *)
Record data := mkdata {
  d_isotopes : list (name * material);
  d_elements : list (name * material);
  d_materials : list (name * material);
  d_solids : list (name * G);
  d_volumes : list (name * volume);
  d_positions : list (name * P);
  d_rotations : list (name * P);
  d_constants : list (name * F);
  d_world : name
}.

(** [inAny], GDMLParser.cxx:34-39. *)
Definition in_any (c : name) (d : data) : bool :=
  has (d_materials d) c || has (d_elements d) c || has (d_isotopes d) c || has (d_solids d) c ||
  has (d_volumes d) c || has (d_positions d) c || has (d_rotations d) c || has (d_constants d) c.

(** The number of entries of a data; bound for the search of [findUnique], modelling device for
    GDMLParser.cxx:43-52. *)
Definition size (d : data) : nat :=
  List.length (d_materials d) + List.length (d_elements d) + List.length (d_isotopes d) + List.length (d_solids d) +
  List.length (d_volumes d) + List.length (d_positions d) + List.length (d_rotations d) + List.length (d_constants d).

(** Is a name taken, GDMLParser.cxx:45-50. *)
Definition taken (this other : data) (ren : list (name * name)) (c : name) : bool :=
  in_any c this || in_any c other || existsb (fun r => str_eqb (snd r) c) ren.

(** The loop of [findUnique], GDMLParser.cxx:40-53; [None] is a search that did not end in [fuel] turns. *)
Fixpoint find_unique (fuel : nat) (this other : data) (ren : list (name * name)) (n : name) (suffix : nat) : option name :=
  match fuel with
  | 0 => None
  | S fuel =>
      let candidate := n ++ text "_" ++ decimal suffix in
      if taken this other ren candidate then find_unique fuel this other ren n (S suffix) else Some candidate
  end.

(** [findUnique] with a number of turns that is enough, GDMLParser.cxx:40-53. *)
Definition unique (this other : data) (ren : list (name * name)) (n : name) : option name :=
  find_unique (S (size this + size other + List.length ren)) this other ren n 2.

(** One pass over a map of the other file, GDMLParser.cxx:57-63, 68-72 and 74-95. *)
Fixpoint check {A : Type} (eqd : A -> A -> bool) (this other : data) (mine : list (name * A)) (sub : list (name * A))
  (ren : list (name * name)) : option (list (name * name)) :=
  match sub with
  | [] => Some ren
  | (n, b) :: rest =>
      match assoc mine n with
      | Some a =>
          if eqd a b then check eqd this other mine rest ren
          else match unique this other ren n with
               | Some c => check eqd this other mine rest (assign ren n c)
               | None => None
               end
      | None => check eqd this other mine rest ren
      end
  end.

(** All passes, GDMLParser.cxx:64-95. *)
Definition collisions (this other : data) : option (list (name * name)) :=
  match check material_eq this other (d_isotopes this) (d_isotopes other) [] with
  | None => None
  | Some r =>
  match check material_eq this other (d_elements this) (d_elements other) r with
  | None => None
  | Some r =>
  match check material_eq this other (d_materials this) (d_materials other) r with
  | None => None
  | Some r =>
  match check solid_eq this other (d_solids this) (d_solids other) r with
  | None => None
  | Some r => check volume_eq this other (d_volumes this) (d_volumes other) r
  end end end end.

(** The lambda [r], GDMLParser.cxx:98-101. *)
Definition renamed (ren : list (name * name)) (n : name) : name :=
  match assoc ren n with Some c => c | None => n end.

(** The renaming inside a volume, GDMLParser.cxx:106-112. *)
Definition rename_volume (r : name -> name) (v : volume) : volume :=
  mkvolume (r (v_name v)) (r (v_solid v)) (r (v_material v)) (v_assembly v) (map (fun c => (r (fst c), snd c)) (v_children v)).

(** The renaming inside a material, GDMLParser.cxx:116-120. *)
Definition rename_material (r : name -> name) (m : material) : material :=
  mkmaterial (r (m_name m)) (m_numbers m)
    (fold_left (fun c e => assign c (r (fst e)) (snd e)) (m_composition m) []).

(** The renaming inside the other file, GDMLParser.cxx:103-123. *)
Definition rename_data (ren : list (name * name)) (d : data) : data :=
  match ren with
  | [] => d
  | _ =>
      let r := renamed ren in
      let in_map {A} (f : A -> A) := map (fun e : name * A => (fst e, f (snd e))) in
      mkdata (in_map (rename_material r) (d_isotopes d)) (in_map (rename_material r) (d_elements d))
             (in_map (rename_material r) (d_materials d)) (d_solids d) (in_map (rename_volume r) (d_volumes d))
             (d_positions d) (d_rotations d) (d_constants d) (r (d_world d))
  end.

(** The lambda [merge], GDMLParser.cxx:127-134. *)
Definition merge_map {A : Type} (r : name -> name) (sub dst : list (name * A)) : list (name * A) :=
  let staged := fold_left (fun s e => emplace s (r (fst e)) (snd e)) sub [] in
  fold_left (fun d e => emplace d (fst e) (snd e)) staged dst.

(** What [MergeFrom] leaves: this file, the other file and the renames, GDMLParser.cxx:29-149. *)
Definition merge_from (this other : data) : option (data * data * list (name * name)) :=
  match collisions this other with
  | None => None
  | Some ren =>
      let o := rename_data ren other in
      let r := renamed ren in
      Some (mkdata (merge_map r (d_isotopes o) (d_isotopes this)) (merge_map r (d_elements o) (d_elements this))
                   (merge_map r (d_materials o) (d_materials this)) (merge_map r (d_solids o) (d_solids this))
                   (merge_map r (d_volumes o) (d_volumes this)) (merge_map r (d_positions o) (d_positions this))
                   (merge_map r (d_rotations o) (d_rotations this)) (merge_map r (d_constants o) (d_constants this))
                   (d_world this), o, ren)
  end.

End Merge.
Arguments mkmaterial {F}.
Arguments m_name {F}.
Arguments m_numbers {F}.
Arguments m_composition {F}.
Arguments mkvolume {P}.
Arguments v_name {P}.
Arguments v_solid {P}.
Arguments v_material {P}.
Arguments v_assembly {P}.
Arguments v_children {P}.
Arguments mkdata {F G P}.
Arguments d_isotopes {F G P}.
Arguments d_elements {F G P}.
Arguments d_materials {F G P}.
Arguments d_solids {F G P}.
Arguments d_volumes {F G P}.
Arguments d_positions {F G P}.
Arguments d_rotations {F G P}.
Arguments d_constants {F G P}.
Arguments d_world {F G P}.
Arguments material_eq {F}.
Arguments volume_eq {P}.
Arguments children_eq {P}.
Arguments in_any {F G P}.
Arguments size {F G P}.
Arguments taken {F G P}.
Arguments find_unique {F G P}.
Arguments unique {F G P}.
Arguments check {F G P A}.
Arguments collisions {F G P}.
Arguments rename_volume {P}.
Arguments rename_material {F}.
Arguments rename_data {F G P}.
Arguments merge_from {F G P}.
